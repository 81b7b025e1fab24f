(** Searching a text that arrives in pieces. *)
From Coq Require Import String List Bool Arith NArith Lia.
Import ListNotations.
From Verif Require Import Base Parser Errors Token Combinator Sequence Choice Repeat RangeP ByteP.
From Verif Require Import Spec AgreeSpec RangeSpec DecodeSpec ChunkSpec SearchSpec ResultProofs CombProofs CombProofs2 ByteProofs ForwardProofs LawsProofs RangeProofs.
Unset Implicit Arguments.

(** [F w b]: what is looked for is in [w] right after [b]. *)
Record search_laws {X} (s : list X -> take_range) (F : list X -> list X -> Prop) : Prop := {
  sr_found : forall h k, s h = Found k -> exists b a, h = b ++ a /\ length b = k /\ F h b;
  sr_none : forall h n, s h = NotFound n -> n <= length h /\ (forall b, ~ F h b) /\ forall more b, F (h ++ more) b -> n <= length b;
  sr_shift : forall x y b, F (x ++ y) (x ++ b) -> F y b;
  sr_unshift : forall x y b, F y b -> (forall b', F (x ++ y) b' -> length x <= length b') -> F (x ++ y) (x ++ b);
  sr_prefix : forall h b, F h b -> exists a, h = b ++ a
}.


Lemma first_all {X} (a b : list X) : firstn (length a) (a ++ b) = a.
Proof. rewrite firstn_app, Nat.sub_diag, firstn_all, firstn_O, app_nil_r. reflexivity. Qed.
Lemma first_short {X} n (h m : list X) : n <= length h -> firstn n (h ++ m) = firstn n h.
Proof. intros K. rewrite firstn_app. replace (n - length h) with 0 by lia. rewrite firstn_O, app_nil_r. reflexivity. Qed.
Lemma laws_map {X} (code : X -> N) s F : search_laws s F -> search_laws (fun h => s (List.map code h)) (fun h b => (exists a, h = b ++ a) /\ F (List.map code h) (List.map code b)).
Proof.
  intros [H1 H2 H3 H4 H5]. constructor.
  - intros h k K. destruct (H1 _ _ K) as [b [a [K1 [K2 K3]]]]. exists (firstn k h), (skipn k h). rewrite firstn_skipn. split; [reflexivity|].
    assert (Kb : List.map code (firstn k h) = b) by (rewrite <- firstn_map, K1, <- K2, firstn_app, Nat.sub_diag, firstn_all, firstn_O, app_nil_r; reflexivity).
    split; [rewrite <- (map_length code (firstn k h)), Kb; exact K2|]. split; [exists (skipn k h); symmetry; apply firstn_skipn|]. rewrite Kb. exact K3.
  - intros h n K. destruct (H2 _ _ K) as [K1 [K2 K3]]. rewrite map_length in K1. split; [exact K1|]. split; [intros b [_ Q]; exact (K2 _ Q)|].
    intros more b [_ Q]. rewrite map_app in Q. apply K3 in Q. rewrite map_length in Q. exact Q.
  - intros x y b [[a Ha] Q]. rewrite !map_app in Q. rewrite <- app_assoc in Ha. apply app_inv_head in Ha. split; eauto.
  - intros x y b [[a Ha] Q] K. split; [exists a; rewrite Ha, app_assoc; reflexivity|]. rewrite !map_app. apply H4; [exact Q|]. intros b' Kb. rewrite map_length.
    rewrite <- map_app in Kb. destruct (H5 _ _ Kb) as [a' Ka]. pose proof (f_equal (@length N) Ka) as Kl. rewrite app_length, map_length in Kl.
    assert (Kf : List.map code (firstn (length b') (x ++ y)) = b') by (rewrite <- firstn_map, Ka, firstn_app, Nat.sub_diag, firstn_all, firstn_O, app_nil_r; reflexivity).
    assert (Z : length x <= length (firstn (length b') (x ++ y))).
    { apply K. split; [exists (skipn (length b') (x ++ y)); symmetry; apply firstn_skipn|]. rewrite Kf. exact Kb. }
    rewrite firstn_length in Z. lia.
  - intros h b [K _]. exact K.
Qed.

Lemma first_in_not (f : N -> bool) l : (forall x, In x l -> f x = false) \/ exists b t a, l = b ++ t :: a /\ f t = true /\ Forall (fun x => f x = false) b.
Proof.
  induction l as [|x l IH]; [left; intros ? []|]. destruct (f x) eqn:Hx; [right; exists [], x, l; auto|].
  destruct IH as [IH|[b [t [a [-> [H1 H2]]]]]]; [left; intros z [<-|Hz]; auto|right; exists (x :: b), t, a; auto].
Qed.
Lemma laws_byte (f : N -> bool) (is : N -> Prop) : (forall x, f x = true <-> is x) ->
  search_laws (fun h => match find_index f h with Some i => Found i | None => NotFound (length h) end) (first_in is).
Proof.
  intros Hf. assert (Hn : forall x, f x = false <-> ~ is x) by (intros x; rewrite <- Hf; destruct (f x); intuition congruence).
  assert (HF : forall l, Forall (fun x => f x = false) l <-> Forall (fun x => ~ is x) l) by (intros l; split; apply Forall_impl; intros x; apply Hn).
  constructor.
  - intros h k K. destruct (find_index f h) as [j|] eqn:Hi; inversion K; subst. destruct (find_index_some _ _ _ Hi) as [b [x [a [H1 [H2 [H3 H4]]]]]].
    exists b, (x :: a). split; [exact H1|]. split; [exact H2|]. exists x, a. split; [exact H1|]. split; [apply Hf; exact H3|apply HF; exact H4].
  - intros h n K. destruct (find_index f h) as [j|] eqn:Hi; inversion K; subst. apply find_index_none in Hi. rewrite Forall_forall in Hi. split; [auto|].
    split; [intros b [t [a [-> [H1 H2]]]]; apply Hf in H1; rewrite Hi in H1; [discriminate|apply in_or_app; right; left; reflexivity]|].
    intros more b [t [a [H1 [H2 H3]]]]. destruct (Nat.le_gt_cases (length h) (length b)) as [|Hl]; auto. exfalso. apply Hf in H2. rewrite Hi in H2; [discriminate|].
    assert (Q : nth_error (h ++ more) (length b) = Some t) by (rewrite H1, nth_error_app2, Nat.sub_diag by lia; reflexivity).
    rewrite nth_error_app1 in Q by exact Hl. apply nth_error_In in Q. exact Q.
  - intros x y b [t [a [H1 [H2 H3]]]]. rewrite <- app_assoc in H1. apply app_inv_head in H1. apply Forall_app in H3. exists t, a. tauto.
  - intros x y b [t [a [H1 [H2 H3]]]] K. exists t, a. split; [rewrite H1, app_assoc; reflexivity|]. split; [exact H2|]. apply Forall_app. split; [|exact H3].
    destruct (first_in_not f x) as [Q|[b0 [t0 [a0 [Q1 [Q2 Q3]]]]]]; [apply HF, Forall_forall; exact Q|]. exfalso.
    assert (Z : length x <= length b0); [|rewrite Q1, app_length in Z; cbn in Z; lia]. apply K. exists t0, (a0 ++ y).
    split; [rewrite Q1, <- app_assoc; reflexivity|]. split; [apply Hf; exact Q2|apply HF; exact Q3].
  - intros h b [t [a [H1 _]]]. eauto.
Qed.

Lemma laws_bytes (needle : list N) :
  search_laws (fun h => match memslice N.eqb needle h with Some i => Found i | None => NotFound (length h - (length needle - 1)) end) (first_of needle).
Proof.
  constructor.
  - intros h k K. destruct (memslice N.eqb needle h) as [j|] eqn:Hi; inversion K; subst. destruct (memslice_some _ _ _ Hi) as [b [a [H1 H2]]].
    exists b, (needle ++ a). split; [apply H1|]. split; [exact H2|]. exists a. exact H1.
  - intros h n K. destruct (memslice N.eqb needle h) as [j|] eqn:Hi; inversion K; subst. apply memslice_none in Hi. split; [lia|].
    split; [intros b [a [H1 _]]; apply Hi; exists b, a; exact H1|]. intros more b [a [H1 _]].
    destruct (Nat.le_gt_cases (length h - (length needle - 1)) (length b)) as [|Hl]; auto. exfalso.
    assert (Hn : 1 <= length needle) by (destruct needle; [exfalso; apply Hi; exists [], h; reflexivity|cbn; lia]). apply Hi.
    exists b, (skipn (length (b ++ needle)) h). rewrite app_assoc in H1.
    assert (Q : firstn (length (b ++ needle)) h = b ++ needle).
    { assert (Z : firstn (length (b ++ needle)) (h ++ more) = firstn (length (b ++ needle)) ((b ++ needle) ++ a)) by (f_equal; exact H1).
      rewrite first_all in Z. rewrite first_short in Z by (rewrite app_length; lia). exact Z. }
    rewrite app_assoc. rewrite <- Q at 1. symmetry. apply firstn_skipn.
  - intros x y b [a [H1 H2]]. rewrite <- app_assoc in H1. apply app_inv_head in H1. exists a. split; [exact H1|].
    intros b' a' K. assert (Z : length (x ++ b) <= length (x ++ b')) by (apply (H2 (x ++ b') a'); rewrite K, app_assoc; reflexivity). rewrite !app_length in Z. lia.
  - intros x y b [a [H1 H2]] K. exists a. split; [rewrite H1, app_assoc; reflexivity|]. intros b' a' Q.
    destruct (memslice N.eqb needle (x ++ y)) as [j|] eqn:Hi.
    + destruct (memslice_some _ _ _ Hi) as [b0 [a0 [J1 J2]]]. pose proof (K b0 (ex_intro _ a0 J1)) as Kx. destruct J1 as [J1 J3]. pose proof (J3 _ _ Q) as Kq.
      assert (Hb : b0 = x ++ skipn (length x) b0).
      { rewrite <- (firstn_skipn (length x) b0) at 1. f_equal. assert (Z : firstn (length x) (x ++ y) = firstn (length x) (b0 ++ needle ++ a0)) by (f_equal; exact J1).
        rewrite first_all in Z. rewrite first_short in Z by lia. symmetry. exact Z. }
      rewrite Hb, <- app_assoc in J1. apply app_inv_head in J1. apply H2 in J1. rewrite app_length. rewrite Hb, app_length in Kq. lia.
    + exfalso. apply memslice_none in Hi. apply Hi. exists b', a'. exact Q.
  - intros h b [a [H1 _]]. eauto.
Qed.

Section Search.
Context {C : Cfg}.
Notation T := (tok C).
Notation E := (Err C).

(** How a parser searches when called again and again on a growing buffer; [R st h]: the state fits all buffers that begin with [h]. *)
Definition search_by {S A} (F : list T -> list T -> Prop) (out : list T -> A) (R : S -> list T -> Prop) (p : parser C S A) : Prop :=
  (forall h, R (p_init p) h) /\ (forall st h c, R st h -> R st (h ++ c)) /\
  forall st h, R st h -> forall pos part,
  (exists b a st', h = b ++ a /\ F h b /\ p_run p false (Inp h pos part) st = Done (okr (consumed_some b) (out b), Inp a (pos_after pos b) part, st') /\ forall h, R st' h) \/
  (forall b, ~ F h b) /\ exists r st', p_run p false (Inp h pos part) st = Done (r, Inp h pos part, st') /\ R st' h /\
    (if part then exists q, r = CommitErr (e_from C q (se_eoi C)) else is_ok r = false).

Lemma slice_uncons (L : lawful C) (SL : is_slice (C:=C)) (i : input C) l r : rest i = l ++ r -> uncons_range (length l) i = (inl l, advance i l r).
Proof. intros H. rewrite <- (slice_units SL), <- range_len_units. apply (uncons_range_exact L). apply advance_by; auto. Qed.

Definition fn_fits (F : list T -> list T -> Prop) (k : nat) (h : list T) : Prop := k = 0 \/ k <= length h /\ forall more b, F (h ++ more) b -> k <= length b.

Lemma search_take_fn (L : lawful C) (SL : is_slice (C:=C)) s F : search_laws s F -> search_by F (fun b => b) (fn_fits F) (take_fn s).
Proof.
  intros HS. split; [|split].
  - intros h. left. reflexivity.
  - intros st h c [->|[H1 H2]]; [left; reflexivity|]. right. rewrite app_length. split; [lia|]. intros more b K. rewrite <- app_assoc in K. eauto.
  - intros k h HR pos part. unfold take_fn, mk_mode. cbn [p_run]. unfold take_fn_run.
    assert (H1 : k <= length h) by (destruct HR as [->|[H1 _]]; lia).
    assert (H2 : forall more b, F (h ++ more) b -> k <= length b) by (intros more b K; destruct HR as [->|[_ HR]]; [lia|eauto]).
    set (x := firstn k h). set (y := skipn k h). assert (Hh : h = x ++ y) by (symmetry; apply firstn_skipn).
    assert (Hx : length x = k) by (apply firstn_length_le; exact H1).
    assert (U : uncons_range k (Inp h pos part) = (inl x, advance (Inp h pos part) x y)) by (rewrite <- Hx; exact (slice_uncons L SL (Inp h pos part) x y Hh)).
    cbv zeta. rewrite U. cbn [snd]. unfold advance. cbn [rest ipos ipart].
    destruct (s y) as [j|n] eqn:Hs.
    + left. destruct (sr_found _ _ HS _ _ Hs) as [b [a [Hy [Hb HF]]]]. exists (x ++ b), a, 0.
      assert (Hw : h = (x ++ b) ++ a) by (rewrite <- app_assoc, <- Hy; exact Hh). split; [exact Hw|].
      split; [rewrite Hh; apply (sr_unshift _ _ HS); [exact HF|]; intros b' K; rewrite <- Hh in K; rewrite Hx; apply (H2 [] b'); rewrite app_nil_r; exact K|].
      split; [|intros h'; left; reflexivity].
      replace (k + j) with (length (x ++ b)) by (rewrite app_length; lia).
      rewrite (slice_take L SL (Inp h pos part) (x ++ b) a Hw). unfold advance. cbn [ipos ipart].
      destruct (consumed_some (x ++ b)); reflexivity.
    + right. destruct (sr_none _ _ HS _ _ Hs) as [Hn [Hno Hm]].
      assert (HNo : forall b, ~ F h b).
      { intros b K. destruct (sr_prefix _ _ HS _ _ K) as [a Ha]. assert (Hk : k <= length b) by (apply (H2 [] b); rewrite app_nil_r; exact K).
        assert (Hbx : b = x ++ skipn k b).
        { rewrite <- (firstn_skipn k b) at 1. f_equal. unfold x. rewrite Ha, firstn_app. replace (k - length b) with 0 by lia. rewrite firstn_O, app_nil_r. reflexivity. }
        rewrite Hbx, Hh in K. apply (sr_shift _ _ HS) in K. exact (Hno _ K). }
      split; [exact HNo|].
      assert (HR' : fn_fits F n h).
      { right. split; [rewrite Hh, app_length; lia|]. intros more b K. destruct (sr_prefix _ _ HS _ _ K) as [a Ha]. pose proof (H2 more b K) as Hk.
        assert (Hbx : b = x ++ skipn k b).
        { rewrite <- (firstn_skipn k b) at 1. f_equal. assert (Z : firstn k (h ++ more) = firstn k (b ++ a)) by (f_equal; exact Ha).
          rewrite !firstn_app in Z. replace (k - length b) with 0 in Z by lia. replace (k - length h) with 0 in Z by lia. rewrite !firstn_O, !app_nil_r in Z. symmetry. exact Z. }
        rewrite Hbx, Hh, <- app_assoc in K. apply (sr_shift _ _ HS) in K. apply Hm in K. rewrite Hbx, app_length. lia. }
      cbn [ipart]. destruct part; cbn [negb andb].
      * eexists _, n. split; [reflexivity|]. split; [exact HR'|]. eauto.
      * destruct (range_len y =? 0); eexists _, n; (split; [reflexivity|]); (split; [exact HR'|reflexivity]).
Qed.

Lemma search_parser_fn {S A} F (out : list T -> A) R (p : parser C S A) : search_by F out R p -> search_by F out R (parser_fn p).
Proof. intros [H1 [H2 H3]]. split; [exact H1|]. split; [exact H2|]. exact H3. Qed.

Lemma search_map {S A B} F (out : list T -> A) R (p : parser C S A) (f : A -> B) : search_by F out R p -> search_by F (fun b => f (out b)) R (map p f).
Proof.
  intros [H1 [H2 H3]]. split; [exact H1|]. split; [exact H2|]. intros st h HR pos part. unfold map, mk_mode. cbn [p_run].
  destruct (H3 st h HR pos part) as [[b [a [st' [K1 [K2 [K3 K4]]]]]]|[K1 [r [st' [K2 [K3 K4]]]]]].
  - left. exists b, a, st'. split; [exact K1|]. split; [exact K2|]. split; [|exact K4]. rewrite K3. destruct (consumed_some b); reflexivity.
  - right. split; [exact K1|]. rewrite K2. cbn. destruct part.
    + destruct K4 as [q ->]. eexists _, st'. split; [reflexivity|]. split; [exact K3|]. exists q. reflexivity.
    + eexists _, st'. split; [reflexivity|]. split; [exact K3|]. destruct r; auto; discriminate.
Qed.

Lemma search_recognize (L : lawful C) (D : pos_distinct C) {S A} F (out : list T -> A) R (p : parser C S A) : search_by F out R p ->
  search_by F (fun b => b) (fun st h => fst st = [] /\ R (snd st) h) (recognize p).
Proof.
  intros [H1 [H2 H3]]. split; [intros h; split; [reflexivity|apply H1]|]. split; [intros st h c [K1 K2]; split; auto|].
  intros [el st] h [K0 HR] pos part. cbn in K0, HR. subst el. unfold recognize, mk_mode. cbn [p_run]. unfold recognize_run.
  destruct (H3 st h HR pos part) as [[b [a [st' [K1 [K2 [K3 K4]]]]]]|[K1 [r [st' [K2 [K3 K4]]]]]].
  - left. exists b, a, ([], st'). split; [exact K1|]. split; [exact K2|]. split; [|intros h'; split; [reflexivity|apply K4]]. rewrite K3. cbn [omap ipos rest ipart].
    rewrite K1, (replay_exact L D). destruct (consumed_some b); reflexivity.
  - right. split; [exact K1|]. rewrite K2. cbn [omap ipos rest ipart]. pose proof (replay_exact L D [] h pos) as Q. cbn [app pos_after fold_left] in Q. rewrite Q.
    destruct part.
    + destruct K4 as [q ->]. eexists _, ([], st'). split; [reflexivity|]. split; [split; [reflexivity|exact K3]|]. exists q. reflexivity.
    + destruct r as [v|v|e|e]; try discriminate; eexists _, ([], st'); (split; [reflexivity|]); (split; [split; [reflexivity|exact K3]|reflexivity]).
Qed.

Lemma search_any_partial {S A} F (out : list T -> A) R (p : parser C S A) : search_by F out R p ->
  search_by F out (fun o h => match o with Some st => R st h | None => True end) (any_partial_state p).
Proof.
  intros [H1 [H2 H3]]. split; [intros h; exact I|]. split; [intros [st|] h c; auto|]. intros o h HR pos part. unfold any_partial_state, mk_both. cbn [p_run].
  set (st := match o with Some s => s | None => p_init p end).
  assert (HS : R st h) by (destruct o; [exact HR|apply H1]).
  assert (Q : any_partial_run p false (Inp h pos part) o = omap (fun x => match x with (r, i', s') => (r, i', match o, r with Some _, _ | None, CommitErr _ => Some s' | _, _ => None end) end) (p_run p false (Inp h pos part) st)).
  { unfold any_partial_run, st. destruct o; destruct (p_run p false (Inp h pos part) _) as [[[r i'] s']| |]; reflexivity. }
  rewrite Q. destruct (H3 st h HS pos part) as [[b [a [st' [K1 [K2 [K3 K4]]]]]]|[K1 [r [st' [K2 [K3 K4]]]]]].
  - left. rewrite K3. cbn [omap]. eexists b, a, _. split; [exact K1|]. split; [exact K2|]. split; [reflexivity|]. intros h'. destruct o; [apply K4|].
    destruct (okr (consumed_some b) (out b)); auto; apply K4.
  - right. split; [exact K1|]. rewrite K2. cbn [omap]. eexists r, _. split; [reflexivity|]. split; [|exact K4]. destruct o; [exact K3|]. destruct r; auto.
Qed.

Lemma okr_entry {A} c (v : A) : entry_result (C:=C) (okr c v) = inl v.
Proof. destruct c; reflexivity. Qed.
Lemma search_call {S A} F (out : list T -> A) R (p : parser C S A) : search_by F out R p -> forall st h, R st h -> forall pos part,
  (exists b a st', h = b ++ a /\ F h b /\ parse_with_state p (Inp h pos part) st = Done (inl (out b), Inp a (pos_after pos b) part, st') /\ forall h, R st' h) \/
  (forall b, ~ F h b) /\ exists e st', parse_with_state p (Inp h pos part) st = Done (inr e, Inp h pos part, st') /\ R st' h /\
    (if part then exists q, e = e_from C q (se_eoi C) else True).
Proof.
  intros [_ [_ H]] st h HR pos part. unfold parse_with_state, parse_stream_partial.
  destruct (H st h HR pos part) as [[b [a [st' [K1 [K2 [K3 K4]]]]]]|[K1 [r [st' [K2 [K3 K4]]]]]].
  - left. exists b, a, st'. split; [exact K1|]. split; [exact K2|]. split; [|exact K4]. rewrite K3. destruct (consumed_some b); reflexivity.
  - right. split; [exact K1|]. rewrite K2. destruct part.
    + destruct K4 as [q ->]. do 2 eexists. split; [reflexivity|]. eauto.
    + destruct r as [v|v|e|e]; try discriminate; do 2 eexists; (split; [reflexivity|]); auto.
Qed.

Lemma nil_tail {X} (u b : list X) : b = u ++ b -> u = [].
Proof. intros K. symmetry. apply (app_inv_tail b). exact K. Qed.
(** Sessions. *)
Section Sess.
Context (EL : eoi_laws C) {S A : Type} (F : list T -> list T -> Prop) (out : list T -> A) (R : S -> list T -> Prop) (p : parser C S A) (H : search_by F out R p).

Lemma search_session IoE st pos b eof cs used (fin : ending (C:=C) IoE A) st' pos' b' eof' : session p st pos b eof cs used fin st' pos' b' eof' -> R st b ->
  (cs <> [] -> forall v, ~ F (b ++ concat (removelast cs)) v) /\ used ++ b' = b ++ concat cs /\
  match fin with
  | EndValue v => v = out used /\ F (b ++ concat cs) used /\ forall h, R st' h
  | EndParse _ => eof' = true /\ used = [] /\ forall v, ~ F (b ++ concat cs) v
  | EndIo _ _ => used = [] /\ forall v, ~ F (b ++ concat cs) v
  end.
Proof.
  intros HS. induction HS as [st pos b eof used v st' b' E1 E2|st pos b eof e st' b' pos' E1 E2|st pos b used e st' b' ioe E1 E2 E3|
      st pos b used e st1 b1 bs cs used2 fin st' pos' b' eof' E1 E2 E3 E4 HS IH|st pos b used e st1 b1 cs used2 fin st' pos' b' eof' E1 E2 E3 HS IH]; intros HR.
  - cbn [concat]. rewrite !app_nil_r. split; [congruence|]. split; [symmetry; exact E1|]. unfold call_value in E2.
    destruct (search_call F out R p H st b HR pos (negb eof)) as [[v0 [a [s0 [K1 [K2 [K3 K4]]]]]]|[K1 [e [s0 [K2 _]]]]]; [|congruence].
    rewrite K3 in E2. inversion E2; subst. assert (X : v0 = used); [|subst; auto].
    apply app_inv_tail in K1. auto.
  - cbn [concat]. rewrite !app_nil_r. split; [congruence|]. split; [reflexivity|]. unfold call_error in E1.
    destruct (search_call F out R p H st b HR pos (negb eof)) as [[v0 [a [s0 [K1 [K2 [K3 K4]]]]]]|[K1 [e0 [s0 [K2 [K3 K4]]]]]]; [congruence|].
    split; [|auto]. destruct eof; auto. cbn in *. destruct E2 as [|E2]; auto. destruct K4 as [q ->]. rewrite K2 in E1. inversion E1; subst. rewrite (el_from EL), (el_se EL) in E2. discriminate.
  - cbn [concat]. rewrite !app_nil_r. split; [congruence|]. split; [symmetry; exact E1|]. unfold call_error in E2.
    destruct (search_call F out R p H st b HR pos true) as [[v0 [a [s0 [K1 [K2 [K3 K4]]]]]]|[K1 [e0 [s0 [K2 [K3 K4]]]]]]; [congruence|].
    split; [|exact K1]. rewrite K2 in E2. injection E2 as _ Eb _ Es. subst b'. exact (nil_tail _ _ E1).
  - unfold call_error in E2.
    destruct (search_call F out R p H st b HR pos true) as [[v0 [a [s0 [K1 [K2 [K3 K4]]]]]]|[K1 [e0 [s0 [K2 [K3 K4]]]]]]; [congruence|].
    rewrite K2 in E2. injection E2 as _ Eb _ Es. subst s0. subst b1. assert (Hu : used = []) by exact (nil_tail _ _ E1). subst used. clear E1 K2.
    cbn [app]. destruct IH as [I1 [I2 I3]]; [apply H; exact K3|]. cbn [concat]. rewrite <- app_assoc in I2. split; [|split; [exact I2|]].
    + intros _ v. cbn [removelast]. destruct cs as [|c cs]; [cbn; rewrite app_nil_r; apply K1|]. change (concat (bs :: removelast (c :: cs))) with (bs ++ concat (removelast (c :: cs))).
      rewrite app_assoc. apply I1. discriminate.
    + rewrite <- app_assoc in I3. exact I3.
  - unfold call_error in E2.
    destruct (search_call F out R p H st b HR pos true) as [[v0 [a [s0 [K1 [K2 [K3 K4]]]]]]|[K1 [e0 [s0 [K2 [K3 K4]]]]]]; [congruence|].
    rewrite K2 in E2. injection E2 as _ Eb _ Es. subst s0. subst b1. assert (Hu : used = []) by exact (nil_tail _ _ E1). subst used. clear E1 K2.
    cbn [app]. destruct IH as [I1 [I2 I3]]; [exact K3|]. cbn [concat app]. split; [|split; [exact I2|exact I3]].
    intros _ v. cbn [removelast]. destruct cs as [|c cs]; [cbn; rewrite app_nil_r; apply K1|]. change (concat ([] :: removelast (c :: cs))) with (concat (removelast (c :: cs))).
    apply I1. discriminate.
Qed.

Lemma search_ready IoE st eof : ready IoE p st eof -> forall h, R st h.
Proof.
  induction 1 as [eof|st eof pos b cs used v st' pos' b' eof' HR IH HS]; intros h; [exact (proj1 H h)|].
  destruct (search_session _ _ _ _ _ _ _ _ _ _ _ _ HS (IH b)) as [_ [_ [_ [_ Q]]]]. apply Q.
Qed.

Lemma search_end IoE : forall cs, (forall c, In c cs -> c <> []) -> forall st pos b (eof : bool), R st b ->
  exists (cs1 cs2 : list (list T)) used (fin : ending (C:=C) IoE A) st' pos' b' eof', (if eof then cs1 = [] else cs ++ [[]] = cs1 ++ cs2) /\
    session p st pos b eof cs1 used fin st' pos' b' eof' /\ (forall (q : Pos C) (e : IoE), fin <> EndIo q e).
Proof.
  assert (Hend : forall st pos b eof, R st b -> (eof = true \/ exists v, F b v) -> exists used (fin : ending (C:=C) IoE A) st' pos' b' eof', session p st pos b eof [] used fin st' pos' b' eof' /\ (forall (q : Pos C) (e : IoE), fin <> EndIo q e)).
  { intros st pos b eof HR HE. destruct (search_call F out R p H st b HR pos (negb eof)) as [[v0 [a [s0 [K1 [K2 [K3 K4]]]]]]|[K1 [e0 [s0 [K2 [K3 K4]]]]]].
    - do 6 eexists. split; [eapply ses_value; [exact K1|exact K3]|discriminate].
    - destruct HE as [->|[v HE]]; [|exfalso; exact (K1 _ HE)]. do 6 eexists. split; [eapply ses_error; [exact K2|left; reflexivity]|discriminate]. }
  induction cs as [|c cs IH]; intros HN st pos b eof HR.
  - destruct eof.
    + destruct (Hend st pos b true HR (or_introl eq_refl)) as (used & fin & st' & pos' & b' & eof' & K & K'). exists [], [], used, fin, st', pos', b', eof'. auto.
    + destruct (search_call F out R p H st b HR pos true) as [[v0 [a [s0 [K1 [K2 [K3 K4]]]]]]|[K1 [e0 [s0 [K2 [K3 [q K4]]]]]]].
      * exists [], [[]]. do 6 eexists. split; [reflexivity|]. split; [eapply ses_value; [exact K1|exact K3]|discriminate].
      * destruct (Hend s0 pos b true K3 (or_introl eq_refl)) as (used & fin & st' & pos' & b' & eof' & K & K'). exists [[]], [], used, fin, st', pos', b', eof'.
        split; [reflexivity|]. split; [|exact K']. change used with ([] ++ used). eapply ses_eof; [reflexivity|exact K2|rewrite K4, (el_from EL); apply (el_se EL)|exact K].
  - destruct eof.
    + destruct (Hend st pos b true HR (or_introl eq_refl)) as (used & fin & st' & pos' & b' & eof' & K & K'). exists [], [], used, fin, st', pos', b', eof'. auto.
    + destruct (search_call F out R p H st b HR pos true) as [[v0 [a [s0 [K1 [K2 [K3 K4]]]]]]|[K1 [e0 [s0 [K2 [K3 [q K4]]]]]]].
      * exists [], ((c :: cs) ++ [[]]). do 6 eexists. split; [reflexivity|]. split; [eapply ses_value; [exact K1|exact K3]|discriminate].
      * destruct (IH (fun c' Hc => HN c' (or_intror Hc)) s0 pos (b ++ c) false) as (cs1 & cs2 & used & fin & st' & pos' & b' & eof' & J1 & J2 & J3); [apply H; exact K3|].
        exists (c :: cs1), cs2, used, fin, st', pos', b', eof'. split; [cbn; f_equal; exact J1|]. split; [|exact J3]. change used with ([] ++ used).
        eapply ses_read; [reflexivity|exact K2|rewrite K4, (el_from EL); apply (el_se EL)|apply HN; left; reflexivity|exact J2].
Qed.
End Sess.

Lemma search_finds (EL : eoi_laws C) {S A} (code : T -> N) s F (out : list T -> A) R (p : parser C S A) : search_laws s F ->
  search_by (fun h b => (exists a, h = b ++ a) /\ F (List.map code h) (List.map code b)) out R p ->
  finds_in_pieces code F out p /\ ends_in_pieces p.
Proof.
  intros HL H. split.
  - intros IoE st eof HR pos b cs used fin st' pos' b' eof' HS. pose proof (search_ready EL _ out R p H IoE st eof HR b) as HQ.
    destruct (search_session EL _ out R p H IoE _ _ _ _ _ _ _ _ _ _ _ HS HQ) as [K1 [K2 K3]]. cbv zeta.
    assert (X : forall w, (forall v, ~ ((exists a, w = v ++ a) /\ F (List.map code w) (List.map code v))) -> forall v, ~ F (List.map code w) (List.map code v)).
    { intros w K v Q. apply (K (firstn (length v) w)). split; [exists (skipn (length v) w); symmetry; apply firstn_skipn|].
      destruct (sr_prefix _ _ HL _ _ Q) as [a Ha]. replace (List.map code (firstn (length v) w)) with (List.map code v); [exact Q|].
      rewrite <- firstn_map, Ha, <- (map_length code v), firstn_app, Nat.sub_diag, firstn_all, firstn_O, app_nil_r. reflexivity. }
    split; [intros Hc; apply X, K1, Hc|]. split; [exact K2|]. destruct fin as [v|e|q e].
    + destruct K3 as [Ha [[_ Hb] _]]. auto.
    + destruct K3 as [Ha [Hb Hc]]. auto.
    + destruct K3 as [Ha Hc]. auto.
  - intros IoE st eof HR pos b cs HN. apply (search_end EL _ out R p H IoE cs HN). apply (search_ready EL _ out R p H IoE st eof HR b).
Qed.
End Search.

Lemma not_in_repeat (f : N -> bool) c m : f c = false -> find_index f (repeat c m) = None.
Proof. intros H. induction m as [|m IH]; [reflexivity|]. cbn. rewrite H, IH. reflexivity. Qed.
Lemma map_repeat {X Y} (g : X -> Y) x m : List.map g (repeat x m) = repeat (g x) m.
Proof. induction m as [|m IH]; [reflexivity|]. cbn. rewrite IH. reflexivity. Qed.
Lemma div2_rest k : k + 1 - Nat.div2 (k + 1) = Nat.div2 (k + 2).
Proof. rewrite !Nat.div2_div. pose proof (Nat.div_mod (k + 1) 2). pose proof (Nat.div_mod (k + 2) 2). pose proof (Nat.mod_upper_bound (k + 1) 2). pose proof (Nat.mod_upper_bound (k + 2) 2). lia. Qed.

Section Again.
Context {C : Cfg} (L : lawful C) (SL : is_slice (C:=C)) (code : tok C -> N).
Lemma search_again x t d : code t <> x -> forall n k pos,
  states (take_until_byte (List.map code) x) pos (d * Nat.div2 (k + 1)) (List.map (fun k => repeat t (d * (k + 1))) (seq k n)) = List.map (fun k => d * Nat.div2 (k + 2)) (seq k n).
Proof.
  intros Ht. induction n as [|n IH]; intros k pos; [reflexivity|]. cbn [seq List.map states]. set (o := d * Nat.div2 (k + 1)).
  assert (Ho : d * (k + 1) = o + d * Nat.div2 (k + 2)).
  { unfold o. rewrite <- div2_rest. pose proof (Nat.le_div2 k). replace (S k) with (k + 1) in * by lia. rewrite <- Nat.mul_add_distr_l. f_equal. lia. }
  assert (Q : p_run (take_until_byte (List.map code) x) false (Inp (repeat t (d * (k + 1))) pos true) o =
    Done (CommitErr (e_from C (pos_after (pos_after pos (repeat t o)) (repeat t (d * Nat.div2 (k + 2)))) (se_eoi C)), Inp (repeat t (d * (k + 1))) pos true, d * Nat.div2 (k + 2))).
  { unfold take_until_byte, take_until_byte_by, parser_fn, take_fn, mk_mode. cbn [p_run]. unfold take_fn_run. cbv zeta.
    assert (U : uncons_range o (Inp (repeat t (d * (k + 1))) pos true) = (inl (repeat t o), advance (Inp (repeat t (d * (k + 1))) pos true) (repeat t o) (repeat t (d * Nat.div2 (k + 2))))).
    { pose proof (slice_uncons L SL (Inp (repeat t (d * (k + 1))) pos true) (repeat t o) (repeat t (d * Nat.div2 (k + 2)))) as U. rewrite repeat_length in U. apply U. cbn [rest]. rewrite <- repeat_app, <- Ho. reflexivity. }
    rewrite U. cbn [snd]. unfold advance. cbn [rest ipos ipart]. rewrite map_repeat, not_in_repeat by (apply N.eqb_neq; congruence). rewrite repeat_length. reflexivity. }
  rewrite Q. f_equal. replace (k + 2) with (S k + 1) by lia. apply IH.
Qed.
End Again.
