(** Proofs for C56 (error texts) and C57 (regular expressions). *)
From Coq Require Import String Ascii List Bool Arith NArith Lia.
Import ListNotations.
From Verif Require Import Base Parser Errors Token RangeP RegexP FmtM FmtSpec Spec RangeSpec TokenProofs RangeProofs ForwardProofs.
Unset Implicit Arguments.

(** * Texts *)
Section Fmt.
Context {T R : Type} (st : T -> string) (sr : R -> string).
Local Open Scope string_scope.
Lemma app_assoc_s (a b c : string) : (a ++ b) ++ c = a ++ (b ++ c).
Proof. induction a as [|x a IH]; cbn; [auto|]. rewrite IH. reflexivity. Qed.
Lemma app_nil_s (a : string) : a ++ "" = a.
Proof. induction a as [|x a IH]; cbn; [auto|]. rewrite IH. reflexivity. Qed.
Lemma fmt_lines_text (l : list (xerror T R)) : fmt_lines st sr l = text_of (List.map (fmt_error st sr) l).
Proof.
  induction l as [|e l IH]; cbn [fmt_lines text_of List.map]; [auto|]. rewrite app_assoc_s, IH. reflexivity.
Qed.
Lemma fmt_expected_tail n : forall i (l : list (xinfo T R)), 1 <= i -> n = i + length l -> 1 <= length l ->
  fmt_expected st sr n i l = (if Nat.eqb (length l) 1 then " or " else ", ")%string ++ english (List.map (fmt_info st sr) l).
Proof.
  intros i l. revert i. induction l as [|x l IH]; intros i Hi Hn Hl; [cbn in Hl; lia|]. cbn [fmt_expected List.map].
  destruct (Nat.eqb_spec i 0); [lia|]. destruct l as [|y l].
  - cbn [length] in Hn. destruct (Nat.ltb_spec i (n - 1)); [lia|]. cbn [fmt_expected length Nat.eqb english List.map]. rewrite app_nil_s. reflexivity.
  - cbn [length] in Hn. destruct (Nat.ltb_spec i (n - 1)); [|lia]. rewrite IH; [|lia|cbn [length]; lia|cbn [length]; lia].
    cbn [length Nat.eqb List.map]. destruct l as [|z l]; cbn [length Nat.eqb List.map english]; rewrite ?app_assoc_s; reflexivity.
Qed.
Lemma fmt_expected_english (l : list (xinfo T R)) : l <> [] ->
  fmt_expected st sr (length l) 0 l = "Expected " ++ english (List.map (fmt_info st sr) l).
Proof.
  destruct l as [|x l]; [congruence|]. intros _. cbn [fmt_expected Nat.eqb]. destruct l as [|y l].
  - cbn [fmt_expected List.map english]. rewrite app_nil_s. reflexivity.
  - rewrite fmt_expected_tail; [|lia|cbn [length]; lia|cbn [length]; lia]. cbn [List.map]. destruct l as [|z l]; cbn [length Nat.eqb List.map english]; rewrite ?app_assoc_s; reflexivity.
Qed.
End Fmt.

(** * Regular expressions *)
Section Regex.
Context {C : Cfg} (L : lawful C).
Notation T := (tok C).
Notation E := (Err C).

Lemma last_step {X} (l : list X) : forall x d, last (x :: l) d = last l x.
Proof. induction l as [|y l IH]; intros x d; [reflexivity|]. change (last (x :: y :: l) d) with (last (y :: l) d). rewrite !IH. reflexivity. Qed.
Lemma units_app (a b : list T) : units (a ++ b) = units a + units b.
Proof. unfold units. rewrite List.map_app. rewrite list_sum_app. reflexivity. Qed.

Lemma matches_reach h ms : forall from, matches_in (C:=C) h from ms -> ms <> [] ->
  exists before after, h = before ++ after /\ reach ms = units before.
Proof.
  induction ms as [|m ms IH]; intros from H Hn; [congruence|]. inversion H as [|? ? ? before after H1 H2 H3 H4]; subst.
  destruct ms as [|m2 ms].
  - exists (before ++ m_part m), after. rewrite <- app_assoc. auto.
  - destruct (IH _ H4) as [b [a [K1 K2]]]; [congruence|]. exists b, a. auto.
Qed.
Lemma matches_reach0 h ms from : matches_in (C:=C) h from ms -> exists before after, h = before ++ after /\ reach ms = units before.
Proof. intros H. destruct ms as [|m ms]; [exists [], h; auto|]. eapply matches_reach; eauto. congruence. Qed.

(** [take(end)] up to where there is enough input. *)
Lemma take_end_ok {A} n (v : A) (i : input C) a b : rest i = a ++ b -> units a = n ->
  take_end n v i = Done (okr (negb (n =? 0)) v, advance i a b).
Proof.
  intros H1 H2. unfold take_end. destruct (take_spec L n) as [K _].
  assert (Hs : succeeds (fresh (take n)) i (negb (n =? 0)) a (advance i a b)) by (apply K; repeat split; auto).
  unfold succeeds in Hs. unfold take in Hs. rewrite fresh_lazy in Hs. rewrite Hs. cbn. destruct (n =? 0); reflexivity.
Qed.

Lemma fold_find how (l : list (rmatch C)) : find_iter how l = (reach (pulled how l), List.map (@m_part C) (pulled how l)).
Proof.
  unfold find_iter. generalize (pulled how l). intros ms.
  assert (G : forall n acc, fold_left (fun acc m => (m_end m, snd acc ++ [m_part m])%list) ms (n, acc) = (last (List.map (@m_end C) ms) n, acc ++ List.map (@m_part C) ms)).
  { induction ms as [|m ms IH]; intros n acc; cbn [fold_left List.map].
    - rewrite app_nil_r. reflexivity.
    - cbn [snd]. rewrite IH. rewrite <- app_assoc. cbn [app]. rewrite last_step. reflexivity. }
  rewrite G. reflexivity.
Qed.

Lemma captures_one_ok m more : exists parts, captures_one (C:=C) (Some m :: more) = Done (m_end m, parts) /\ taking_part (Some m :: more) parts.
Proof.
  eexists. split; [reflexivity|]. cbn [List.map List.concat app]. constructor. induction more as [|[g|] more IH]; cbn; constructor; auto.
Qed.
Lemma fold_captures how (gs : list (list (option (rmatch C)))) ms :
  Forall2 (fun groups m => exists more, groups = Some m :: more) gs ms ->
  exists vs, captures_iter how gs = Done (reach (pulled how ms), vs) /\ Forall2 taking_part (pulled how gs) vs.
Proof.
  intros H. unfold captures_iter.
  assert (H' : Forall2 (fun groups m => exists more, groups = Some m :: more) (pulled how gs) (pulled how ms)).
  { destruct how; auto. cbn. destruct H; repeat constructor; auto. }
  revert H'. generalize (pulled how gs) (pulled how ms). clear H gs ms. intros gs ms H.
  assert (G : forall n acc, exists vs, fold_left (fun acc g => obind acc (fun a => omap (fun m => (fst m, snd a ++ [snd m])%list) (captures_one (C:=C) g))) gs (Done (n, acc)) =
    Done (last (List.map (@m_end C) ms) n, acc ++ vs) /\ Forall2 taking_part gs vs).
  { induction H as [|g m gs ms [more ->] H IH]; intros n acc; cbn [fold_left List.map].
    - exists []. rewrite app_nil_r. split; auto.
    - destruct (captures_one_ok m more) as [parts [K1 K2]]. rewrite K1. cbn [obind omap fst snd]. destruct (IH (m_end m) (acc ++ [parts])) as [vs [K3 K4]].
      exists (parts :: vs). rewrite K3. split; [|constructor; auto]. rewrite <- app_assoc. cbn [app]. rewrite last_step. reflexivity. }
  destruct (G 0 []) as [vs [K1 K2]]. exists vs. auto.
Qed.

Lemma adv_take_end {A} n (v : A) (i : input C) r i' : take_end n v i = Done (r, i') -> advanced i i'.
Proof.
  unfold take_end, take_lazy. intros H. destruct (s_uncons_range i n) as [x j] eqn:K. injection H as <- <-. eapply adv_s_uncons_range; eauto.
Qed.
Lemma fwd_match r : fwd (match_ (C:=C) r).
Proof. apply fwd_mk_lazy. intros i x i' H. injection H as <- <-. apply adv_refl. Qed.
Lemma fwd_find r : fwd (find (C:=C) r).
Proof.
  apply fwd_mk_lazy. intros i x i' H. unfold find_lazy in H. destruct (find_iter Firstly (rx_find r (rest i))) as [n [|v vs]]; [injection H as <- <-; apply adv_refl|].
  eapply adv_take_end; eauto.
Qed.
Lemma fwd_find_many r : fwd (find_many (C:=C) r).
Proof. apply fwd_mk_lazy. intros i x i' H. unfold find_many_lazy in H. destruct (find_iter All (rx_find r (rest i))) as [n vs]. eapply adv_take_end; eauto. Qed.
Lemma fwd_captures r : fwd (captures (C:=C) r).
Proof.
  apply fwd_mk_lazy. intros i x i' H. unfold captures_lazy in H. destruct (captures_iter Firstly (rx_captures r (rest i))) as [[n [|v vs]]| |]; cbn [obind] in H; try discriminate; [injection H as <- <-; apply adv_refl|].
  eapply adv_take_end; eauto.
Qed.
Lemma fwd_captures_many r : fwd (captures_many (C:=C) r).
Proof.
  apply fwd_mk_lazy. intros i x i' H. unfold captures_many_lazy in H. destruct (captures_iter All (rx_captures r (rest i))) as [[n vs]| |]; cbn [obind] in H; try discriminate. 
  eapply adv_take_end; eauto.
Qed.
End Regex.
