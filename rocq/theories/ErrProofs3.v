(** What failed choices and sequences report. *)
From Coq Require Import String List Bool Arith NArith Lia.
Import ListNotations.
From Verif Require Import Base Errors Parser Token Combinator Sequence Choice Repeat RangeP ByteP Spec LibSpec SeqSpec CombProofs SeqProofs AgreeSpec AgreeProofs ErrSpec ErrProofs ErrProofs2.
Unset Implicit Arguments.

(** ** Sequences of any parts *)
Section SeqBlame.
Context {C : Cfg}.
Notation E := (Err C).

Lemma seq_blame_tail (f : nat) : forall (l : list (errfns (C:=C))) j n e0 o, Forall plain_part l -> f <= j -> n < length l ->
  o = N.of_nat (S n) \/ (n = 0 /\ (o <= 1)%N) ->
  terr (add_sequence_errors j f 1 (Trk e0 o) l) = expectations (firstn (S n) l) e0.
Proof.
  induction l as [|x l IH]; intros j n e0 o Hl Hf Hn Ho; [cbn in Hn; lia|].
  inversion Hl as [|? ? [Hc [Ha _]] Hl']; subst. cbn [add_sequence_errors firstn expectations fold_left].
  unfold add_sequence_error. destruct (j + 1 =? f) eqn:E1; [apply Nat.eqb_eq in E1; lia|].
  destruct (f <=? j) eqn:E2; [|apply Nat.leb_gt in E2; lia]. cbn [toff].
  destruct n as [|n].
  - assert (Hle : (o <=? 1)%N = true) by (apply N.leb_le; destruct Ho as [->|[_ Ho]]; lia). rewrite Hle. unfold set_off. cbn [terr].
    rewrite Ha. cbn [terr toff]. cbn. reflexivity.
  - destruct Ho as [->|[Ho _]]; [|discriminate].
    destruct (N.of_nat (S (S n)) <=? 1)%N eqn:E3; [apply N.leb_le in E3; lia|].
    rewrite Ha. cbn [terr toff]. rewrite E3. cbn [set_off terr toff]. unfold set_off. cbn [terr toff].
    rewrite Hc. unfold sat_sub. cbn in Hn. rewrite (IH (S j) n); auto; lia.
Qed.

Lemma seq_blame (f : nat) (d : errfns (C:=C)) : forall (l : list (errfns (C:=C))) j m n e0 o, Forall plain_part l -> f = j + S m -> m + 1 + n < length l ->
  o = N.of_nat (m + 1 + S n) \/ (n = 0 /\ (o <= N.of_nat (m + 1 + S n))%N) ->
  terr (add_sequence_errors j f 1 (Trk e0 o) l) = expectations (firstn (S n) (skipn (S m) l)) (could_continue (nth m l d) e0).
Proof.
  induction l as [|x l IH]; intros j m n e0 o Hl Hf Hn Ho; [cbn in Hn; lia|].
  inversion Hl as [|? ? [Hc [Ha Hx]] Hl']; subst. cbn [add_sequence_errors].
  unfold add_sequence_error. destruct (j + S m <=? j) eqn:E2; [apply Nat.leb_le in E2; lia|].
  destruct m as [|m].
  - replace (j + 1 =? j + 1) with true by (symmetry; apply Nat.eqb_refl). cbn [skipn nth].
    rewrite Hx. cbn [terr toff]. unfold set_off, sat_sub. cbn [terr toff]. rewrite Hc.
    cbn in Hn. rewrite (seq_blame_tail (j + 1) l (S j) n); auto; lia.
  - destruct (j + 1 =? j + S (S m)) eqn:E1; [apply Nat.eqb_eq in E1; lia|]. unfold set_off, sat_sub. cbn [terr toff]. rewrite Hc.
    cbn in Hn. rewrite (IH (S j) m n); auto; lia.
Qed.

Lemma plain_count (l : list (errfns (C:=C))) : Forall plain_part l -> forall f, In f l -> ef_count f = 1%N.
Proof. intros H f Hf. rewrite Forall_forall in H. apply H; auto. Qed.

Lemma seq_rest_prefix {SS B} (t : tup (C:=C) SS B) : Forall plain_part (tup_errfns t) -> forall k f i ib e cur fep off, seq_prefix t i k f ib e ->
  exists st off', seq_rest t true cur fep i (tup_init t) off = Done (KPeek e (if f =? 0 then fep else cur + 1 + f), ib, st, off') /\
    ((off <= 255)%N -> off' = N.min 255 (off + N.of_nat k)).
Proof.
  induction t as [S A p|S A SS B p r IH]; intros Hp k f i ib e cur fep off H; cbn [seq_prefix] in H.
  - destruct H as [-> [-> [-> [ia H]]]]. apply fresh_run in H. destruct H as [s H]. cbn. unfold seq_elem. cbn. rewrite H. cbn.
    eexists _, _. split; [reflexivity|]. intros Ho. lia.
  - cbn [tup_errfns] in Hp. inversion Hp as [|? ? [Hc _] Hp']; subst. cbn in Hc.
    destruct H as [[-> [-> [-> [ia H]]]]|[c [a [i1 [k' [f' [H1 [H2 [-> ->]]]]]]]]].
    + apply fresh_run in H. destruct H as [s H]. cbn. unfold seq_elem. cbn. rewrite H. cbn. eexists _, _. split; [reflexivity|]. intros Ho. lia.
    + apply fresh_run in H1. destruct H1 as [s H1]. cbn [seq_rest tup_init fst snd]. unfold seq_elem at 1. cbn [orb]. rewrite H1.
      assert (Hs : (off <= 255 -> sat_add off (p_count p) <= 255 /\ sat_add off (p_count p) = N.min 255 (off + 1))%N).
      { intros Ho. unfold sat_add. rewrite Hc. lia. }
      destruct c; cbn [okr omap obind].
      * destruct (IH Hp' k' f' i1 ib e (cur + 1) (cur + 1 + 1) (sat_add off (p_count p)) H2) as [st [off' [K1 K2]]]. rewrite K1. cbn [omap].
        eexists _, off'. split; [|intros Ho; destruct (Hs Ho) as [Hs1 Hs2]; rewrite (K2 Hs1), Hs2; lia].
        match goal with |- Done (KPeek e ?a, _, _, _) = Done (KPeek e ?b, _, _, _) => replace a with b; [reflexivity|] end; destruct (f' =? 0) eqn:Ef; cbn; lia.
      * destruct (IH Hp' k' f' i1 ib e (cur + 1) fep (sat_add off (p_count p)) H2) as [st [off' [K1 K2]]]. rewrite K1. cbn [omap].
        eexists _, off'. split; [|intros Ho; destruct (Hs Ho) as [Hs1 Hs2]; rewrite (K2 Hs1), Hs2; lia].
        match goal with |- Done (KPeek e ?a, _, _, _) = Done (KPeek e ?b, _, _, _) => replace a with b; [reflexivity|] end; destruct (f' =? 0) eqn:Ef; cbn; lia.
Qed.

Lemma seq_prefix_bound {SS B} (t : tup (C:=C) SS B) : forall k f i ib e, seq_prefix t i k f ib e -> k < length (tup_errfns t) /\ f <= k.
Proof.
  induction t as [S A p|S A SS B p r IH]; intros k f i ib e H; cbn [seq_prefix] in H; cbn.
  - destruct H as [-> [-> _]]. lia.
  - destruct H as [[-> [-> _]]|[c [a [i1 [k' [f' [H1 [H2 [-> ->]]]]]]]]]; [lia|]. apply IH in H2. destruct (f' =? 0), c; lia.
Qed.

(** A sequence failing backtrackably in part [k], the last committed part being [f - 1 < k]: parts [f] to [k] are reported as
    expected, and that part [f - 1] could have gone on. *)
Lemma tuple_blame (d : errfns (C:=C)) {SS B} (t : tup (C:=C) SS B) k f i ib e : Forall plain_part (tup_errfns t) ->
  seq_prefix t i k f ib e -> 1 <= f -> toff e = 1%N -> k <= 254 \/ f = k ->
  fails_with (fresh (tuple t)) i true
    (expectations (firstn (S (k - f)) (skipn f (tup_errfns t))) (could_continue (nth (f - 1) (tup_errfns t) d) (with_found ib (terr e)))).
Proof.
  intros Hp H Hf He Hk. destruct (seq_prefix_bound t k f i ib e H) as [Hb1 Hb2].
  assert (Hall : exists st off', seq_all t true i (tup_init t) 0 = Done (KPeek e f, ib, st, off') /\ off' = N.min 255 (N.of_nat (S k))).
  { destruct t as [S A p|S A SS B p r]; cbn [seq_prefix] in H; [destruct H as [_ [-> _]]; lia|].
    destruct H as [[_ [-> _]]|[c [a [i1 [k' [f' [H1 [H2 [-> ->]]]]]]]]]; [lia|].
    cbn [tup_errfns] in Hp. inversion Hp as [|? ? [Hc _] Hp']; subst. cbn in Hc.
    apply fresh_run in H1. destruct H1 as [s H1]. cbn [seq_all tup_init fst snd]. unfold seq_head. cbn [orb]. rewrite H1.
    assert (Ho : sat_add (p_count p) 1 = 2%N) by (rewrite Hc; reflexivity). rewrite Ho.
    destruct c; cbn [okr omap obind].
    - destruct (seq_rest_prefix r Hp' k' f' i1 ib e 0 1 2%N H2) as [st [off' [K1 K2]]]. rewrite K1. cbn [omap]. eexists _, off'. split.
      + match goal with |- Done (KPeek e ?a, _, _, _) = Done (KPeek e ?b, _, _, _) => replace a with b; [reflexivity|] end; destruct (f' =? 0) eqn:Ef; cbn; lia.
      + rewrite K2; lia.
    - destruct (seq_rest_prefix r Hp' k' f' i1 ib e 0 0 2%N H2) as [st [off' [K1 K2]]]. rewrite K1. cbn [omap]. eexists _, off'. split.
      + match goal with |- Done (KPeek e ?a, _, _, _) = Done (KPeek e ?b, _, _, _) => replace a with b; [reflexivity|] end; destruct (f' =? 0) eqn:Ef; cbn; lia.
      + rewrite K2; lia. }
  destruct Hall as [st [off' [Hall Hoff]]].
  unfold fails_with, fresh, tuple, mk_mode. cbn [p_run p_init]. unfold tuple_run. cbn [fst snd]. rewrite Hall. cbn [obind].
  unfold add_errors. destruct (f =? 0) eqn:Ef; [apply Nat.eqb_eq in Ef; lia|]. rewrite He.
  assert (Hu : exists i2, (match uncons ib with
      | (Some t0, i') => (on_err (fun e0 => e_add C e0 (se_unexpected C (IToken t0))) (set_off e off'), i')
      | (None, i') => (set_off e off', i') end) = (Trk (with_found ib (terr e)) off', i2)).
  { unfold uncons, with_found, on_err, set_off. destruct (rest ib); cbn; eauto. }
  destruct Hu as [i2 Hu]. rewrite Hu. eexists _, i2. split; [reflexivity|]. cbn [error_of committed]. split; auto. f_equal.
  replace (skipn f (tup_errfns t)) with (skipn (S (f - 1)) (tup_errfns t)) by (f_equal; lia).
  apply (seq_blame f d); auto; lia.
Qed.
End SeqBlame.

(** ** Tokens *)
Section TokErr.
Context {T : TokCfg} {fl : nat} {dg : bool} (L : tok_laws T).
Notation C := (cfg_easy T fl dg).
Notation E := (Err C).

Lemma cmp_pos_refl p : t_pos_cmp T p p = Eq.
Proof. apply (tl_cmp_eq L). reflexivity. Qed.

Lemma token_ok t r p b : fresh (@token C t) (@Inp C (t :: r) p b) = Done (CommitOk t, @Inp C r (t_pos_step T p t) b).
Proof.
  unfold fresh. cbn. unfold satisfy_impl, lazy_run, s_uncons. cbn. rewrite (proj2 (tl_eqb L t t) eq_refl). reflexivity. Qed.

Definition tok_fail_list (i : input C) : list (easy_error (t_tok T)) := match rest i with [] => [easy_eoi] | _ => [] end.
Lemma token_fail t (i : input C) : (forall r, rest i <> t :: r) -> (rest i = [] -> ipart i = false) ->
  exists i', p_run (@token C t) true i tt = Done (PeekErr (to_trk (MkErrs (ipos i) (tok_fail_list i))), i', tt).
Proof.
  intros H1 H2. destruct i as [[|x r] p b]; unfold token, mk_lazy; cbn [p_run]; unfold lazy_run; cbn in *.
  - rewrite (H2 eq_refl) in *. unfold tok_fail_list, satisfy_impl, s_uncons. cbn. eexists. reflexivity.
  - unfold satisfy_impl, s_uncons, tok_fail_list. cbn. destruct (t_eqb T x t) eqn:He; [apply (tl_eqb L) in He; subst; exfalso; eapply H1; reflexivity|]. eexists. reflexivity.
Qed.
Lemma own_report_tok (i : input C) : own_report i (MkErrs (ipos i) (tok_fail_list i)) = MkErrs (ipos i) [found i].
Proof.
  unfold own_report, tok_fail_list, found. destruct (rest i); [|reflexivity]. rewrite easy_add_said; auto.
  exists easy_eoi. split; [cbn; auto|]. apply same_say_refl. discriminate.
Qed.

Lemma firsts_news (l l' seen : list (t_tok T)) (e0 : easy_error (t_tok T)) : expects e0 = false -> firsts seen l l' ->
  news (e0 :: List.map (fun x => EExpected (IToken x)) seen) (List.map (fun x => EExpected (IToken x)) l) (List.map (fun x => EExpected (IToken x)) l').
Proof.
  intros He. induction 1 as [|seen x l l' H1 H2 IH|seen x l l' H1 H2 IH]; cbn.
  - constructor.
  - eapply news_old with (x := EExpected (IToken x)); [| |exact IH].
    + right. apply (in_map (fun x => EExpected (IToken x))). exact H1.
    + apply same_say_refl. discriminate.
  - apply news_new.
    + intros y [<-|Hy] [m [K1 K2]].
      * cbn in K2. inversion K2; subst. unfold expects in He. rewrite K1 in He. discriminate.
      * apply in_map_iff in Hy. destruct Hy as [z [<- Hz]]. cbn in K1, K2. inversion K1; subst. inversion K2; subst. contradiction.
    + rewrite map_app in IH. exact IH.
Qed.
Lemma fold_expected (fns : list (trk E -> trk E)) ts : Forall2 (fun f t => forall u, f u = on_err (C:=C) (fun e => easy_add T e (EExpected (IToken t))) u) fns ts ->
  forall u, terr (fold_left (fun e f => f (set_off (C:=C) e 1%N)) fns u) = fold_left (easy_add T) (List.map (fun x => EExpected (IToken x)) ts) (terr u).
Proof. induction 1 as [|f t fns ts H1 H2 IH]; intros u; cbn; auto. rewrite IH. rewrite H1. reflexivity. Qed.

Lemma found_not_expected (i : input C) : expects (found i) = false.
Proof. unfold found, expects. destruct (rest i); reflexivity. Qed.

Lemma merge_same (e : E) n : (forall x, In x (elist e) -> says x <> None) -> merge_errs (C:=C) (Trk e 1) (repeat (Trk e 1%N) n) = e.
Proof.
  intros H. induction n as [|n IH]; cbn [repeat merge_errs]; auto. rewrite IH. cbn. apply (merge_idem L). auto.
Qed.
Lemma extract_same (e : E) n : forall fns u, choice_extract (C:=C) (repeat (Trk e 1%N) n) fns u = u.
Proof. induction n as [|n IH]; intros fns u; cbn; auto. destruct fns; auto. Qed.

Lemma try_token t (i : input C) : (forall r, rest i <> t :: r) -> (rest i = [] -> ipart i = false) ->
  try_one (@token C t) i = Done (TFail (C:=C) [Trk (MkErrs (ipos i) (tok_fail_list i)) 1%N]).
Proof.
  intros H1 H2. destruct (token_fail t i H1 H2) as [i' K]. unfold try_one. etransitivity; [exact (f_equal (omap _) K)|]. reflexivity.
Qed.
Lemma choice_tokens_try (i : input C) : (rest i = [] -> ipart i = false) -> forall (l : list (t_tok T)) (t : t_tok T), (forall x r, rest i = x :: r -> ~ In x (t :: l)) ->
  choice_try (token_alts t l) i = Done (TFail (C:=C) (repeat (Trk (MkErrs (ipos i) (tok_fail_list i)) 1%N) (S (length l)))).
Proof.
  intros Hp. induction l as [|t' l IH]; intros t H.
  - apply try_token; auto. intros r Hr. apply (H t r Hr). left; auto.
  - cbn [token_alts choice_try]. rewrite try_token; auto.
    + cbn [obind]. rewrite IH; [reflexivity|]. intros x r Hr Hx. apply (H x r Hr). right; auto.
    + intros r Hr. apply (H t r Hr). left; auto.
Qed.

Lemma token_alts_adderr : forall l t, Forall2 (fun f t => forall u, f u = on_err (C:=C) (fun e => easy_add T e (EExpected (IToken t))) u) (alts_adderr (token_alts t l)) (t :: l).
Proof. induction l as [|t' l IH]; intros t; cbn; constructor; auto. Qed.

Lemma choice_tokens_error l t ts (i : input C) : (rest i = [] -> ipart i = false) -> (forall x r, rest i = x :: r -> ~ In x (t :: l)) -> firsts [] (t :: l) ts ->
  parse (choice (token_alts t l)) i = Done (inr (MkErrs (ipos i) (found i :: List.map (fun x => EExpected (IToken x)) ts)), i).
Proof.
  intros Hp H Hf.
  assert (K : fresh (choice (token_alts t l)) i = Done (PeekErr (to_trk (MkErrs (ipos i) (tok_fail_list i))), i)).
  { unfold fresh, choice, mk_mode, choice_run. cbn [p_run p_init]. rewrite (choice_tokens_try i Hp l t H). cbn [obind].
    unfold choice_error. cbn [repeat]. rewrite (extract_same _ (S (length l))) || rewrite (extract_same (MkErrs (ipos i) (tok_fail_list i)) (S (length l))).
    rewrite merge_same; [reflexivity|]. unfold tok_fail_list. destruct (rest i); cbn; [|tauto]. intros x [<-|[]]. discriminate. }
  rewrite (parse_peek (choice (token_alts t l)) i _ i (fun _ => eq_refl) K). f_equal. f_equal. f_equal.
  cbn [p_adderr choice mk_mode terr toff to_trk]. unfold choice_adderr, add_error_choice. cbn [toff N.eqb].
  unfold set_off at 1. cbn [terr]. rewrite (fold_expected _ (t :: l)) by apply token_alts_adderr. cbn [terr].
  rewrite own_report_tok. rewrite (fold_add_eq L _ (List.map (fun x => EExpected (IToken x)) ts)); [reflexivity|].
  cbn [elist]. apply (firsts_news (t :: l) ts [] (found i)); auto. apply found_not_expected.
Qed.

(** Slices of token parsers. *)
Lemma slice_tokens_loop (i : input C) all (Hp : rest i = [] -> ipart i = false) : forall l j last prev idx cur,
  (forall x r, rest i = x :: r -> ~ In x l) ->
  (prev = None -> l <> []) -> (forall u, prev = Some u -> u = Trk (MkErrs (ipos i) (tok_fail_list i)) 1%N) ->
  exists i', slice_loop all i true j last prev (List.map (@token C) l) idx tt cur = Done (PeekErr (to_trk (MkErrs (ipos i) (tok_fail_list i))), i', (idx, tt)).
Proof.
  induction l as [|t l IH]; intros j last prev idx cur H Hn Hs.
  - cbn. destruct prev as [u|]; [|exfalso; apply Hn; reflexivity]. rewrite (Hs u eq_refl). cbn. eauto.
  - cbn [List.map slice_loop]. destruct (token_fail t i) as [i' K]; auto.
    { intros r Hr. apply (H t r Hr). left; auto. }
    rewrite K. cbn [obind]. unfold slice_merge. destruct prev as [u|].
    + rewrite (Hs u eq_refl). cbn [toff N.eqb Pos.eqb].
      apply IH; [intros x r Hr Hx; apply (H x r Hr); right; auto|discriminate|].
      intros v Hv. inversion Hv. f_equal. cbn. apply (merge_idem L). unfold tok_fail_list. destruct (rest i); cbn; [|tauto]. intros x [<-|[]]. discriminate.
    + apply IH; [intros x r Hr Hx; apply (H x r Hr); right; auto|discriminate|]. intros v Hv. inversion Hv. reflexivity.
Qed.
Lemma map_token_adderr l : Forall2 (fun f t => forall u, f u = on_err (C:=C) (fun e => easy_add T e (EExpected (IToken t))) u)
  (List.map (@p_adderr C unit (t_tok T)) (List.map (@token C) l)) l.
Proof. induction l; cbn; constructor; auto. Qed.

Lemma slice_tokens_error l ts (i : input C) : l <> [] -> (rest i = [] -> ipart i = false) -> (forall x r, rest i = x :: r -> ~ In x l) -> firsts [] l ts ->
  parse (choice_slice tt (List.map (@token C) l)) i = Done (inr (MkErrs (ipos i) (found i :: List.map (fun x => EExpected (IToken x)) ts)), i).
Proof.
  intros Hl Hp H Hf.
  assert (K : exists i', fresh (choice_slice tt (List.map (@token C) l)) i = Done (PeekErr (to_trk (MkErrs (ipos i) (tok_fail_list i))), i')).
  { destruct (slice_tokens_loop i (List.map (@p_adderr C unit (t_tok T)) (List.map (@token C) l)) Hp l 0 0 None 0 i H) as [i' K]; auto; [discriminate|].
    exists i'. unfold fresh, choice_slice, mk_mode. cbn [p_run p_init]. unfold slice_run. cbn [negb andb].
    match type of K with ?a = _ => match goal with |- omap _ ?b = _ => change b with a end end. rewrite K. reflexivity. }
  destruct K as [i' K].
  rewrite (parse_peek (choice_slice tt (List.map (@token C) l)) i _ i' (fun _ => eq_refl) K). f_equal. f_equal. f_equal.
  cbn [p_adderr choice_slice mk_mode terr toff to_trk]. unfold choice_adderr, add_error_choice. cbn [toff N.eqb].
  unfold set_off at 1. cbn [terr]. rewrite (fold_expected _ l) by apply map_token_adderr. cbn [terr].
  rewrite own_report_tok. rewrite (fold_add_eq L _ (List.map (fun x => EExpected (IToken x)) ts)); [reflexivity|].
  cbn [elist]. apply (firsts_news l ts [] (found i)); auto. apply found_not_expected.
Qed.

(** Sequences of tokens. *)
Lemma token_plain t : plain_part (errfns_of (@token C t)).
Proof. split; [reflexivity|]. split; intros u; destruct u; reflexivity. Qed.
Lemma token_tuple_plain : forall l t, Forall plain_part (tup_errfns (token_tuple (T:=T) (fl:=fl) (dg:=dg) t l)).
Proof. induction l as [|t' l IH]; intros t; cbn [token_tuple tup_errfns]; constructor; auto; apply token_plain. Qed.
Lemma token_tuple_nth (d : errfns (C:=C)) : forall l t before tk more, t :: l = before ++ tk :: more ->
  firstn 1 (skipn (length before) (tup_errfns (token_tuple (T:=T) (fl:=fl) (dg:=dg) t l))) = [errfns_of (@token C tk)] /\
  (forall x b2, before = b2 ++ [x] -> nth (length before - 1) (tup_errfns (token_tuple (T:=T) (fl:=fl) (dg:=dg) t l)) d = errfns_of (@token C x)).
Proof.
  induction l as [|t' l IH]; intros t before tk more H.
  - destruct before as [|b before]; inversion H; subst; [|destruct before; discriminate].
    split; [reflexivity|]. intros x b2 Hx. destruct b2; discriminate.
  - destruct before as [|b before]; inversion H; subst.
    + split; [reflexivity|]. intros x b2 Hx. destruct b2; discriminate.
    + destruct (IH t' before tk more) as [K1 K2]; auto. split; [exact K1|]. intros x b2 Hx. cbn [length].
      replace (S (length before) - 1) with (length before) by lia. destruct before as [|b' before].
      * destruct b2 as [|? b2]; inversion Hx; subst; [reflexivity|destruct b2; discriminate].
      * destruct b2 as [|? b2]; inversion Hx; subst. cbn [token_tuple tup_errfns length]. cbn [nth].
        rewrite <- (K2 x b2 H3). cbn [length]. f_equal. lia.
Qed.

Definition after (i : input C) (l r : list (t_tok T)) : input C := @Inp C r (@pos_after C (ipos i) l) (ipart i).
Lemma token_prefix : forall (before l : list (t_tok T)) (t tk : t_tok T) (more r : list (t_tok T)) (i : input C), t :: l = before ++ tk :: more -> rest i = before ++ r ->
  (forall r', r <> tk :: r') -> (r = [] -> ipart i = false) ->
  seq_prefix (token_tuple (T:=T) (fl:=fl) (dg:=dg) t l) i (length before) (length before) (after i before r)
    (to_trk (MkErrs (ipos (after i before r)) (tok_fail_list (after i before r)))).
Proof.
  induction before as [|b before IH]; intros l t tk more r i H Hr Hn Hp.
  - cbn in H. inversion H; subst.
    assert (Hi : after i [] r = i) by (destruct i; cbn in *; subst; reflexivity). rewrite Hi.
    destruct (token_fail tk i) as [i' K]; [rewrite Hr; exact Hn|rewrite Hr; exact Hp|].
    assert (Hh : exists ia, fresh (@token C tk) i = Done (PeekErr (to_trk (MkErrs (ipos i) (tok_fail_list i))), ia)).
    { exists i'. unfold fresh. etransitivity; [exact (f_equal (omap fst) K)|]. reflexivity. }
    destruct more as [|m more]; cbn [token_tuple seq_prefix length]; auto.
  - cbn [app] in H; injection H as -> H; destruct l as [|t' l]; [destruct before; discriminate|]. cbn [token_tuple seq_prefix length]. right.
    exists true, b, (@Inp C (before ++ r) (t_pos_step T (ipos i) b) (ipart i)), (length before), (length before).
    split; [|split; [|split; auto]].
    + destruct i as [ri pi bi]; cbn in *; subst ri. apply token_ok.
    + apply (IH l t' tk more r (@Inp C (before ++ r) (t_pos_step T (ipos i) b) (ipart i))); auto.
    + destruct (length before =? 0) eqn:E0; auto. apply Nat.eqb_eq in E0. lia.
Qed.

Lemma tuple_tokens_error (l : list (t_tok T)) (t : t_tok T) (before : list (t_tok T)) (tk : t_tok T) (more r : list (t_tok T)) (i : input C) : t :: l = before ++ tk :: more -> rest i = before ++ r ->
  (forall r', r <> tk :: r') -> (r = [] -> ipart i = false) ->
  let ib := after i before r in
  fails (fresh (tuple (token_tuple (T:=T) (fl:=fl) (dg:=dg) t l))) i (match before with [] => false | _ => true end) /\
  exists i', parse (tuple (token_tuple (T:=T) (fl:=fl) (dg:=dg) t l)) i = Done (inr (MkErrs (ipos ib) [found ib; EExpected (IToken tk)]), i').
Proof.
  intros H Hr Hn Hp ib. pose proof (token_prefix before l t tk more r i H Hr Hn Hp) as K. fold ib in K.
  assert (Hx : easy_add T (MkErrs (ipos ib) [found ib]) (EExpected (IToken tk)) = MkErrs (ipos ib) [found ib; EExpected (IToken tk)]).
  { rewrite (easy_add_new L); auto. intros [x [[<-|[]] [m [K1 K2]]]]. pose proof (found_not_expected ib) as Hf. unfold expects in Hf.
    rewrite K1 in Hf. cbn in K2. inversion K2; subst. discriminate. }
  destruct before as [|b before].
  - assert (Hi : ib = i) by (unfold ib; destruct i; cbn in *; subst; reflexivity).
    inversion H; subst t l.
    assert (Kf : fresh (tuple (token_tuple (T:=T) (fl:=fl) (dg:=dg) tk more)) i = Done (PeekErr (to_trk (MkErrs (ipos i) (tok_fail_list i))), snd (match p_run (@token C tk) true i tt with Done x => fst x | _ => (CommitOk tk, i) end))).
    { destruct (token_fail tk i) as [i' Kt]; [rewrite Hr; exact Hn|rewrite Hr; exact Hp|]. rewrite Kt. cbn [fst snd].
      unfold fresh, tuple, mk_mode. cbn [p_run p_init]. unfold tuple_run. cbn [fst snd].
      assert (Hh : seq_head (@token C tk) true i (None, tt) 0 = Done (KHead (C:=C) (to_trk (MkErrs (ipos i) (tok_fail_list i))), i', (None, tt), 0%N)).
      { unfold seq_head. cbn [orb]. etransitivity; [exact (f_equal (omap _) Kt)|]. reflexivity. }
      destruct more as [|m more]; cbn [token_tuple seq_all tup_init fst snd].
      - etransitivity; [exact (f_equal (fun z => omap fst (obind z _)) Hh)|]. reflexivity.
      - etransitivity; [exact (f_equal (fun z => omap fst (obind (obind z _) _)) Hh)|]. reflexivity. }
    split.
    + eexists _, _, _. split; [exact Kf|]. split; reflexivity.
    + exists i. rewrite (parse_peek (tuple (token_tuple (T:=T) (fl:=fl) (dg:=dg) tk more)) i _ _ (fun _ => eq_refl) Kf). f_equal. f_equal. f_equal. rewrite Hi in *.
      etransitivity; [|exact Hx]. rewrite <- own_report_tok. destruct more; reflexivity.
  - pose proof (tuple_blame (errfns_of (@token C tk)) (token_tuple (T:=T) (fl:=fl) (dg:=dg) t l) _ _ i ib _ (token_tuple_plain l t) K) as Kb.
    assert (Hb : 1 <= length (b :: before)) by (cbn; lia). specialize (Kb Hb eq_refl (or_intror eq_refl)).
    rewrite Nat.sub_diag in Kb. destruct (token_tuple_nth (errfns_of (@token C tk)) l t (b :: before) tk more H) as [N1 N2].
    rewrite N1 in Kb. destruct (exists_last (l:=b :: before)) as [b2 [x Hl]]; [discriminate|]. rewrite (N2 x b2 Hl) in Kb.
    assert (He : expectations [errfns_of (@token C tk)] (could_continue (errfns_of (@token C x)) (with_found ib (MkErrs (ipos ib) (tok_fail_list ib))))
                 = MkErrs (ipos ib) [found ib; EExpected (IToken tk)]).
    { etransitivity; [|exact Hx]. unfold expectations, could_continue, with_found, found, tok_fail_list. cbn. destruct r as [|y r]; reflexivity. }
    split; [eexists; exact Kb|]. rewrite <- He. apply parse_committed; [|exact Kb]. apply mk_mode_agree.
Qed.
End TokErr.
