(** Proofs for C80, C81: the decoder of the test [take_until], on any text. *)
From Coq Require Import String List Bool Arith NArith Lia.
Import ListNotations.
From Verif Require Import Base Errors Parser Token Combinator Sequence Choice Repeat RangeP ByteP DecodeM.
From Verif Require Import Spec RangeSpec ChunkSpec ResultProofs TokenProofs SeqProofs CombProofs FramedM FramedM3 FramedSpec ChunkProofs RangeProofs FramedProofs FramedProofs2.
Unset Implicit Arguments.

Section Until.
Context {C : Cfg}.
Notation T := (tok C).
Notation E := (Err C).
Variable EL : eoi_laws C.
Variable L : lawful C.
Variable SL : is_slice (C:=C).
Variable lit : N -> T.
Notation c := (lit 44).
Notation q := (map (token c) (fun _ => tt)).
Notation uc := (any_partial_state (until_comma_parser lit)).
Notation UST := (option ((option (list T) * (list T * unit)) * (option unit * unit) * N)).

Definition at_state (st : UST) (out : list T) : Prop := (st = None /\ out = []) \/ exists off, st = Some (((None, (out, tt)), (None, tt)), off).

Lemma eqb_c : tok_eqb C c c = true.
Proof. apply (law_tok L). reflexivity. Qed.
Lemma eqb_no t : t <> c -> tok_eqb C t c = false.
Proof. intros H. destruct (tok_eqb C t c) eqn:Q; [|reflexivity]. apply (law_tok L) in Q. contradiction. Qed.

Lemma q_hit first r pos f : p_run q first (Inp (c :: r) pos f) tt = Done (CommitOk tt, Inp r (pos_step C pos c) f, tt).
Proof. unfold map, token, mk_lazy, mk_mode. cbn [p_run]. unfold lazy_run, satisfy_impl, s_uncons, uncons. cbn [rest ipos ipart]. rewrite eqb_c. reflexivity. Qed.
Lemma q_miss first t r pos f : t <> c -> exists e i', p_run q first (Inp (t :: r) pos f) tt = Done (PeekErr e, i', tt).
Proof. intros H. unfold map, token, mk_lazy, mk_mode. cbn [p_run]. unfold lazy_run, satisfy_impl, s_uncons, uncons. cbn [rest ipos ipart]. rewrite eqb_no by exact H. do 2 eexists. reflexivity. Qed.
Lemma q_nil first pos f : p_run q first (Inp [] pos f) tt = Done (wrap_stream_error (Inp [] pos f) (se_eoi C), Inp [] pos f, tt).
Proof. destruct f; reflexivity. Qed.

Lemma loop_yes first f r : forall w cm out pos, ~ In c w ->
  take_until_loop q first cm f out (w ++ c :: r) pos tt = Done (CommitOk (out ++ w), Inp (c :: r) (pos_after pos w) f, ([], tt)).
Proof.
  induction w as [|t w IH]; intros cm out pos H; cbn [take_until_loop app]; cbv zeta.
  - rewrite q_hit. cbn. rewrite app_nil_r. destruct cm; reflexivity.
  - destruct (q_miss first t (w ++ c :: r) pos f) as [e [i' Q]]; [intros K; apply H; left; exact K|]. rewrite Q. cbn [obind into_std].
    rewrite IH by (intros K; apply H; right; exact K). rewrite <- app_assoc. reflexivity.
Qed.
Lemma loop_no first : forall w cm out pos, ~ In c w ->
  take_until_loop q first cm true out w pos tt = Done (CommitErr (e_from C (pos_after pos w) (se_eoi C)), Inp [] (pos_after pos w) true, (out ++ w, tt)).
Proof.
  induction w as [|t w IH]; intros cm out pos H; cbn [take_until_loop app]; cbv zeta.
  - rewrite q_nil. rewrite app_nil_r. reflexivity.
  - destruct (q_miss first t w pos true) as [e [i' Q]]; [intros K; apply H; left; exact K|]. rewrite Q. cbn [obind into_std].
    rewrite IH by (intros K; apply H; right; exact K). rewrite <- app_assoc. reflexivity.
Qed.

(** [skip] around a parser, by what the parser does. *)
Lemma skip_ok {S A S2 B} (p : parser C S A) (p2 : parser C S2 B) first i s s2 off v b i' s' i2 s2' : p_run p first i s = Done (CommitOk v, i', s') -> p_run p2 true i' s2 = Done (CommitOk b, i2, s2') ->
  exists off', p_run (skip p p2) first i (((None, s), (None, s2)), off) = Done (CommitOk v, i2, (((None, s'), (None, s2')), off')).
Proof.
  intros H1 H2. unfold skip, pair2, tuple, mk_mode. cbn [p_run]. unfold tuple_run, seq_all, seq_head. cbn [fst snd is_none]. rewrite orb_true_r, H1. cbn [omap obind].
  unfold seq_rest, seq_elem. cbn [fst snd is_none]. rewrite orb_true_r. unfold ignore, mk_both. cbn [p_run]. rewrite H2. cbn. eexists. reflexivity.
Qed.
Lemma skip_err {S A S2 B} (p : parser C S A) (p2 : parser C S2 B) first i s s2 off e i' s' : p_run p first i s = Done (CommitErr e, i', s') ->
  p_run (skip p p2) first i (((None, s), (None, s2)), off) = Done (CommitErr e, i', (((None, s'), (None, s2)), off)).
Proof.
  intros H1. unfold skip, pair2, tuple, mk_mode. cbn [p_run]. unfold tuple_run, seq_all, seq_head. cbn [fst snd is_none]. rewrite orb_true_r, H1. reflexivity.
Qed.
Lemma skip_peek {S A S2 B} (p : parser C S A) (p2 : parser C S2 B) first i s s2 off e i' s' : p_run p first i s = Done (PeekErr e, i', s') ->
  p_run (skip p p2) first i (((None, s), (None, s2)), off) = Done (PeekErr e, i', (((None, s'), (None, s2)), off)).
Proof.
  intros H1. unfold skip, pair2, tuple, mk_mode. cbn [p_run]. unfold tuple_run, seq_all, seq_head. cbn [fst snd is_none]. rewrite orb_true_r, H1. reflexivity.
Qed.
Lemma tok_hit first r pos f : p_run (token c) first (Inp (c :: r) pos f) tt = Done (CommitOk c, Inp r (pos_step C pos c) f, tt).
Proof. unfold token, mk_lazy. cbn [p_run]. unfold lazy_run, satisfy_impl, s_uncons, uncons. cbn [rest ipos ipart]. rewrite eqb_c. reflexivity. Qed.

Lemma step_yes eof st out w r pos : at_state st out -> ~ In c w -> exists st', at_state st' [] /\
  decode_stream uc eof (Fd st (w ++ c :: r) pos) = Done (inl (Some (out ++ w)), Fd st' r (pos_after pos (w ++ [c]))).
Proof.
  intros HS H. unfold decode_stream, decode_tokio, parse_with_state, parse_stream_partial. cbn [fd_src fd_pos fd_state p_run any_partial_state mk_both].
  assert (K : exists st', at_state st' [] /\ any_partial_run (until_comma_parser lit) false (Inp (w ++ c :: r) pos (negb eof)) st =
    Done (CommitOk (out ++ w), Inp r (pos_after pos (w ++ [c])) (negb eof), st')).
  { rewrite pos_after_app. destruct HS as [[-> ->]|[off ->]].
    - exists None. split; [left; auto|]. unfold any_partial_run. destruct (skip_ok (take_until q) (token c) false (Inp (w ++ c :: r) pos (negb eof)) ([], tt) tt 0%N _ _ _ _ _ _ (loop_yes false (negb eof) r w (Peek tt) [] pos H) (tok_hit true _ _ _)) as [off' Q].
      rewrite (Q : p_run (until_comma_parser lit) _ _ (p_init (until_comma_parser lit)) = _). reflexivity.
    - destruct (skip_ok (take_until q) (token c) false (Inp (w ++ c :: r) pos (negb eof)) (out, tt) tt off _ _ _ _ _ _ (loop_yes false (negb eof) r w (Peek tt) out pos H) (tok_hit true _ _ _)) as [off' Q].
      eexists. split; [right; exists off'; reflexivity|]. unfold any_partial_run, until_comma_parser. rewrite Q. reflexivity. }
  destruct K as [st' [K1 K2]]. exists st'. split; [exact K1|]. rewrite K2. cbn [omap obind augment3 augment entry_result].
  rewrite (advance_to SL (w ++ [c])); [reflexivity|rewrite <- app_assoc; reflexivity|reflexivity|reflexivity].
Qed.
Lemma step_no st out w pos : at_state st out -> ~ In c w -> exists st', at_state st' (out ++ w) /\
  decode_stream uc false (Fd st w pos) = Done (inl None, Fd st' [] (pos_after pos w)).
Proof.
  intros HS H. unfold decode_stream, decode_tokio, parse_with_state, parse_stream_partial. cbn [fd_src fd_pos fd_state p_run any_partial_state mk_both negb].
  assert (K : exists st', at_state st' (out ++ w) /\ any_partial_run (until_comma_parser lit) false (Inp w pos true) st =
    Done (CommitErr (e_from C (pos_after pos w) (se_eoi C)), Inp [] (pos_after pos w) true, st')).
  { destruct HS as [[-> ->]|[off ->]].
    - pose proof (skip_err (take_until q) (token c) false (Inp w pos true) ([], tt) tt 0%N _ _ _ (loop_no false w (Peek tt) [] pos H)) as Q.
      eexists. split; [right; exists 0%N; reflexivity|]. unfold any_partial_run. rewrite (Q : p_run (until_comma_parser lit) _ _ (p_init (until_comma_parser lit)) = _). reflexivity.
    - pose proof (skip_err (take_until q) (token c) false (Inp w pos true) (out, tt) tt off _ _ _ (loop_no false w (Peek tt) out pos H)) as Q.
      eexists. split; [right; exists off; reflexivity|]. unfold any_partial_run, until_comma_parser. rewrite Q. reflexivity. }
  destruct K as [st' [K1 K2]]. exists st'. split; [exact K1|]. rewrite K2. cbn [omap obind augment3 augment entry_result ipart].
  rewrite (el_from EL), (el_se EL). rewrite (advance_to SL w); [reflexivity|rewrite app_nil_r; reflexivity|reflexivity|reflexivity].
Qed.
Lemma step_end st out pos : at_state st out -> exists d', decode_stream uc true (Fd st [] pos) = Done (inl None, d').
Proof.
  intros HS. unfold decode_stream, decode_tokio, parse_with_state, parse_stream_partial. cbn [fd_src fd_pos fd_state p_run any_partial_state mk_both negb].
  assert (K : exists st' e, any_partial_run (until_comma_parser lit) false (Inp [] pos false) st = Done (PeekErr e, Inp [] pos false, st')).
  { destruct HS as [[-> ->]|[off ->]]; do 2 eexists; reflexivity. }
  destruct K as [st' [e K2]]. rewrite K2. cbn [omap obind augment3 augment entry_result ipart].
  assert (KE : forall t, e_is_eoi C (terr t) = true -> e_is_eoi C (terr (p_adderr uc t)) = true).
  { change (keep (p_adderr uc)). apply keep_tuple. repeat constructor; intros t H; cbn.
    - exact H.
    - unfold e_add_expected. rewrite (el_add EL), H. reflexivity. }
  unfold augment_err. rewrite KE by (cbn; rewrite (el_add EL), (el_se EL); apply orb_true_r).
  cbn. rewrite (el_se EL). cbn. eexists. reflexivity.
Qed.

(** The values: the parts of the text that a comma ends. *)
Lemma until_items m : forall cs st src pos out ms tail, at_state st out -> Forall (fun w => ~ In c w) ms -> ~ In c tail -> ~ In c out ->
  out ++ src ++ concat cs = concat (List.map (fun w => w ++ [c]) ms) ++ tail ->
  length ms + length cs + 1 < m -> framed_items m uc false (Fd st src pos) cs = Done (inl ms).
Proof.
  induction m as [|m IH]; intros cs st src pos out ms tail HS HM HT HO EQ Hm; [lia|]. cbn [framed_items].
  assert (NC : ~ In c src \/ exists w r, src = w ++ c :: r /\ ~ In c w).
  { clear -L. induction src as [|t src IH]; [left; auto|]. destruct (tok_eqb C t c) eqn:Q.
    - apply (law_tok L) in Q. subst t. right. exists [], src. auto.
    - assert (N : t <> c) by (intros K; apply (law_tok L) in K; congruence). destruct IH as [IH|[w [r [-> IH]]]].
      + left. intros [K|K]; auto.
      + right. exists (t :: w), r. split; [reflexivity|]. intros [K|K]; auto. }
  assert (UNIQ : forall (a b x y : list T), ~ In c a -> ~ In c b -> a ++ c :: x = b ++ c :: y -> a = b /\ x = y).
  { clear. induction a as [|t a IH]; intros [|u b] x y Ha Hb H; cbn in H; inversion H; subst; auto.
    - exfalso. apply Hb. left. reflexivity.
    - exfalso. apply Ha. left. reflexivity.
    - destruct (IH b x y) as [-> ->]; auto; intros K; [apply Ha|apply Hb]; right; exact K. }
  destruct NC as [NC|[w [r [-> NC]]]].
  - destruct (step_no st out src pos HS NC) as [st' [S1 S2]]. rewrite S2. cbn [obind]. destruct cs as [|ch cs].
    + assert (ms = []) as ->.
      { destruct ms as [|w ms]; [reflexivity|]. exfalso. cbn in EQ. rewrite app_nil_r in EQ. assert (K : In c (out ++ src)) by (rewrite EQ, <- !app_assoc; apply in_or_app; right; left; reflexivity).
        apply in_app_or in K. tauto. }
      destruct m as [|m]; [cbn in Hm; lia|]. cbn [framed_items]. destruct (step_end _ _ (pos_after pos src) S1) as [d' Q]. rewrite Q. reflexivity.
    + unfold fd_add. cbn [fd_state fd_src fd_pos app]. eapply (IH cs st' ch _ (out ++ src) ms tail); auto.
      * intros K. apply in_app_or in K. tauto.
      * cbn [concat] in EQ. rewrite <- app_assoc. exact EQ.
      * cbn [length] in Hm. lia.
  - destruct (step_yes false st out w r pos HS NC) as [st' [S1 S2]]. rewrite S2. cbn [obind].
    destruct ms as [|w1 ms].
    { exfalso. apply HT. cbn in EQ. rewrite <- EQ. apply in_or_app. right. rewrite <- app_assoc. apply in_or_app. right. left. reflexivity. }
    inversion HM as [|? ? HM1 HM2]; subst. cbn [List.map concat] in EQ. rewrite <- !app_assoc in EQ. cbn [app] in EQ. rewrite app_assoc in EQ. apply UNIQ in EQ; [|intros K; apply in_app_or in K; tauto|exact HM1].
    destruct EQ as [EQ1 EQ2]. rewrite (IH cs st' r (pos_after pos (w ++ [c])) [] ms tail); auto; [cbn [omap]; rewrite EQ1; reflexivity|cbn [length] in Hm; lia].
Qed.
Lemma until_runs pos cs ms tail m : Forall (fun w => ~ In c w) ms -> ~ In c tail -> concat cs = concat (List.map (fun w => w ++ [c]) ms) ++ tail ->
  length ms + length cs + 1 < m -> run_decoder m (until_comma_parser lit) pos cs = Done (inl ms).
Proof.
  intros HM HT EQ Hm. unfold run_decoder. destruct cs as [|ch cs].
  - assert (ms = []) as ->. { destruct ms as [|[|t w] ms]; [reflexivity|discriminate|discriminate]. }
    destruct m as [|m]; [lia|]. cbn [framed_items]. destruct (step_end None [] pos) as [d' Q]; [left; auto|]. rewrite Q. reflexivity.
  - eapply (until_items m cs None ch pos [] ms tail); auto; [left; auto|cbn [length] in Hm; lia].
Qed.
End Until.
