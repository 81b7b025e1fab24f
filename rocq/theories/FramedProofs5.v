(** Proofs for C81: the decoders of tests/async.rs on any text. *)
From Coq Require Import String List Bool Arith NArith Lia.
Import ListNotations.
From Verif Require Import Base Parser Errors Token Combinator Sequence Choice Repeat RangeP ByteP Spec LibSpec AgreeSpec ResultProofs CombProofs ForwardProofs.
From Verif Require Import ChunkSpec ChunkProofs ChunkProofs7 DecodeM DecodeSpec DecodeProofs TotalSpec SteadySpec SteadyProofs SteadyProofs2 SteadyProofs3 SteadyProofs4.
From Verif Require Import FramedM FramedSpec FramedSpec2 FramedProofs.
Unset Implicit Arguments.

Section AnyText.
Context {C : Cfg}.
Notation T := (tok C).
Notation E := (Err C).
Notation nonempty := consumed_some.
Variable z : nat.
Notation few := (TotalSpec.fits z).
Variable EL : eoi_laws C.
Variable W : forall t, width C t = 1.

Section Run.
Context {S A : Type} (x a n h : bool) (Cln : bool -> S -> Prop) (Res : bool -> Pos C -> list T -> list T -> S -> Prop) (p : parser C S A).
Hypothesis H : chunk_by x a n h Cln Res p.
Hypothesis HR : ret_by z Cln Res p.
Hypothesis FW : forward p.

Definition ginv (eof : bool) (d : fdec S) (pos0 : Pos C) (text more : list T) : Prop := exists l k c, fd_pos d = pos_after pos0 l /\ fd_src d = k ++ c /\
  (forall g, (eof = true -> g = false) -> Res g pos0 l k (fd_state d)) /\ text = l ++ (k ++ c) ++ more /\ (eof = true -> more = []).

Lemma fresh_ret text pos : few (Inp text pos false) -> exists r i', fresh p (Inp text pos false) = Done (r, i').
Proof.
  intros Hf. destruct (HR false true pos [] [] text (p_init p)) as [[[r i'] s] Q]; [cbn; auto using (cb_init H)|exact Hf|].
  exists r, i'. unfold fresh. cbn in Q. unfold pos_after in Q. cbn in Q. rewrite Q. reflexivity.
Qed.
Lemma err_fails f pos w more c : always_err f (fresh p) pos w c -> (f = true \/ more = []) -> few (Inp (w ++ more) pos false) -> fails (fresh p) (Inp (w ++ more) pos false) c.
Proof.
  intros HA Hm Hf. destruct (fresh_ret _ _ Hf) as [r [i' Q]]. destruct (HA more Hm _ _ Q) as [K1 K2]. destruct r as [v|v|e|e]; try discriminate.
  - exists e, (CommitErr e), i'. auto.
  - exists (terr e), (PeekErr e), i'. auto.
Qed.
Lemma ok_succeeds f pos w1 w2 more v : always_ok f (fresh p) pos w1 w2 v -> (f = true \/ more = []) -> few (Inp (w1 ++ w2 ++ more) pos false) ->
  succeeds (fresh p) (Inp (w1 ++ w2 ++ more) pos false) (nonempty w1) v (Inp (w2 ++ more) (pos_after pos w1) false).
Proof. intros HA Hm Hf. destruct (fresh_ret _ _ Hf) as [r [i' Q]]. destruct (HA more Hm _ _ Q) as [-> ->]. exact Q. Qed.

Lemma any_step eof d pos0 text more : ginv eof d pos0 text more -> few (Inp text pos0 false) -> exists res d',
  decode_stream p eof d = Done (res, d') /\
  match res with
  | inr e => (exists c, fails (fresh p) (Inp text pos0 false) c) /\ (e_is_eoi C e = true -> text <> [])
  | inl (Some v) => exists w text' c, text = w ++ text' /\ succeeds (fresh p) (Inp text pos0 false) c v (Inp text' (pos_after pos0 w) false) /\ ginv eof d' (pos_after pos0 w) text' more /\ text' = fd_src d' ++ more
  | inl None => (eof = true -> (exists c, fails (fresh p) (Inp text pos0 false) c) /\ (a = true -> text = [])) /\
      (eof = false -> forall c more' eof', more = c ++ more' -> (eof' = true -> more' = []) -> ginv eof' (fd_add c d') pos0 text more')
  end.
Proof.
  intros [l [k [c [E1 [E2 [K [-> HM]]]]]]] Hf. unfold decode_stream. rewrite E1, E2 in *.
  assert (HE : eof = true -> negb eof = false) by (intros ->; reflexivity).
  assert (Hx : negb eof = true \/ more = []) by (destruct eof; auto).
  assert (St : started Cln Res (negb eof) false pos0 l k (fd_state d)) by (apply K; exact HE).
  destruct (HR (negb eof) false pos0 l k c _ St) as [[[r i'] st'] Q]; [apply (few_len _ _ _ Hf); cbn [rest]; rewrite !app_length; lia|].
  pose proof (cb_run H _ false _ _ _ _ _ St _ Q) as Fi. unfold fits in Fi.
  unfold decode_tokio, parse_with_state, parse_stream_partial. rewrite Q. cbn [omap augment3 augment].
  assert (OK : forall v, ((exists r1, k ++ c = r1 ++ rest i' /\ i' = Inp (rest i') (pos_after (pos_after pos0 l) r1) (negb eof) /\
     always_ok (negb eof) (fresh p) pos0 (l ++ r1) (rest i') v /\ (l = [] -> committed r = nonempty r1)) /\ Cln (negb eof) st' /\ (h = true -> negb eof = true -> k ++ c <> [])) ->
     exists d', omap (fun b => (@inl (option A) E (Some v), Fd st' (bbytes b) (ipos i'))) (b_advance (distance i' (Inp (k ++ c) (pos_after pos0 l) (negb eof))) (Buf (k ++ c) 0)) =
        Done (inl (Some v), d') /\ exists w text' c', l ++ (k ++ c) ++ more = w ++ text' /\
        succeeds (fresh p) (Inp (l ++ (k ++ c) ++ more) pos0 false) c' v (Inp text' (pos_after pos0 w) false) /\ ginv eof d' (pos_after pos0 w) text' more /\ text' = fd_src d' ++ more).
  { intros v [[r1 [F1 [F2 [F3 _]]]] [F5 _]]. rewrite (advance_to W r1 i' (k ++ c)); [|exact F1|rewrite F2; reflexivity|rewrite F2; reflexivity].
    cbn [omap bbytes]. eexists. split; [reflexivity|]. exists (l ++ r1), (rest i' ++ more), (nonempty (l ++ r1)). rewrite F1.
    assert (ET : l ++ (r1 ++ rest i') ++ more = (l ++ r1) ++ rest i' ++ more) by (rewrite <- !app_assoc; reflexivity).
    split; [exact ET|]. split; [rewrite ET; apply (ok_succeeds (negb eof)); [exact F3|exact Hx|]; rewrite <- ET, <- F1; exact Hf|].
    split; [|reflexivity]. exists [], [], (rest i'). cbn [fd_pos fd_src fd_state app]. split; [rewrite F2; cbn [ipos]; rewrite pos_after_app; reflexivity|]. split; [reflexivity|]. split.
    - intros g Hg. apply (cb_res H). destruct eof; cbn in F5; [rewrite (Hg eq_refl); exact F5|]. destruct g; [exact F5|apply (cb_cln H); exact F5].
    - auto. }
  assert (ER : forall c0, always_err (negb eof) (fresh p) pos0 (l ++ k ++ c) c0 -> fails (fresh p) (Inp (l ++ (k ++ c) ++ more) pos0 false) c0).
  { intros c0 HA. rewrite app_assoc in Hf |- *. apply (err_fails (negb eof)); [exact HA|exact Hx|exact Hf]. }
  (** Whatever error comes out when the end of the input has been seen. *)
  assert (EE : forall (e : E) j c0, always_err (negb eof) (fresh p) pos0 (l ++ k ++ c) c0 -> (e_is_eoi C e = true -> eof = true) -> ipart j = negb eof -> (k ++ c = [] -> rest j = []) -> exists res d',
    obind (Done (if e_is_eoi C e then if ipart j then inl (None, distance j (Inp (k ++ c) (pos_after pos0 l) (negb eof)))
       else if input_at_eof j && (distance j (Inp (k ++ c) (pos_after pos0 l) (negb eof)) =? 0) then inl (None, 0) else inr e else inr e, j, st'))
     (fun x0 => match x0 with (res, i'0, st'0) => match res with
        | inr err => Done (inr err, Fd st'0 (k ++ c) (pos_after pos0 l))
        | inl (opt, removed_len) => omap (fun b => (@inl (option A) E opt, Fd st'0 (bbytes b) (ipos i'0))) (b_advance removed_len (Buf (k ++ c) 0)) end end) = Done (res, d') /\
    match res with
    | inr e => (exists c1, fails (fresh p) (Inp (l ++ (k ++ c) ++ more) pos0 false) c1) /\ (e_is_eoi C e = true -> l ++ (k ++ c) ++ more <> [])
    | inl (Some v) => exists w text' c1, l ++ (k ++ c) ++ more = w ++ text' /\ succeeds (fresh p) (Inp (l ++ (k ++ c) ++ more) pos0 false) c1 v (Inp text' (pos_after pos0 w) false) /\ ginv eof d' (pos_after pos0 w) text' more /\ text' = fd_src d' ++ more
    | inl None => (eof = true -> (exists c1, fails (fresh p) (Inp (l ++ (k ++ c) ++ more) pos0 false) c1) /\ (a = true -> l ++ (k ++ c) ++ more = [])) /\
      (eof = false -> forall c1 more' eof', more = c1 ++ more' -> (eof' = true -> more' = []) -> ginv eof' (fd_add c1 d') pos0 (l ++ (k ++ c) ++ more) more')
    end).
  { intros e j c0 HA He Hj HZ. destruct (e_is_eoi C e) eqn:Q1.
    - assert (HT : eof = true) by auto. rewrite Hj. subst eof. cbn [negb].
      destruct (input_at_eof j && (distance j (Inp (k ++ c) (pos_after pos0 l) false) =? 0)) eqn:Q2.
      + cbn. exists (inl None). eexists. split; [reflexivity|]. split; [|discriminate]. intros _. split; [eauto|]. intros Ha.
        apply andb_true_iff in Q2. destruct Q2 as [Q2 Q3]. apply Nat.eqb_eq in Q3. rewrite (HM eq_refl), app_nil_r.
        rewrite (cb_atomic H Ha _ _ _ _ _ (K false ltac:(auto))). cbn [app].
        unfold input_at_eof, uncons in Q2. destruct (rest j) as [|t0 r0] eqn:Q4; [|discriminate]. unfold distance in Q3. cbn [rest] in Q3. rewrite Q4 in Q3.
        destruct (k ++ c) as [|t1 r1]; [reflexivity|]. cbn in Q3. rewrite W in Q3. lia.
      + cbn. exists (inr e). eexists. split; [reflexivity|]. split; [eauto|]. intros _ Z. apply app_eq_nil in Z. destruct Z as [_ Z]. apply app_eq_nil in Z. destruct Z as [Z _].
        specialize (HZ Z). rewrite Z in Q2. unfold input_at_eof, uncons, distance in Q2. cbn [rest] in Q2. rewrite HZ, (el_se EL) in Q2. discriminate Q2.
    - cbn. exists (inr e). eexists. split; [reflexivity|]. split; [eauto|]. congruence. }
  destruct r as [v|v|e|e]; cbn [entry_result].
  - cbn. destruct (OK v Fi) as [d' [K1 K3]]. exists (inl (Some v)), d'. auto.
  - cbn. destruct (OK v Fi) as [d' [K1 K3]]. exists (inl (Some v)), d'. auto.
  - destruct Fi as [[F1 [F2 [r1 [F3 [F4 [_ F6]]]]]]|[F1 F2]].
    + cbn [obind]. rewrite F2. assert (Hp : ipart i' = true) by (rewrite F4; exact F1). rewrite Hp.
      rewrite (advance_to W r1 i' (k ++ c)); [|exact F3|rewrite F4; reflexivity|rewrite F4; reflexivity]. cbn [omap bbytes].
      exists (inl None). eexists. split; [reflexivity|]. destruct eof; [discriminate F1|]. split; [discriminate|].
      intros _ c1 more' eof' -> He. exists (l ++ r1), (rest i'), c1. unfold fd_add. cbn [fd_pos fd_src fd_state]. split; [rewrite F4, pos_after_app; reflexivity|].
      split; [reflexivity|]. split; [intros g _; apply F6|]. split; [|exact He]. rewrite F3, <- !app_assoc. reflexivity.
    + assert (Hj : ipart i' = negb eof) by (destruct (FW _ _ _ _ _ _ Q) as [u [_ [_ U]]]; exact U).
      apply (EE e i' true F2); [|exact Hj|destruct (FW _ _ _ _ _ _ Q) as [u [U _]]; cbn [rest] in U; intros Z; rewrite Z in U; symmetry in U; apply app_eq_nil in U; apply U]. intros Qe. destruct eof; [reflexivity|]. destruct (F1 eq_refl) as [F1' _]. congruence.
  - destruct Fi as [_ [F2 [_ [_ F5]]]]. cbn [snd fst]. 
    apply (EE _ (Inp (k ++ c) (pos_after pos0 l) (negb eof)) _ F5); [|reflexivity|cbn [rest]; auto]. intros Qe. destruct eof; [reflexivity|]. exfalso. destruct (F2 eq_refl) as [F2' F3'].
    assert (KA : e_is_eoi C (terr (augment_err (p_adderr p) (Inp (k ++ c) (pos_after pos0 l) true) e)) = false).
    { unfold augment_err. apply (cb_adderr H). unfold uncons. cbn [rest]. destruct (k ++ c) as [|t r]; [congruence|]. cbn. unfold e_add_unexpected. rewrite (el_add EL), F2', (el_unexpected EL). reflexivity. }
    cbn [negb] in Qe. change (e_is_eoi C (terr (augment_err (p_adderr p) (Inp (k ++ c) (pos_after pos0 l) true) e)) = true) in Qe. rewrite KA in Qe. discriminate Qe.
Qed.

Lemma reads_items m : forall cs eof d pos0 text out, ginv eof d pos0 text (concat cs) -> few (Inp text pos0 false) -> (eof = true -> cs = []) ->
  framed_items m p eof d cs = Done out -> exists vs tail, reads p pos0 text vs tail /\ match out with inl vs' => vs' = vs /\ (a = true -> tail = []) | inr e => e_is_eoi C e = true -> tail <> [] end.
Proof.
  induction m as [|m IH]; intros cs eof d pos0 text out HI Hf He; [discriminate|]. cbn [framed_items].
  destruct (any_step _ _ _ _ _ HI Hf) as [res [d' [Q K]]]. rewrite Q. cbn [obind]. destruct res as [[v|]|e].
  - destruct K as [w [text' [c [-> [K1 [K2 _]]]]]]. intros R. destruct (framed_items m p eof d' cs) as [o| |] eqn:Q2; try discriminate.
    destruct (IH cs eof d' (pos_after pos0 w) text' o K2) as [vs [tail [R1 R2]]]; [apply (few_len _ _ _ Hf); cbn [rest]; rewrite app_length; lia|exact He|exact Q2|].
    exists (v :: vs), tail. split; [eapply reads_msg; eauto|]. cbn [omap] in R. destruct o as [l|e]; inversion R; subst; [|exact R2]. destruct R2 as [-> R2]. auto.
  - destruct eof.
    + intros R. inversion R; subst. destruct K as [K _]. destruct (K eq_refl) as [[c Kc] Ka]. exists [], text. split; [econstructor; exact Kc|auto].
    + destruct K as [_ K]. specialize (K eq_refl). destruct cs as [|c cs].
      * assert (D : fd_add [] d' = d') by (destruct d'; unfold fd_add; cbn; rewrite app_nil_r; reflexivity).
        rewrite <- D. apply IH; [apply (K [] [] true); auto|exact Hf|reflexivity].
      * apply IH; [apply (K c (concat cs) false); [reflexivity|discriminate]|exact Hf|discriminate].
  - destruct K as [[c Kc] Ke]. intros R. inversion R; subst. exists [], text. split; [econstructor; exact Kc|exact Ke].
Qed.
Lemma items_end m : productive (fresh p) -> forall cs eof d pos0 text, ginv eof d pos0 text (concat cs) -> few (Inp text pos0 false) -> (eof = true -> cs = []) ->
  length text + length cs + (if eof then 0 else 1) < m -> returns (framed_items m p eof d cs).
Proof.
  intros TS. induction m as [|m IH]; intros cs eof d pos0 text HI Hf He Hm; [lia|]. cbn [framed_items].
  destruct (any_step _ _ _ _ _ HI Hf) as [res [d' [Q K]]]. rewrite Q. cbn [obind]. destruct res as [[v|]|e].
  - destruct K as [w [text' [c [-> [K1 [K2 _]]]]]]. rewrite app_length in Hm. assert (Hw : length w <> 0).
    { intros Hw. apply length_zero_iff_nil in Hw. subst w. pose proof (TS _ _ _ K1 ltac:(destruct c; reflexivity)) as K3. unfold shorter in K3. cbn in K3. lia. }
    destruct (IH cs eof d' (pos_after pos0 w) text' K2) as [o Qo]; [apply (few_len _ _ _ Hf); cbn [rest]; rewrite app_length; lia|exact He|lia|]. rewrite Qo. cbn. eexists. reflexivity.
  - destruct eof; [eexists; reflexivity|]. destruct K as [_ K]. specialize (K eq_refl). destruct cs as [|c cs].
    + assert (D : fd_add [] d' = d') by (destruct d'; unfold fd_add; cbn; rewrite app_nil_r; reflexivity).
      rewrite <- D. eapply IH; [apply (K [] [] true); auto|exact Hf|reflexivity|cbn [length] in *; lia].
    + eapply IH; [apply (K c (concat cs) false); [reflexivity|discriminate]|exact Hf|discriminate|cbn [length] in *; lia].
  - eexists. reflexivity.
Qed.
End Run.

Lemma reads_any_partial {S A} (p : parser C S A) pos text vs tail : reads (any_partial_state p) pos text vs tail -> reads p pos text vs tail.
Proof.
  induction 1 as [pos text c H|pos w text c v vs tail H _ IH].
  - econstructor. destruct H as [e [r [i' [H1 H2]]]]. exists e, r, i'. rewrite fresh_any_partial in H1. eauto.
  - econstructor; [|exact IH]. unfold succeeds in *. rewrite fresh_any_partial in H. exact H.
Qed.
Lemma reads_same {S A} (p : parser C S A) pos text vs tail : reads p pos text vs tail -> forall vs' tail', reads p pos text vs' tail' -> vs' = vs /\ tail' = tail.
Proof.
  induction 1 as [pos text c H|pos w text c v vs tail H _ IH]; intros vs' tail' R.
  - destruct R as [pos t c' K|pos w' text' c' v' vs' tail' K R]; [auto|]. exfalso. destruct H as [e [r [i' [H1 [H2 H3]]]]].
    unfold succeeds in K. rewrite K in H1. inversion H1; subst. destruct c'; discriminate.
  - remember (w ++ text) as t eqn:Et. destruct R as [pos t c' K|pos w' text' c' v' vs' tail' K R].
    + exfalso. destruct K as [e [r [i' [H1 [H2 H3]]]]]. unfold succeeds in H. rewrite H in H1. inversion H1; subst. destruct c; discriminate.
    + unfold succeeds in *. rewrite K in H. injection H as H1 H2 H3. apply okr_inj in H1. destruct H1 as [_ ->]. subst text'. apply app_inv_tail in Et. subst w'.
      destruct (IH _ _ R) as [-> ->]. auto.
Qed.

Variable L : lawful C.
Variable D : pos_distinct C.
Lemma run_decoder_reads x a n h {S A} (p : parser C S A) : steady z x a n h (fun _ : unit => p) -> lib p ->
  forall pos cs m out, few (Inp (concat cs) pos false) -> run_decoder m p pos cs = Done out ->
  exists vs tail, reads p pos (concat cs) vs tail /\ match out with inl vs' => vs' = vs /\ (a = true -> tail = []) | inr e => e_is_eoi C e = true -> tail <> [] end.
Proof.
  intros HS HL pos cs m out Hf Q. apply sd_any_partial_state in HS. destruct (proj1 (steady_sound z EL L D) _ _ _ _ _ _ _ _ HS) as [Cln HC]. destruct (HC tt) as [Res [H HR]].
  assert (FW : forward (any_partial_state p)) by (apply fwd_run, fwd_any_partial_state, lib_fwd, HL).
  assert (INV : forall eof b more, b ++ more = concat cs -> (eof = true -> more = []) -> ginv Res eof (Fd None b pos) pos (concat cs) more).
  { intros eof b more EB He. exists [], [], b. cbn. split; [reflexivity|]. split; [reflexivity|]. split; [intros g _; apply (cb_res H); apply (cb_init H)|]. auto. }
  assert (G : exists vs tail, reads (any_partial_state p) pos (concat cs) vs tail /\ match out with inl vs' => vs' = vs /\ (a = true -> tail = []) | inr e => e_is_eoi C e = true -> tail <> [] end).
  { unfold run_decoder in Q. destruct cs as [|c cs].
    - eapply (reads_items _ _ _ _ _ _ _ H HR FW); [|exact Hf| |exact Q]; [apply INV; auto|reflexivity].
    - eapply (reads_items _ _ _ _ _ _ _ H HR FW); [|exact Hf| |exact Q]; [apply INV; [reflexivity|discriminate]|discriminate]. }
  destruct G as [vs [tail [G1 G2]]]. exists vs, tail. split; [apply reads_any_partial; exact G1|exact G2].
Qed.
Lemma run_decoder_ends x a n h {S A} (p : parser C S A) : steady z x a n h (fun _ : unit => p) -> lib p -> productive (fresh p) ->
  forall pos cs m, few (Inp (concat cs) pos false) -> length (concat cs) + length cs + 1 < m -> returns (run_decoder m p pos cs).
Proof.
  intros HS HL TS pos cs m Hf Hm. apply sd_any_partial_state in HS. destruct (proj1 (steady_sound z EL L D) _ _ _ _ _ _ _ _ HS) as [Cln HC]. destruct (HC tt) as [Res [H HR]].
  assert (FW : forward (any_partial_state p)) by (apply fwd_run, fwd_any_partial_state, lib_fwd, HL).
  assert (TS' : productive (fresh (any_partial_state p))) by (intros i r i' K; rewrite fresh_any_partial in K; eapply TS; exact K).
  assert (INV : forall eof b more, b ++ more = concat cs -> (eof = true -> more = []) -> ginv Res eof (Fd None b pos) pos (concat cs) more).
  { intros eof b more EB He. exists [], [], b. cbn. split; [reflexivity|]. split; [reflexivity|]. split; [intros g _; apply (cb_res H); apply (cb_init H)|]. auto. }
  unfold run_decoder. destruct cs as [|c cs].
  - eapply (items_end _ _ _ _ _ _ _ H HR FW _ TS'); [apply INV; auto|exact Hf|reflexivity|cbn in *; lia].
  - eapply (items_end _ _ _ _ _ _ _ H HR FW _ TS'); [apply INV; [reflexivity|discriminate]|exact Hf|discriminate|cbn [length] in *; lia].
Qed.
End AnyText.
