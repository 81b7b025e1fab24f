(** Proofs for C80: the decoders of tests/async.rs. *)
From Coq Require Import String List Bool Arith NArith Lia.
Import ListNotations.
From Verif Require Import Base Parser Errors Token Combinator Sequence Choice Repeat RangeP ByteP Spec LibSpec AgreeSpec ResultProofs CombProofs ForwardProofs.
From Verif Require Import ChunkSpec ChunkProofs ChunkProofs7 DecodeM DecodeSpec DecodeProofs TotalSpec SteadySpec SteadyProofs SteadyProofs2 SteadyProofs3 SteadyProofs4.
From Verif Require Import FramedM FramedSpec.
Unset Implicit Arguments.

Section Framed.
Context {C : Cfg}.
Notation T := (tok C).
Notation E := (Err C).
Variable z : nat.
Notation few := (TotalSpec.fits z).
Variable EL : eoi_laws C.
Variable W : forall t, width C t = 1.

Lemma fresh_any_partial {S A} (p : parser C S A) i : fresh (any_partial_state p) i = fresh p i.
Proof. unfold fresh. cbn. unfold any_partial_run. destruct (p_run p true i (p_init p)) as [[[r j] s]| |]; reflexivity. Qed.
Lemma frames_any_partial {S A} (p : parser C S A) pos text vs : frames p pos text vs -> frames (any_partial_state p) pos text vs.
Proof.
  induction 1 as [pos H|pos w text c v vs H _ IH].
  - constructor. destruct H as [e [r [i' [H1 H2]]]]. exists e, r, i'. rewrite fresh_any_partial. auto.
  - econstructor; [|exact IH]. unfold succeeds in *. rewrite fresh_any_partial. exact H.
Qed.

Section Run.
Context {S A : Type} (x a n h : bool) (Cln : bool -> S -> Prop) (Res : bool -> Pos C -> list T -> list T -> S -> Prop) (p : parser C S A).
Hypothesis H : chunk_by x a n h Cln Res p.
Hypothesis HR : ret_by z Cln Res p.
Hypothesis KE : keeps_eoi p.

Definition finv (eof : bool) (d : fdec S) (more : list T) (vs : list A) : Prop := exists pos0 l k c, fd_pos d = pos_after pos0 l /\ fd_src d = k ++ c /\
  (forall g, (eof = true -> g = false) -> Res g pos0 l k (fd_state d)) /\ frames p pos0 (l ++ (k ++ c) ++ more) vs /\ (eof = true -> more = []).

Lemma frames_ok f pos w1 w2 more v vs : frames p pos (w1 ++ w2 ++ more) vs -> always_ok f (fresh p) pos w1 w2 v -> (f = true \/ more = []) ->
  exists vs', vs = v :: vs' /\ frames p (pos_after pos w1) (w2 ++ more) vs'.
Proof.
  intros HF HA Hm. specialize (HA more Hm). remember (w1 ++ w2 ++ more) as text eqn:Et. destruct HF as [pos HE|pos w text c v0 vs HE HF].
  - destruct HE as [e [r [i' [H1 [H2 _]]]]]. destruct (HA _ _ H1) as [K _]. subst r. destruct w1; discriminate.
  - destruct (HA _ _ HE) as [K1 K2]. apply okr_inj in K1. destruct K1 as [_ ->]. inversion K2; subst text. apply app_inv_tail in Et. subst w. exists vs. split; [reflexivity|]. exact HF.
Qed.
Lemma frames_err f pos w more c vs : frames p pos (w ++ more) vs -> always_err f (fresh p) pos w c -> (f = true \/ more = []) ->
  vs = [] /\ w ++ more = [] /\ c = false.
Proof.
  intros HF HA Hm. specialize (HA more Hm). remember (w ++ more) as text eqn:Et. destruct HF as [pos HE|pos w0 text c0 v0 vs HE HF].
  - destruct HE as [e [r [i' [H1 [H2 H3]]]]]. destruct (HA _ _ H1) as [_ K]. rewrite <- K. auto.
  - destruct (HA _ _ HE) as [K1 K2]. destruct c0; discriminate.
Qed.

Lemma advance_to (used : list T) (i' : input C) (r0 : list T) pos f : r0 = used ++ rest i' -> ipos i' = pos_after pos used -> ipart i' = f ->
  b_advance (distance i' (Inp r0 pos f)) (Buf r0 0) = Done (Buf (rest i') 0).
Proof.
  intros -> Hp Hf. assert (AD : advanced (Inp (used ++ rest i') pos f) i').
  { exists used. split; [reflexivity|]. split; [exact Hp|exact Hf]. }
  destruct (drops_slice W _ _ AD) as [D1 D2]. cbn [rest] in D1, D2. set (m := distance i' _) in *. clearbody m.
  unfold b_advance. cbn [bbytes bcap]. rewrite (proj2 (Nat.leb_le _ _)) by lia. rewrite D1. reflexivity.
Qed.

Lemma framed_step eof d more vs : finv eof d more vs -> few (Inp (fd_src d) (fd_pos d) true) -> exists o d',
  decode_stream p eof d = Done (inl o, d') /\ length (fd_src d') <= length (fd_src d) /\
  match o with
  | Some v => exists vs', vs = v :: vs' /\ finv eof d' more vs'
  | None => (eof = true -> vs = []) /\ (eof = false -> forall c more' eof', more = c ++ more' -> (eof' = true -> more' = []) -> finv eof' (fd_add c d') more' vs)
  end.
Proof.
  intros [pos0 [l [k [c [E1 [E2 [K [HF HM]]]]]]]] Hf. unfold decode_stream. rewrite E1, E2 in *.
  assert (HE : eof = true -> negb eof = false) by (intros ->; reflexivity).
  assert (Hx : negb eof = true \/ more = []) by (destruct eof; auto).
  assert (St : started Cln Res (negb eof) false pos0 l k (fd_state d)) by (apply K; exact HE).
  destruct (HR (negb eof) false pos0 l k c _ St) as [[[r i'] st'] Q]; [apply (few_len _ _ _ Hf); reflexivity|].
  pose proof (cb_run H _ false _ _ _ _ _ St _ Q) as Fi. unfold fits in Fi.
  unfold decode_tokio, parse_with_state, parse_stream_partial. rewrite Q. cbn [omap augment3 augment].
  assert (OK : forall v, ((exists r1, k ++ c = r1 ++ rest i' /\ i' = Inp (rest i') (pos_after (pos_after pos0 l) r1) (negb eof) /\
     always_ok (negb eof) (fresh p) pos0 (l ++ r1) (rest i') v /\ (l = [] -> committed r = consumed_some r1)) /\ Cln (negb eof) st' /\ (h = true -> negb eof = true -> k ++ c <> [])) ->
     exists d', omap (fun b => (@inl (option A) E (Some v), Fd st' (bbytes b) (ipos i'))) (b_advance (distance i' (Inp (k ++ c) (pos_after pos0 l) (negb eof))) (Buf (k ++ c) 0)) =
        Done (inl (Some v), d') /\ length (fd_src d') <= length (k ++ c) /\ exists vs', vs = v :: vs' /\ finv eof d' more vs').
  { intros v [[r1 [F1 [F2 [F3 _]]]] [F5 _]]. rewrite (advance_to r1 i' (k ++ c)); [|exact F1|rewrite F2; reflexivity|rewrite F2; reflexivity].
    cbn [omap bbytes]. eexists. split; [reflexivity|]. split; [cbn [fd_src]; rewrite F1, app_length; lia|].
    rewrite F1 in HF. destruct (frames_ok (negb eof) pos0 (l ++ r1) (rest i') more v vs) as [vs' [V1 V2]]; [rewrite <- !app_assoc in *; exact HF|exact F3|exact Hx|].
    exists vs'. split; [exact V1|]. exists (ipos i'), [], [], (rest i'). cbn [fd_pos fd_src fd_state app]. split; [reflexivity|]. split; [reflexivity|]. split.
    - intros g Hg. apply (cb_res H). destruct eof; cbn in F5; [rewrite (Hg eq_refl); exact F5|]. destruct g; [exact F5|apply (cb_cln H); exact F5].
    - split; [|exact HM]. rewrite F2. cbn [ipos]. rewrite <- pos_after_app. exact V2. }
  destruct r as [v|v|e|e]; cbn [entry_result].
  - cbn. destruct (OK v Fi) as [d' [K1 [K2 K3]]]. exists (Some v), d'. auto.
  - cbn. destruct (OK v Fi) as [d' [K1 [K2 K3]]]. exists (Some v), d'. auto.
  - destruct Fi as [[F1 [F2 [r1 [F3 [F4 [_ F6]]]]]]|[_ F2]].
    + cbn [obind]. rewrite F2. assert (Hp : ipart i' = true) by (rewrite F4; exact F1). rewrite Hp.
      rewrite (advance_to r1 i' (k ++ c)); [|exact F3|rewrite F4; reflexivity|rewrite F4; reflexivity]. cbn [omap bbytes].
      eexists None, _. split; [reflexivity|]. split; [cbn [fd_src]; rewrite F3, app_length; lia|]. destruct eof; [discriminate F1|]. split; [discriminate|].
      intros _ c1 more' eof' -> He. exists pos0, (l ++ r1), (rest i'), c1. unfold fd_add. cbn [fd_pos fd_src fd_state]. split; [rewrite F4, pos_after_app; reflexivity|].
      split; [reflexivity|]. split; [intros g _; apply F6|]. split; [|exact He]. rewrite F3 in HF. rewrite <- !app_assoc in *. exact HF.
    + exfalso. rewrite app_assoc in HF. destruct (frames_err _ _ _ _ _ _ HF F2 Hx) as [_ [_ K1]]. discriminate.
  - destruct Fi as [_ [F2 [_ [_ F5]]]]. rewrite app_assoc in HF. destruct (frames_err _ _ _ _ _ _ HF F5 Hx) as [-> [K1 K2]].
    apply app_eq_nil in K1. destruct K1 as [K1 ->]. apply app_eq_nil in K1. destruct K1 as [-> K1]. rewrite K1 in *.
    destruct eof; [|destruct (F2 eq_refl) as [_ F3]; congruence]. cbn [negb] in *.
    assert (KA : e_is_eoi C (terr (augment_err (p_adderr p) (Inp [] (pos_after pos0 []) false) e)) = true).
    { unfold augment_err. cbn. apply KE. destruct e as [e o]. cbn. rewrite (el_add EL), (el_se EL). apply orb_true_r. }
    cbn [obind]. rewrite KA. cbn. rewrite (el_se EL). cbn. eexists None, _. split; [reflexivity|]. split; [cbn; lia|]. split; [reflexivity|discriminate].
Qed.

Lemma framed_run m : forall cs eof d vs, finv eof d (concat cs) vs -> few (Inp (fd_src d ++ concat cs) (fd_pos d) true) ->
  length vs + length cs + (if eof then 0 else 1) < m -> (eof = true -> cs = []) -> framed_items m p eof d cs = Done (inl vs).
Proof.
  induction m as [|m IH]; intros cs eof d vs HI Hf Hm He; [lia|]. cbn [framed_items].
  destruct (framed_step _ _ _ _ HI) as [o [d' [Q [QL K]]]]; [apply (few_len _ _ _ Hf); cbn [rest]; rewrite app_length; lia|].
  rewrite Q. cbn [obind]. destruct o as [v|].
  - destruct K as [vs' [-> K]]. rewrite (IH cs eof d' vs'); [reflexivity|exact K|apply (few_len _ _ _ Hf); cbn [rest]; rewrite !app_length; lia|cbn [length] in Hm; lia|exact He].
  - destruct eof; [rewrite (proj1 K eq_refl); reflexivity|]. destruct K as [_ K]. specialize (K eq_refl). destruct cs as [|c cs].
    + assert (D : fd_add [] d' = d') by (destruct d'; unfold fd_add; cbn; rewrite app_nil_r; reflexivity).
      rewrite <- D. apply IH; [apply (K [] [] true); auto|apply (few_len _ _ _ Hf); cbn [rest fd_add fd_src concat]; rewrite !app_length; cbn [length]; lia|cbn [length] in *; lia|reflexivity].
    + apply IH; [apply (K c (concat cs) false); [reflexivity|discriminate]|apply (few_len _ _ _ Hf); cbn [rest fd_add fd_src concat]; rewrite !app_length; lia|cbn [length] in *; lia|discriminate].
Qed.
End Run.

Variable L : lawful C.
Variable D : pos_distinct C.
Lemma run_decoder_gives x a n h {S A} (p : parser C S A) : steady z x a n h (fun _ : unit => p) -> keeps_eoi p ->
  forall pos cs vs m, frames p pos (concat cs) vs -> few (Inp (concat cs) pos true) -> length vs + length cs + 1 < m -> run_decoder m p pos cs = Done (inl vs).
Proof.
  intros HS HK pos cs vs m HF Hf Hm. apply sd_any_partial_state in HS. destruct (proj1 (steady_sound z EL L D) _ _ _ _ _ _ _ _ HS) as [Cln HC]. destruct (HC tt) as [Res [H HR]].
  apply frames_any_partial in HF.
  assert (INV : forall eof b more, b ++ more = concat cs -> (eof = true -> more = []) -> finv Res (any_partial_state p) eof (Fd None b pos) more vs).
  { intros eof b more EB He. exists pos, [], [], b. cbn. split; [reflexivity|]. split; [reflexivity|]. split; [intros g _; apply (cb_res H); apply (cb_init H)|].
    rewrite EB. auto. }
  unfold run_decoder. destruct cs as [|c cs].
  - eapply (framed_run _ _ _ _ _ _ _ H HR HK); [apply INV; auto|exact Hf|cbn [length] in *; lia|reflexivity].
  - eapply (framed_run _ _ _ _ _ _ _ H HR HK); [apply INV; [reflexivity|discriminate]|exact Hf|cbn [length] in *; lia|discriminate].
Qed.
End Framed.
