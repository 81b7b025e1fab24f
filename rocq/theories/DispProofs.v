(** Proofs for C69 ([dispatch!]) and C70 ([input_converter]). *)
From Coq Require Import String List Bool Arith NArith.
Import ListNotations.
From Verif Require Import Base Parser Token Combinator Sequence Choice Repeat Spec AgreeSpec LibSpec TidySpec StillSpec TotalSpec DispSpec.
Unset Implicit Arguments.

Section Disp.
Context {C : Cfg}.
Notation T := (tok C).
Notation E := (Err C).

Lemma chosen_exists {A SS} (d : disp (C:=C) A SS) : exists k S (p : parser C S A) inj, chosen k d p inj.
Proof.
  induction d as [S SS p|S SS d [k [S' [p [inj H]]]]].
  - exists 0, S, p, inl. constructor.
  - exists (Datatypes.S k), S', p, (fun s => inr (inj s)). constructor. exact H.
Qed.

Definition run_as {A S SS} (p : parser C S A) (inj : S -> SS) (first : bool) (i : input C) (s : S) : outcome (PR A E * input C * option SS) :=
  omap (fun y => match y with (r, i', s') => (r, i', Some (inj s')) end) (p_run p first i s).

Lemma disp_own {A} k SS S (d : disp (C:=C) A SS) (p : parser C S A) inj : chosen k d p inj ->
  forall first i s, disp_run d first i (Some (inj s)) = run_as p inj first i s.
Proof.
  induction 1 as [S SS p|k S1 SS S d p inj H IH]; intros first i s; cbn [disp_run]; [reflexivity|].
  rewrite IH. unfold run_as. destruct (p_run p first i s) as [[[r j] s']| |]; reflexivity.
Qed.
Lemma disp_none {A} k SS S (d : disp (C:=C) A SS) (p : parser C S A) inj : chosen k d p inj ->
  forall first i, disp_run d first i None = run_as p inj first i (p_init p).
Proof.
  induction 1 as [S SS p|k S1 SS S d p inj H IH]; intros first i; cbn [disp_run]; [reflexivity|].
  rewrite IH. unfold run_as. destruct (p_run p first i (p_init p)) as [[[r j] s']| |]; reflexivity.
Qed.
Lemma foreign_none {A SS} (d : disp (C:=C) A SS) st : foreign d st -> forall first i, disp_run d first i st = disp_run d first i None.
Proof.
  induction 1 as [SS d|S SS p s|S SS d s|S SS d s H IH]; intros first i; try reflexivity. cbn [disp_run]. rewrite IH. reflexivity.
Qed.
Lemma own_or_foreign {A} k SS S (d : disp (C:=C) A SS) (p : parser C S A) inj : chosen k d p inj ->
  forall st, (exists s, st = Some (inj s)) \/ foreign d st.
Proof.
  induction 1 as [S SS p|k S1 SS S d p inj H IH]; intros [[s|s]|]; try (right; constructor; fail); eauto.
  destruct (IH (Some s)) as [[s' K]|K].
  - left. exists s'. inversion K. reflexivity.
  - right. constructor. exact K.
Qed.
Lemma disp_foreign {A} k SS S (d : disp (C:=C) A SS) (p : parser C S A) inj st : chosen k d p inj -> foreign d st ->
  forall first i, disp_run d first i st = run_as p inj first i (p_init p).
Proof. intros H F first i. rewrite (foreign_none _ _ F). eapply disp_none; eauto. Qed.

Lemma disp_fresh {A} k SS S (d : disp (C:=C) A SS) (p : parser C S A) inj : chosen k d p inj -> forall i, fresh (dispatch d) i = fresh p i.
Proof.
  intros H i. unfold fresh. cbn. rewrite (disp_none _ _ _ _ _ _ H). unfold run_as. destruct (p_run p true i (p_init p)) as [[[r j] s]| |]; reflexivity.
Qed.
Lemma disp_adderr_chosen {A} k SS S (d : disp (C:=C) A SS) (p : parser C S A) inj : chosen k d p inj -> p_adderr (dispatch d) = p_adderr p.
Proof. cbn. induction 1; auto. Qed.

Lemma disp_lib {A} k SS S (d : disp (C:=C) A SS) (p : parser C S A) inj : chosen k d p inj -> lib p -> lib (dispatch d).
Proof. induction 1; intros L; [apply lib_dispatch_here|apply lib_dispatch_later]; auto. Qed.
Lemma disp_tidy {A} b k SS S (d : disp (C:=C) A SS) (p : parser C S A) inj : chosen k d p inj -> tidy b p -> tidy b (dispatch d).
Proof. induction 1; intros L; [apply td_dispatch_here|apply td_dispatch_later]; auto. Qed.
Lemma disp_honest {A} k SS S (d : disp (C:=C) A SS) (p : parser C S A) inj : chosen k d p inj -> honest p -> honest (dispatch d).
Proof. induction 1; intros L; [apply hon_dispatch_here|apply hon_dispatch_later]; auto. Qed.
Lemma disp_solid {A} z b n k SS S (d : disp (C:=C) A SS) (p : parser C S A) inj : chosen k d p inj -> solid z b n p -> solid z b n (dispatch d).
Proof. induction 1; intros L; [apply sol_dispatch_here|apply sol_dispatch_later]; auto. Qed.

Lemma runs_after_ext {X A B} (b1 : beh (C:=C) X) (k1 k2 : X -> beh (C:=C) A) (out : X -> A -> B) b : (forall x i, k1 x i = k2 x i) ->
  runs_after b1 k2 out b -> runs_after b1 k1 out b.
Proof.
  intros K [Q1 Q2]. split.
  - intros i c d i'. rewrite (Q1 i c d i'). unfold succeeds. split; intros [c1 [x [i1 [c2 [y [H1 [H2 H3]]]]]]]; exists c1, x, i1, c2, y; (split; [exact H1|]);
      (split; [|exact H3]); [rewrite K|rewrite <- K]; exact H2.
  - intros i c. rewrite (Q2 i c). unfold fails, fails_with. split; (intros [H|[c1 [x [i1 [c2 [H1 [H2 H3]]]]]]]; [left; exact H|right]);
      exists c1, x, i1, c2; (split; [exact H1|]); (split; [|exact H3]); destruct H2 as [e [r [i' H2]]]; exists e, r, i'; [rewrite K|rewrite <- K]; exact H2.
Qed.

(** * [input_converter] *)
Context {D : Cfg}.
Section Conv.
Context {S A : Type} (p : parser D S A) (conv : input C -> (input D + E) * input C) (cerr : Err D -> input C -> E * input C).

Definition conv_back (r : PR A (Err D)) (i1 : input C) : PR A E * input C :=
  match r with
  | CommitOk a => (CommitOk a, i1)
  | PeekOk a => (PeekOk a, i1)
  | CommitErr e => (CommitErr (fst (cerr e i1)), snd (cerr e i1))
  | PeekErr e => (PeekErr (Trk (fst (cerr (terr e) i1)) (toff e)), snd (cerr (terr e) i1))
  end.
Lemma conv_run first i st : p_run (input_converter p conv cerr) first i st =
  match conv i with
  | (inr e, i1) => Done (PeekErr (to_trk e), i1, st)
  | (inl j, i1) => omap (fun x => (conv_back (fst (fst x)) i1, snd x)) (p_run p first j st)
  end.
Proof.
  cbn. destruct (conv i) as [[j|e] i1]; [|reflexivity]. destruct (p_run p first j st) as [[[r j'] s]| |]; try reflexivity. cbn.
  destruct r as [a|a|e|e]; cbn; try reflexivity; [destruct (cerr e i1)|destruct (cerr (terr e) i1)]; reflexivity.
Qed.
Lemma conv_fresh i : fresh (input_converter p conv cerr) i =
  match conv i with
  | (inr e, i1) => Done (PeekErr (to_trk e), i1)
  | (inl j, i1) => omap (fun x => conv_back (fst x) i1) (fresh p j)
  end.
Proof.
  unfold fresh at 1. rewrite conv_run. change (p_init (input_converter p conv cerr)) with (p_init p). unfold fresh.
  destruct (conv i) as [[j|e] i1]; [|reflexivity]. destruct (p_run p true j (p_init p)) as [[[r j'] s]| |]; reflexivity.
Qed.

Lemma conv_succeeds i c a i' : succeeds (fresh (input_converter p conv cerr)) i c a i' <->
  exists j j', conv i = (inl j, i') /\ succeeds (fresh p) j c a j'.
Proof.
  unfold succeeds. rewrite conv_fresh. destruct (conv i) as [[j|e] i1].
  - split.
    + intros H. exists j. destruct (fresh p j) as [[r j']| |]; try discriminate. exists j'. destruct r, c; inversion H; auto.
    + intros [j0 [j' [H1 H2]]]. inversion H1; subst. rewrite H2. destruct c; reflexivity.
  - split; [destruct c; discriminate|]. intros [j0 [j' [H1 H2]]]. discriminate.
Qed.
Lemma conv_fails i c e : fails_with (fresh (input_converter p conv cerr)) i c e <->
  (c = false /\ fst (conv i) = inr e) \/
  exists j i1 e0, conv i = (inl j, i1) /\ fails_with (fresh p) j c e0 /\ e = fst (cerr e0 i1).
Proof.
  unfold fails_with. rewrite conv_fresh. destruct (conv i) as [[j|e0] i1].
  - split.
    + intros [r [i' [H1 [H2 H3]]]]. right. exists j, i1. destruct (fresh p j) as [[r0 j']| |]; try discriminate.
      destruct r0 as [a|a|e1|e1]; cbn in H1; inversion H1; subst; cbn in *; try discriminate; inversion H2; subst.
      * exists e1. split; auto. split; auto. eexists _, _. split; [reflexivity|]. split; reflexivity.
      * exists (terr e1). split; auto. split; auto. eexists _, _. split; [reflexivity|]. split; reflexivity.
    + intros [[_ H]|[j0 [i2 [e0 [H1 [[r [j' [H2 [H3 H4]]]] H5]]]]]]; [discriminate|]. inversion H1; subst. rewrite H2. cbn.
      destruct r as [a|a|e1|e1]; cbn in *; try discriminate; inversion H3; subst; eexists _, _; (split; [reflexivity|split; reflexivity]).
  - split.
    + intros [r [i' [H1 [H2 H3]]]]. left. inversion H1; subst. cbn in *. inversion H2. auto.
    + intros [[-> H]|[j0 [i2 [e1 [H1 _]]]]]; [|discriminate]. inversion H; subst. eexists _, _. split; [reflexivity|]. split; reflexivity.
Qed.
Lemma conv_unmoved first i st r i' st' : snd (conv i) = i -> (forall e, snd (cerr e i) = i) ->
  p_run (input_converter p conv cerr) first i st = Done (r, i', st') -> i' = i.
Proof.
  intros H1 H2. rewrite conv_run. destruct (conv i) as [[j|e] i1]; cbn in H1; subst i1.
  - destruct (p_run p first j st) as [[[r0 j'] s]| |]; cbn; try discriminate. destruct r0 as [a|a|e|e]; cbn; intros H; inversion H; auto.
  - intros H; inversion H; auto.
Qed.
Lemma conv_leftover b st : leftover b (input_converter p conv cerr) st -> leftover b p st.
Proof.
  induction 1 as [|st i r i' st' H IH Hr Hb]; [exact (left_init b p)|]. rewrite conv_run in Hr. destruct (conv i) as [[j|e] i1].
  - destruct (p_run p true j st) as [[[r0 j'] s]| |] eqn:E0; try discriminate. cbn in Hr. assert (Hs : s = st') by (inversion Hr; auto). subst s.
    eapply left_run; eauto. destruct Hb as [Hb|Hb]; auto. right. destruct r0; cbn in Hr; inversion Hr; subst; exact Hb.
  - inversion Hr; subst. auto.
Qed.
Lemma conv_history_free b : history_free b p -> history_free b (input_converter p conv cerr).
Proof.
  intros H st Hs i. specialize (H st (conv_leftover _ _ Hs)). rewrite conv_fresh, conv_run. destruct (conv i) as [[j|e] i1]; [|reflexivity].
  rewrite <- (H j). destruct (p_run p true j st) as [[[r j'] s]| |]; reflexivity.
Qed.
End Conv.
End Disp.
