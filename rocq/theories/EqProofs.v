(** Soundness of the laws of [EqSpec.v]. *)
From Coq Require Import String List Bool Arith NArith Lia.
Import ListNotations.
From Verif Require Import Base Parser Token Combinator Sequence Choice Repeat Spec LibSpec TidySpec RepeatSpec ChoiceSpec AgreeSpec.
From Verif Require Import CombProofs CombProofs2 ChoiceProofs ForwardProofs AgreeProofs RepeatProofs RepeatProofs2 RepeatProofs3 RepeatProofs4 Properties3 EqSpec.
Unset Implicit Arguments.

Section EqProofs.
Context {C : Cfg}.
Notation beh := (@beh C).

(** What can be seen of a run: success with commitment, value and rest; failure with commitment; neither. *)
Inductive ob (A : Type) : Type := OOk (c : bool) (a : A) (i : input C) | OFail (c : bool) | ONone.
Arguments OOk {A}. Arguments OFail {A}. Arguments ONone {A}.

Definition obs {A} (b : beh A) (i : input C) : ob A :=
  match b i with
  | Done (CommitOk a, i') => OOk true a i'
  | Done (PeekOk a, i') => OOk false a i'
  | Done (CommitErr _, _) => OFail true
  | Done (PeekErr _, _) => OFail false
  | _ => ONone
  end.

Lemma obs_ok {A} (b : beh A) i c a i' : succeeds b i c a i' <-> obs b i = OOk c a i'.
Proof.
  unfold succeeds, obs, okr. destruct (b i) as [[r j]| |]; [|split; discriminate|split; discriminate].
  destruct r, c; split; intros H; try discriminate; inversion H; reflexivity.
Qed.
Lemma obs_fail {A} (b : beh A) i c : fails b i c <-> obs b i = OFail c.
Proof.
  unfold fails, fails_with, obs. split.
  - intros [e [r [i' [H1 [H2 H3]]]]]. rewrite H1. destruct r; try discriminate; simpl in H3; subst; reflexivity.
  - destruct (b i) as [[r j]| |]; try discriminate. destruct r; try discriminate; intros H; inversion H; do 3 eexists; repeat split.
Qed.
Lemma obs_eq {A} (b : beh A) i o : (forall c a i', succeeds b i c a i' <-> o = OOk c a i') -> (forall c, fails b i c <-> o = OFail c) -> obs b i = o.
Proof.
  intros H1 H2. destruct (obs b i) as [c a j|c|] eqn:Ho.
  - apply obs_ok in Ho. apply H1 in Ho. auto.
  - apply obs_fail in Ho. apply H2 in Ho. auto.
  - destruct o as [c a j|c|]; auto.
    + specialize (H1 c a j). destruct H1 as [_ H1]. specialize (H1 eq_refl). apply obs_ok in H1. congruence.
    + specialize (H2 c). destruct H2 as [_ H2]. specialize (H2 eq_refl). apply obs_fail in H2. congruence.
Qed.
Lemma same_obs {A} (b1 b2 : beh A) : same b1 b2 <-> forall i, fits i -> obs b1 i = obs b2 i.
Proof.
  split.
  - intros H i Hi. destruct (H i Hi) as [H1 H2]. apply obs_eq; intros.
    + rewrite H1. apply obs_ok.
    + rewrite H2. apply obs_fail.
  - intros H i Hi. split; intros.
    + rewrite !obs_ok, (H i Hi). tauto.
    + rewrite !obs_fail, (H i Hi). tauto.
Qed.

Definition omapo {A B} (f : A -> B) (o : ob A) : ob B := match o with OOk c a i => OOk c (f a) i | OFail c => OFail c | ONone => ONone end.
Definition obind {A B} (o : ob A) (k : A -> input C -> ob B) : ob B :=
  match o with
  | OOk c a i => match k a i with OOk c2 b j => OOk (c || c2) b j | OFail c2 => OFail (c || c2) | ONone => ONone end
  | OFail c => OFail c
  | ONone => ONone
  end.

Lemma obs_map {S A B} (p : parser C S A) (f : A -> B) i : obs (fresh (map p f)) i = omapo f (obs (fresh p) i).
Proof. unfold obs. rewrite (map_maps p f i). destruct (fresh p i) as [[r j]| |]; auto. destruct r; reflexivity. Qed.
Lemma obs_ignore {S A} (p : parser C S A) i : obs (fresh (ignore p)) i = omapo (fun _ => tt) (obs (fresh p) i).
Proof. unfold obs. rewrite (ignore_maps p i). destruct (fresh p i) as [[r j]| |]; auto. destruct r; reflexivity. Qed.
Lemma obs_runs {A B D} (b1 : beh A) (k : A -> beh B) (out : A -> B -> D) b : runs_after b1 k out b ->
  forall i, obs b i = obind (obs b1 i) (fun a i1 => omapo (out a) (obs (k a) i1)).
Proof.
  intros [H1 H2] i. apply obs_eq.
  - intros c d i'. rewrite H1. split.
    + intros [c1 [a [i1 [c2 [x [K1 [K2 [-> ->]]]]]]]]. apply obs_ok in K1. apply obs_ok in K2. rewrite K1. simpl. rewrite K2. reflexivity.
    + destruct (obs b1 i) as [c1 a i1| |] eqn:O1; simpl; try discriminate.
      destruct (obs (k a) i1) as [c2 x j| |] eqn:O2; simpl; try discriminate. intros H; inversion H; subst.
      apply obs_ok in O1. apply obs_ok in O2. exists c1, a, i1, c2, x. auto.
  - intros c. rewrite H2. split.
    + intros [K|[c1 [a [i1 [c2 [K1 [K2 ->]]]]]]]; [apply obs_fail in K; rewrite K; reflexivity|].
      apply obs_ok in K1. apply obs_fail in K2. rewrite K1. simpl. rewrite K2. reflexivity.
    + destruct (obs b1 i) as [c1 a i1|c1|] eqn:O1; simpl; try discriminate.
      * destruct (obs (k a) i1) as [c2 x j|c2|] eqn:O2; simpl; try discriminate. intros H; inversion H; subst.
        apply obs_ok in O1. apply obs_fail in O2. right. exists c1, a, i1, c2. auto.
      * intros H; inversion H; subst. left. apply obs_fail. auto.
Qed.
Lemma obs_with {S1 S2 A B} (p : parser C S1 A) (q : parser C S2 B) i :
  obs (fresh (with_ p q)) i = obind (obs (fresh p) i) (fun _ j => obs (fresh q) j).
Proof. rewrite (obs_runs _ _ _ _ (with_runs p q)). destruct (obs (fresh p) i); auto. simpl. destruct (obs (fresh q) i0); reflexivity. Qed.
Lemma obs_skip {S1 S2 A B} (p : parser C S1 A) (q : parser C S2 B) i :
  obs (fresh (skip p q)) i = obind (obs (fresh p) i) (fun a j => omapo (fun _ => a) (obs (fresh q) j)).
Proof. apply (obs_runs _ _ _ _ (skip_runs p q)). Qed.
Lemma obs_pair {S1 S2 A B} (p : parser C S1 A) (q : parser C S2 B) i :
  obs (fresh (pair2 p q)) i = obind (obs (fresh p) i) (fun a j => omapo (pair a) (obs (fresh q) j)).
Proof. apply (obs_runs _ _ _ _ (pair2_runs p q)). Qed.
Lemma obs_then {S1 S2 A B} (p : parser C S1 A) (s0 : S2) (f : A -> parser C S2 B) : (forall a, p_init (f a) = s0) -> (forall a, lib (f a)) ->
  forall i, obs (fresh (then_ p s0 f)) i = obind (obs (fresh p) i) (fun a j => obs (fresh (f a)) j).
Proof.
  intros H1 H2 i. rewrite (obs_runs _ _ _ _ (then_runs p s0 f H1 (fun a => ag_c _ (lib_agree _ _ _ (H2 a))))).
  destruct (obs (fresh p) i); auto. simpl. destruct (obs (fresh (f a)) i0); reflexivity.
Qed.
Lemma obs_value {A} (a : A) i : obs (fresh (value a)) i = OOk false a i.
Proof. reflexivity. Qed.
Lemma obs_unexpected {A} m i : obs (fresh (@unexpected_any C A m)) i = OFail false.
Proof. reflexivity. Qed.

Definition oor {A} (o o2 : ob A) : ob A := match o with OFail false => o2 | _ => o end.
Fixpoint oors {A} (l : list (ob A)) : ob A := match l with [] => OFail false | o :: l => oor o (oors l) end.
Lemma chosen_obs {A} (bs : list (beh A)) b : ordered_choice bs b -> forall i, obs b i = oors (List.map (fun x => obs x i) bs).
Proof.
  intros [H1 [H2 H3]] i.
  assert (D : forall r i', chosen bs i r i' -> oors (List.map (fun x => obs x i) bs) = obs (fun _ => Done (r, i')) i).
  { clear. intros r i' H. induction H as [b bs i r i' H K|b bs i r0 i0 r i' H K _ IH].
    - simpl. unfold obs at 1 3. rewrite H. destruct r; try reflexivity. discriminate.
    - simpl. rewrite IH. unfold obs at 1. rewrite H. destruct r0; try discriminate. reflexivity. }
  assert (N : none_matches bs i -> oors (List.map (fun x => obs x i) bs) = OFail false).
  { clear. induction 1 as [|b bs H _ IH]; auto. simpl. apply obs_fail in H. rewrite H. exact IH. }
  assert (U : forall o, oors (List.map (fun x => obs x i) bs) = o -> o <> ONone -> obs b i <> ONone).
  { intros o Ho Hn. assert (K : none_matches bs i \/ exists r i', chosen bs i r i').
    { clear -Ho Hn. revert o Ho Hn. induction bs as [|b bs IH]; intros o Ho Hn; [left; constructor|]. simpl in Ho.
      destruct (b i) as [[r j]| |] eqn:Hb.
      - destruct (backtracks r) eqn:Hr.
        + destruct r; try discriminate. assert (Hob : obs b i = OFail false) by (unfold obs; rewrite Hb; reflexivity). rewrite Hob in Ho. simpl in Ho.
          destruct (IH o Ho Hn) as [K|[r [i' K]]].
          * left. constructor; auto. apply obs_fail. auto.
          * right. exists r, i'. eapply chosen_later; eauto.
        + right. exists r, j. apply chosen_here; auto.
      - unfold obs in Ho at 1. rewrite Hb in Ho. simpl in Ho. congruence.
      - unfold obs in Ho at 1. rewrite Hb in Ho. simpl in Ho. congruence. }
    destruct K as [K|[r [i' K]]].
    - apply H2 in K. apply obs_fail in K. congruence.
    - apply H1 in K. unfold obs. rewrite K. destruct r; discriminate. }
  destruct (b i) as [[r i']| |] eqn:Hb.
  - destruct (H3 _ _ _ Hb) as [K|K].
    + rewrite (D _ _ K). unfold obs. rewrite Hb. reflexivity.
    + rewrite (N K). apply obs_fail. auto.
  - assert (Ho : obs b i = ONone) by (unfold obs; rewrite Hb; reflexivity).
    destruct (oors (List.map (fun x => obs x i) bs)) eqn:E; auto; exfalso; refine (U _ eq_refl _ Ho); discriminate.
  - assert (Ho : obs b i = ONone) by (unfold obs; rewrite Hb; reflexivity).
    destruct (oors (List.map (fun x => obs x i) bs)) eqn:E; auto; exfalso; refine (U _ eq_refl _ Ho); discriminate.
Qed.
Lemma oor_fail {A} (o : ob A) : oor o (OFail false) = o.
Proof. destruct o as [| [] |]; reflexivity. Qed.
Lemma obs_or {S1 S2 A} (p : parser C S1 A) (q : parser C S2 A) i : obs (fresh (or_ p q)) i = oor (obs (fresh p) i) (obs (fresh q) i).
Proof. rewrite (chosen_obs _ _ (or_ordered p q)). simpl. rewrite oor_fail. reflexivity. Qed.
Lemma obs_choice {SS A} (t : alts (C:=C) A SS) i : obs (fresh (choice t)) i = oors (List.map (fun x => obs x i) (alts_beh t)).
Proof. apply chosen_obs. apply choice_ordered. Qed.
Lemma obs_optional {S A} (p : parser C S A) i : obs (fresh (optional p)) i = oor (omapo Some (obs (fresh p) i)) (OOk false None i).
Proof.
  destruct (optional_spec p i) as [H1 [H2 [H3 [H4 H5]]]]. apply obs_eq.
  - intros c o i'. split.
    + intros H. destruct (H4 _ _ _ H) as [[a [-> K]]|[-> [-> [-> K]]]].
      * apply obs_ok in K. rewrite K. reflexivity.
      * apply obs_fail in K. rewrite K. reflexivity.
    + destruct (obs (fresh p) i) as [c1 a j|[]|] eqn:O; simpl; try discriminate; intros H; inversion H; subst.
      * apply H1. apply obs_ok. auto.
      * apply H2. apply obs_fail. auto.
  - intros c. split.
    + intros [e H]. destruct (H5 _ _ H) as [-> K]. assert (F : fails (fresh p) i true) by (exists e; auto). apply obs_fail in F. rewrite F. reflexivity.
    + destruct (obs (fresh p) i) as [c1 a j|[]|] eqn:O; simpl; try discriminate; intros H; inversion H; subst.
      apply obs_fail in O. destruct O as [e O]. exists e. auto.
Qed.
Lemma fwd_lib {S A} (p : parser C S A) : lib p -> forward p.
Proof. intros H. apply fwd_run. apply lib_fwd. exact H. Qed.
Lemma obs_attempt {S A} (p : parser C S A) i : lib p -> ipart i = false ->
  obs (fresh (attempt p)) i = match obs (fresh p) i with OFail _ => OFail false | o => o end.
Proof.
  intros H Hi. apply obs_eq.
  - intros c a i'. rewrite (attempt_succeeds p (ag_c _ (lib_agree _ _ _ H))), obs_ok. destruct (obs (fresh p) i); split; auto; discriminate.
  - intros c. rewrite (attempt_fails_complete p (ag_c _ (lib_agree _ _ _ H)) (fwd_lib p H) i c Hi). split.
    + intros [-> [c0 K]]. apply obs_fail in K. rewrite K. reflexivity.
    + destruct (obs (fresh p) i) as [|c0|] eqn:O; try discriminate. intros K; inversion K; split; auto. exists c0. apply obs_fail. auto.
Qed.
Lemma obs_look {S A} (p : parser C S A) i : lib p -> obs (fresh (look_ahead p)) i = match obs (fresh p) i with OOk _ a _ => OOk false a i | o => o end.
Proof.
  intros H. destruct (look_ahead_spec p (ag_l _ (lib_agree _ _ _ H))) as [H1 [H2 _]]. apply obs_eq.
  - intros c a i'. rewrite H1. split.
    + intros [-> [-> [c0 [i0 K]]]]. apply obs_ok in K. rewrite K. reflexivity.
    + destruct (obs (fresh p) i) as [c0 a0 i0|c0|] eqn:O; try discriminate. intros K; inversion K; subst. repeat split; auto. exists c0, i0. apply obs_ok. auto.
  - intros c. transitivity (fails (fresh p) i c); [split; intros [e K]; exists e; apply H2; exact K|].
    rewrite obs_fail. destruct (obs (fresh p) i); split; auto; discriminate.
Qed.
Lemma obs_nfb {S A} (p : parser C S A) i :
  obs (fresh (not_followed_by p)) i = match obs (fresh p) i with OOk _ _ _ => OFail false | OFail _ => OOk false tt i | ONone => ONone end.
Proof.
  destruct (not_followed_by_spec p) as [H1 [H2 _]]. apply obs_eq.
  - intros c [] i'. rewrite H1. split.
    + intros [-> [-> [c0 K]]]. apply obs_fail in K. rewrite K. reflexivity.
    + destruct (obs (fresh p) i) as [c0 a0 i0|c0|] eqn:O; try discriminate. intros K; inversion K; subst. repeat split; auto. exists c0. apply obs_fail. auto.
  - intros c. rewrite H2. split.
    + intros [-> [c0 [a [i0 K]]]]. apply obs_ok in K. rewrite K. reflexivity.
    + destruct (obs (fresh p) i) as [c0 a0 i0|c0|] eqn:O; try discriminate. intros K; inversion K; subst. split; auto. exists c0, a0, i0. apply obs_ok. auto.
Qed.
Lemma obs_fits {S A} (p : parser C S A) i c a i' : lib p -> fits i -> obs (fresh p) i = OOk c a i' -> fits i'.
Proof.
  intros H [H1 H2] O. apply obs_ok in O. unfold succeeds in O. apply fresh_run in O. destruct O as [st O].
  destruct (fwd_lib p H _ _ _ _ _ _ O) as [l [K1 [K2 K3]]]. split; [congruence|]. rewrite K1, app_length in H2. lia.
Qed.
End EqProofs.
