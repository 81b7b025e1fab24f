(** All library parsers agree with themselves. *)
From Coq Require Import String List Bool Arith NArith Lia.
Import ListNotations.
From Verif Require Import Base Parser Token Combinator Sequence Choice Repeat RangeP ByteP Spec LibSpec CombProofs AgreeSpec.
Unset Implicit Arguments.

Section AgreeProofs.
Context {C : Cfg}.
Notation T := (tok C).
Notation E := (Err C).
Notation beh := (@Spec.beh C).

Record agree {S A} (p : parser C S A) : Prop := { ag_c : cmode_agrees p; ag_l : lazy_agrees p; ag_s : stream_agrees p }.

Lemma default_lazy_agrees {S A} (p : parser C S A) : p_lazy p = default_lazy (p_init p) (p_run p) -> lazy_agrees p.
Proof.
  intros H i. rewrite H. unfold fresh, default_lazy. destruct (p_run p true i (p_init p)) as [[[r i'] s]| |]; cbn; auto.
  destruct r; cbn; auto. destruct (ipart i) eqn:Hp; auto 8.
Qed.
Lemma same_lazy_agrees {S A} (p : parser C S A) : (forall i, p_lazy p i = fresh p i) -> lazy_agrees p.
Proof. intros H i. rewrite H. destruct (fresh p i) as [[r i']| |]; auto. Qed.

Lemma default_stream_agrees {S A} (p : parser C S A) : p_stream p = default_stream (p_init p) (p_run p) (p_adderr p) -> stream_agrees p.
Proof.
  intros H i. rewrite H. unfold fresh, default_stream. destruct (p_run p true i (p_init p)) as [[[r i'] s]| |]; cbn; auto.
  destruct r; cbn; repeat (split; auto); discriminate.
Qed.
Lemma lazy_stream_agrees {S A} (p : parser C S A) : lazy_agrees p -> p_stream p = p_lazy p -> stream_agrees p.
Proof.
  intros Hl H i. rewrite H. specialize (Hl i). destruct (fresh p i) as [[r i']| |], (p_lazy p i) as [[r2 i2]| |]; auto.
  destruct Hl as [-> Hi]. split; auto. split; auto. intros Ho. split; auto. destruct Hi as [Hi|[_ [_ [Hi _]]]]; auto. congruence.
Qed.

Lemma mk_mode_agree {S A} (init : S) run adderr addcexp count : agree (@mk_mode C S A init run adderr addcexp count).
Proof. split; [apply default_cmode_agrees|apply default_lazy_agrees|apply default_stream_agrees]; reflexivity. Qed.
Lemma mk_lazy_agree {A} lz adderr addcexp count : agree (@mk_lazy C A lz adderr addcexp count).
Proof.
  split; [apply default_cmode_agrees; reflexivity|apply same_lazy_agrees|apply default_stream_agrees; reflexivity].
  intros i. cbn. unfold fresh, mk_lazy, lazy_run. cbn. destruct (lz i) as [[r i']| |]; reflexivity.
Qed.
Lemma mk_both_agree {S A} (init : S) run lz adderr addcexp count :
  lazy_agrees (@mk_both C S A init run lz adderr addcexp count) -> agree (@mk_both C S A init run lz adderr addcexp count).
Proof. intros H. split; [apply default_cmode_agrees; reflexivity|auto|apply default_stream_agrees; reflexivity]. Qed.

Lemma lazy_agrees_map {S A S2 B} (p : parser C S A) (q : parser C S2 B) (f : A -> B) : lazy_agrees p ->
  (forall i, fresh q i = omap (fun x => (pr_map f (fst x), snd x)) (fresh p i)) ->
  (forall i, p_lazy q i = omap (fun x => (pr_map f (fst x), snd x)) (p_lazy p i)) -> lazy_agrees q.
Proof.
  intros H H1 H2 i. specialize (H i). rewrite H1, H2. destruct (fresh p i) as [[r i']| |], (p_lazy p i) as [[r2 i2]| |]; cbn in *; auto.
  destruct H as [-> [->|[Ha [-> [Hb Hc]]]]]; auto. split; auto. right. destruct r; auto.
Qed.

Lemma lib_agree : forall S A (p : parser C S A), lib p -> agree p.
Proof.
  apply (lib_mut (C:=C) (fun S A p => agree p) (fun SS B t => True) (fun A SS t => True) (fun S A l => True)); intros; auto;
    try apply mk_mode_agree; try apply mk_lazy_agree.
  - (* attempt *) assert (H1 : lazy_agrees (attempt p)) by (apply default_lazy_agrees; reflexivity).
    split; [apply run_cmode_agrees; reflexivity|auto|apply lazy_stream_agrees; auto].
  - (* ignore *) apply mk_both_agree. apply (lazy_agrees_map p _ (fun _ => tt)); [apply H0| |].
    + intros i. unfold fresh. cbn. destruct (p_run p true i (p_init p)) as [[[r i'] s]| |]; reflexivity.
    + intros i. reflexivity.
  - (* any_partial *) apply mk_both_agree. apply (lazy_agrees_map p _ (fun x => x)); [apply H0| |].
    + intros i. unfold fresh. cbn. destruct (p_run p true i (p_init p)) as [[[r i'] s]| |]; cbn; auto. destruct r; reflexivity.
    + intros i. cbn. destruct (p_lazy p i) as [[r i']| |]; cbn; auto. destruct r; reflexivity.
  - (* lazy *) split; [apply run_cmode_agrees; reflexivity| |].
    + intros i. apply (ag_l _ H0 i).
    + intros i. apply (ag_s _ H0 i).
  - (* opaque *) split; [apply default_cmode_agrees; reflexivity| |].
    + intros i. apply (ag_l _ H0 i).
    + intros i. apply (ag_s _ H0 i).
  - (* left *) apply mk_both_agree. apply (lazy_agrees_map p _ (fun x => x)); [apply H0| |].
    + intros i. unfold fresh. cbn. destruct (p_run p true i (p_init p)) as [[[r i'] s]| |]; cbn; auto. destruct r; reflexivity.
    + intros i. cbn. destruct (p_lazy p i) as [[r i']| |]; cbn; auto. destruct r; reflexivity.
  - (* right *) apply mk_both_agree. apply (lazy_agrees_map p _ (fun x => x)); [apply H0| |].
    + intros i. unfold fresh. cbn. destruct (p_run p true i (p_init p)) as [[[r i'] s]| |]; cbn; auto. destruct r; reflexivity.
    + intros i. cbn. destruct (p_lazy p i) as [[r i']| |]; cbn; auto. destruct r; reflexivity.
  - (* with *) apply mk_both_agree. apply (lazy_agrees_map (pair2 (ignore p) q) _ snd).
    + apply mk_mode_agree.
    + intros i. unfold fresh. cbn. destruct (tuple_run _ true i _) as [[[r i'] s]| |]; reflexivity.
    + intros i. reflexivity.
Qed.

(** ** Using the agreement *)
Lemma lazy_succeeds {S A} (p : parser C S A) : lazy_agrees p -> forall i c a i', succeeds (p_lazy p) i c a i' <-> succeeds (fresh p) i c a i'.
Proof.
  intros H i c a i'. specialize (H i). unfold succeeds. destruct (fresh p i) as [[r j]| |], (p_lazy p i) as [[r2 j2]| |]; try tauto; try (split; discriminate).
  destruct H as [-> [->|[_ [_ [Ho _]]]]]; [tauto|]. split; intros K; inversion K; subst; destruct c; discriminate.
Qed.
Lemma lazy_fails_with {S A} (p : parser C S A) : lazy_agrees p -> forall i c e, fails_with (p_lazy p : beh A) i c e <-> fails_with (fresh p) i c e.
Proof.
  intros H i c e. specialize (H i). unfold fails_with. destruct (fresh p i) as [[r j]| |], (p_lazy p i) as [[r2 j2]| |]; try tauto;
    try (split; intros [? [? [? _]]]; discriminate).
  destruct H as [-> _]. split; intros [r0 [i0 [K1 K2]]]; inversion K1; subst; eexists _, _; split; eauto.
Qed.
Lemma lazy_fails {S A} (p : parser C S A) : lazy_agrees p -> forall i c, fails (p_lazy p : beh A) i c <-> fails (fresh p) i c.
Proof. intros H i c. unfold fails. split; intros [e K]; exists e; apply (lazy_fails_with p H); auto. Qed.
End AgreeProofs.
