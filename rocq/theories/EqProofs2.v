(** Soundness of the laws of [EqSpec.v]: each rule, and the induction. *)
From Coq Require Import String List Bool Arith NArith Lia.
Import ListNotations.
From Verif Require Import Base Parser Token Combinator Sequence Choice Repeat Spec LibSpec TidySpec RepeatSpec ChoiceSpec AgreeSpec.
From Verif Require Import CombProofs CombProofs2 ChoiceProofs ForwardProofs AgreeProofs Properties1 Properties3 EqSpec EqProofs.
Unset Implicit Arguments.

Section EqProofs2.
Context {C : Cfg}.
Notation beh := (@beh C).
Arguments OOk {C A}. Arguments OFail {C A}. Arguments ONone {C A}.

Lemma same_refl {A} (b : beh A) : same b b.
Proof. intros i _. split; intros; tauto. Qed.

(** Behaviours that agree on inputs that fit, and stay there. *)
Definition keeps {A} (b : beh A) : Prop := forall i c a i', fits i -> succeeds b i c a i' -> fits i'.
Lemma keeps_lib {S A} (p : parser C S A) : lib p -> keeps (fresh p).
Proof. intros H i c a i' Hi K. eapply obs_fits; eauto. apply obs_ok. eauto. Qed.

Lemma reps_keeps {A} (ok : input C -> bool -> A -> input C -> Prop) : (forall i c a i', fits i -> ok i c a i' -> fits i') ->
  forall i c l i', reps ok i c l i' -> fits i -> fits i'.
Proof. intros H i c l i' K. induction K; eauto. Qed.
Lemma reps_same {A} (ok ok2 : input C -> bool -> A -> input C -> Prop) : (forall i c a i', fits i -> ok i c a i' -> fits i') ->
  (forall i, fits i -> forall c a i', ok i c a i' <-> ok2 i c a i') ->
  forall i, fits i -> forall c l i', reps ok i c l i' <-> reps ok2 i c l i'.
Proof.
  intros Hk He i Hi c l i'. split; intros K.
  - induction K as [|i c a i1 c' l i' H _ IH]; [constructor|]. econstructor; [apply (He i Hi); eauto|]. apply IH. eauto.
  - induction K as [|i c a i1 c' l i' H _ IH]; [constructor|]. assert (H2 : ok i c a i1) by (apply (He i Hi); auto). econstructor; eauto.
Qed.

Lemma many_same {S1 S2 A} (p : parser C S1 A) (q : parser C S2 A) : history_free false p -> history_free false q -> keeps (fresh p) ->
  same (fresh p) (fresh q) -> same (fresh (many p)) (fresh (many q)).
Proof.
  intros Hp Hq Hk Hs i Hi.
  assert (R : forall j, fits j -> forall c l j', reps (succeeds (fresh p)) j c l j' <-> reps (succeeds (fresh q)) j c l j').
  { apply reps_same; [exact Hk|]. intros j Hj. apply (Hs j Hj). }
  split.
  - intros c l i'. rewrite (C11_many_succeeds _ _ _ p Hp), (C11_many_succeeds _ _ _ q Hq), (R i Hi). split; intros [K1 [K2 K3]]; (split; [auto|split; auto]).
    + assert (F : fits i') by (eapply reps_keeps; [exact Hk|apply R; eauto|auto]). apply (Hs i' F). auto.
    + assert (F : fits i') by (eapply reps_keeps; [exact Hk|apply R; eauto|auto]). apply (Hs i' F). auto.
  - intros c. split; intros [e K].
    + apply (C11_many_fails _ _ _ p Hp) in K. destruct K as [-> [c' [l [i' [K1 [K2 K3]]]]]].
      assert (F : fits i') by (eapply reps_keeps; [exact Hk|eauto|auto]).
      assert (K4 : fails (fresh q) i' true) by (apply (Hs i' F); exists e; auto). destruct K4 as [e2 K4].
      exists e2. apply (C11_many_fails _ _ _ q Hq). split; auto. exists c', l, i'. split; [apply R; auto|split; auto].
    + apply (C11_many_fails _ _ _ q Hq) in K. destruct K as [-> [c' [l [i' [K1 [K2 K3]]]]]]. apply (R i Hi) in K1.
      assert (F : fits i') by (eapply reps_keeps; [exact Hk|eauto|auto]).
      assert (K4 : fails (fresh p) i' true) by (apply (Hs i' F); exists e; auto). destruct K4 as [e2 K4].
      exists e2. apply (C11_many_fails _ _ _ p Hp). split; auto. exists c', l, i'. split; [auto|split; auto].
Qed.

Lemma many1_obs {S A} (p : parser C S A) i : history_free false p ->
  (forall c l i', succeeds (fresh (many1 p)) i c l i' <->
    exists c1 a i1 c2 l', succeeds (fresh p) i c1 a i1 /\ succeeds (fresh (many p)) i1 c2 l' i' /\ l = a :: l' /\ c = c1 || c2) /\
  (forall c, fails (fresh (many1 p)) i c <->
    fails (fresh p) i c \/ exists c1 a i1, succeeds (fresh p) i c1 a i1 /\ fails (fresh (many p)) i1 true /\ c = true).
Proof.
  intros Hp. split.
  - intros c l i'. rewrite (C11_many1_succeeds _ _ _ p Hp). split.
    + intros [N [R [K L]]]. inversion R; subst; [congruence|]. exists c0, a, i1, c', l0. split; auto. split; auto.
      apply (C11_many_succeeds _ _ _ p Hp). split; auto.
    + intros [c1 [a [i1 [c2 [l' [K1 [K2 [-> ->]]]]]]]]. apply (C11_many_succeeds _ _ _ p Hp) in K2. destruct K2 as [R [K L]].
      split; [discriminate|]. split; [econstructor; eauto|]. split; auto.
  - intros c. split.
    + intros [e K]. apply (C11_many1_fails _ _ _ p Hp) in K. destruct K as [K|[-> [c' [l [i' [N [R [K L]]]]]]]]; [left; exists e; auto|].
      inversion R; subst; [congruence|]. right. exists c, a, i1. split; auto. split; auto. exists e. apply (C11_many_fails _ _ _ p Hp).
      split; auto. exists c'0, l0, i'. split; auto.
    + intros [[e K]|[c1 [a [i1 [K1 [[e K2] ->]]]]]]; [exists e; apply (C11_many1_fails _ _ _ p Hp); auto|].
      apply (C11_many_fails _ _ _ p Hp) in K2. destruct K2 as [_ [c' [l [i' [R [K L]]]]]]. exists e. apply (C11_many1_fails _ _ _ p Hp). right.
      split; auto. exists (c1 || c'), (a :: l), i'. split; [discriminate|]. split; [econstructor; eauto|]. split; auto.
Qed.
Lemma many_fails_committed {S A} (p : parser C S A) i c : history_free false p -> fails (fresh (many p)) i c -> c = true.
Proof. intros Hp [e K]. apply (C11_many_fails _ _ _ p Hp) in K. tauto. Qed.

Lemma eq_many1_sound {S A} (p : parser C S A) : history_free false p ->
  same (fresh (many1 p)) (fresh (map (pair2 p (many p)) (fun x => fst x :: snd x))).
Proof.
  intros Hp. apply same_obs. intros i Hi. destruct (many1_obs p i Hp) as [M1 M2]. apply obs_eq.
  - intros c l i'. rewrite M1, obs_map, obs_pair. split.
    + intros [c1 [a [i1 [c2 [l' [K1 [K2 [-> ->]]]]]]]]. apply obs_ok in K1. apply obs_ok in K2. rewrite K1. simpl. rewrite K2. reflexivity.
    + destruct (obs (fresh p) i) as [c1 a i1|c1|] eqn:O1; simpl; try discriminate.
      destruct (obs (fresh (many p)) i1) as [c2 l' j|c2|] eqn:O2; simpl; try discriminate. intros H; inversion H; subst.
      exists c1, a, i1, c2, l'. rewrite !obs_ok. auto.
  - intros c. rewrite M2, obs_map, obs_pair. split.
    + intros [K|[c1 [a [i1 [K1 [K2 ->]]]]]]; [apply obs_fail in K; rewrite K; reflexivity|].
      apply obs_ok in K1. apply obs_fail in K2. rewrite K1. simpl. rewrite K2. simpl. rewrite orb_true_r. reflexivity.
    + destruct (obs (fresh p) i) as [c1 a i1|c1|] eqn:O1; simpl; try discriminate.
      * destruct (obs (fresh (many p)) i1) as [c2 l' j|c2|] eqn:O2; simpl; try discriminate. intros H; inversion H; subst.
        apply obs_fail in O2. assert (c2 = true) by (eapply many_fails_committed; eauto). subst. right. exists c1, a, i1. rewrite obs_ok, orb_true_r. auto.
      * intros H; inversion H; subst. left. apply obs_fail. auto.
Qed.
Lemma reps_short {A} (b : beh A) : productive b -> forall i c l i', reps (succeeds b) i c l i' -> length l + length (rest i') <= length (rest i).
Proof.
  intros H i c l i' R. induction R as [i|i c a i1 c' l i' K _ IH]; simpl; [lia|].
  assert (shorter i1 i) by (apply (H i _ i1 K); destruct c; reflexivity). unfold shorter in *. lia.
Qed.
Lemma eq_many_sound {S A} (p : parser C S A) : history_free false p -> productive (fresh p) ->
  same (fresh (many p)) (fresh (or_ (many1 p) (value []))).
Proof.
  intros Hp Hd. apply same_obs. intros i [_ Hf]. rewrite obs_or, obs_value.
  destruct (obs (fresh (many1 p)) i) as [c l j|c|] eqn:O.
  - simpl. apply obs_ok in O. apply obs_ok. apply (C11_many1_succeeds _ _ _ p Hp) in O. destruct O as [N [R [K L]]].
    apply (C11_many_succeeds _ _ _ p Hp). split; auto. split; auto. pose proof (reps_short _ Hd _ _ _ _ R). lia.
  - destruct c; simpl.
    + apply obs_fail in O. apply obs_fail. destruct O as [e O]. apply (C11_many1_fails _ _ _ p Hp) in O. exists e. apply (C11_many_fails _ _ _ p Hp).
      split; auto. destruct O as [O|[_ [c' [l [i' [N [R [K L]]]]]]]].
      * exists false, [], i. split; [constructor|]. split; [auto|simpl; lia].
      * exists c', l, i'. split; auto. split; auto. pose proof (reps_short _ Hd _ _ _ _ R). lia.
    + apply obs_fail in O. apply obs_ok. apply (many1_obs p i Hp) in O. apply (C11_many_succeeds _ _ _ p Hp). split; [constructor|].
      split; [|simpl; lia]. destruct O as [O|[c1 [a [i1 [_ [_ K]]]]]]; [auto|discriminate].
  - simpl. destruct (obs (fresh (many p)) i) as [c l j|c|] eqn:O2; auto; exfalso.
    + apply obs_ok in O2. apply (C11_many_succeeds _ _ _ p Hp) in O2. destruct O2 as [R [K L]]. destruct l as [|a l].
      * inversion R; subst. assert (F : fails (fresh (many1 p)) j false) by (apply (many1_obs p j Hp); auto). apply obs_fail in F. congruence.
      * assert (F : succeeds (fresh (many1 p)) i c (a :: l) j) by (apply (C11_many1_succeeds _ _ _ p Hp); split; [discriminate|split; auto; split; auto; lia]).
        apply obs_ok in F. congruence.
    + apply obs_fail in O2. destruct O2 as [e O2]. apply (C11_many_fails _ _ _ p Hp) in O2. destruct O2 as [-> [c' [l [i' [R [K L]]]]]].
      assert (F : fails (fresh (many1 p)) i true).
      { exists e. apply (C11_many1_fails _ _ _ p Hp). destruct l as [|a l]; [inversion R; subst; auto|]. right. split; auto. exists c', (a :: l), i'.
        split; [discriminate|]. split; auto. split; auto. lia. }
      apply obs_fail in F. congruence.
Qed.
Lemma eq_skip_many_sound {S A} (p : parser C S A) : history_free false p -> same (fresh (skip_many p)) (fresh (ignore (many p))).
Proof.
  intros Hp. apply same_obs. intros i _. rewrite obs_ignore. apply obs_eq.
  - intros c [] i'. rewrite (C11_skip_many_succeeds _ _ _ p Hp). split.
    + intros [l K]. apply obs_ok in K. rewrite K. reflexivity.
    + destruct (obs (fresh (many p)) i) as [c1 a i1|c1|] eqn:O1; simpl; try discriminate. intros H; inversion H; subst. exists a. apply obs_ok. auto.
  - intros c. transitivity (fails (fresh (many p)) i c); [split; intros [e K]; exists e; apply (C11_skip_many_fails _ _ _ p Hp); auto|].
    rewrite obs_fail. destruct (obs (fresh (many p)) i); simpl; split; intros H; congruence.
Qed.

(** ** Lists and chains *)
Lemma reps_iff {A} (ok ok2 : input C -> bool -> A -> input C -> Prop) : (forall i c a i', ok i c a i' <-> ok2 i c a i') ->
  forall i c l i', reps ok i c l i' <-> reps ok2 i c l i'.
Proof.
  intros H i c l i'. split; intros K; induction K as [|i c a i1 c' l i' K _ IH]; try (apply reps_nil); (eapply reps_cons; [|exact IH]); apply H; exact K.
Qed.
Lemma eq_sep_by1_sound {S1 S2 A B} (p : parser C S1 A) (s : parser C S2 B) : history_free false p -> history_free false s ->
  history_free false (with_ s p) -> same (fresh (sep_by1 p s)) (fresh (map (pair2 p (many (with_ s p))) (fun x => fst x :: snd x))).
Proof.
  intros Hp Hs Hw. apply same_obs. intros i _.
  assert (W : forall j c a j', succeeds (fresh (with_ s p)) j c a j' <-> pair_ok (fresh s) (fresh p) j c a j').
  { intros j c a j'. destruct (with_runs s p) as [W _]. rewrite W. unfold pair_ok. split.
    - intros [c1 [x [i1 [c2 [y [K1 [K2 [-> ->]]]]]]]]. exists c1, x, i1, c2. auto.
    - intros [c1 [x [i1 [c2 [K1 [K2 ->]]]]]]. exists c1, x, i1, c2, a. auto. }
  assert (F : forall j c, fails (fresh (with_ s p)) j c <-> pair_fails (fresh s) (fresh p) j c).
  { intros j c. destruct (with_runs s p) as [_ F]. rewrite F. unfold pair_fails. tauto. }
  assert (M1 : forall j c l j', succeeds (fresh (many (with_ s p))) j c l j' <->
    reps (pair_ok (fresh s) (fresh p)) j c l j' /\ pair_fails (fresh s) (fresh p) j' false /\ length l < fuel C).
  { intros. rewrite (C11_many_succeeds _ _ _ _ Hw), F, (reps_iff _ _ W). tauto. }
  assert (M2 : forall j c, fails (fresh (many (with_ s p))) j c <->
    c = true /\ exists c' l j', reps (pair_ok (fresh s) (fresh p)) j c' l j' /\ pair_fails (fresh s) (fresh p) j' true /\ length l < fuel C).
  { intros j c. split.
    - intros [e K]. apply (C11_many_fails _ _ _ _ Hw) in K. destruct K as [-> [c' [l [j' [R [K L]]]]]]. split; auto. exists c', l, j'.
      split; [apply (reps_iff _ _ W); auto|]. split; auto. apply F. exists e. auto.
    - intros [-> [c' [l [j' [R [K L]]]]]]. apply F in K. destruct K as [e K]. exists e. apply (C11_many_fails _ _ _ _ Hw). split; auto. exists c', l, j'.
      split; [apply (reps_iff _ _ W); auto|auto]. }
  apply obs_eq.
  - intros c l i'. rewrite (C14_sep_by1_succeeds _ _ _ _ _ p s Hp Hs), obs_map, obs_pair. split.
    + intros [c1 [a [i1 [c2 [l' [K1 [K2 [K3 [K4 [-> ->]]]]]]]]]]. apply obs_ok in K1. rewrite K1. simpl.
      assert (K5 : succeeds (fresh (many (with_ s p))) i1 c2 l' i') by (apply M1; auto). apply obs_ok in K5. rewrite K5. reflexivity.
    + destruct (obs (fresh p) i) as [c1 a i1|c1|] eqn:O1; simpl; try discriminate.
      destruct (obs (fresh (many (with_ s p))) i1) as [c2 l' j|c2|] eqn:O2; simpl; try discriminate. intros H; inversion H; subst.
      apply obs_ok in O1. apply obs_ok in O2. apply M1 in O2. exists c1, a, i1, c2, l'. tauto.
  - intros c. rewrite (C14_sep_by1_fails _ _ _ _ _ p s Hp Hs), obs_map, obs_pair. split.
    + intros [K|[-> [c1 [a [i1 [c2 [l' [i' [K1 [K2 [K3 K4]]]]]]]]]]]; [apply obs_fail in K; rewrite K; reflexivity|].
      apply obs_ok in K1. rewrite K1. simpl. assert (K5 : fails (fresh (many (with_ s p))) i1 true) by (apply M2; split; auto; exists c2, l', i'; auto).
      apply obs_fail in K5. rewrite K5. simpl. rewrite orb_true_r. reflexivity.
    + destruct (obs (fresh p) i) as [c1 a i1|c1|] eqn:O1; simpl; try discriminate.
      * destruct (obs (fresh (many (with_ s p))) i1) as [c2 l' j|c2|] eqn:O2; simpl; try discriminate. intros H; inversion H; subst.
        apply obs_ok in O1. apply obs_fail in O2. apply M2 in O2. destruct O2 as [-> [c' [l [j' [R [K L]]]]]]. right. rewrite orb_true_r. split; auto.
        exists c1, a, i1, c', l, j'. auto.
      * intros H; inversion H; subst. left. apply obs_fail. auto.
Qed.
Lemma eq_chainl1_sound {S1 S2 A} (p : parser C S1 A) (op : parser C S2 (A -> A -> A)) : history_free false p -> history_free false op ->
  history_free false (pair2 op p) -> starts_alike p ->
  same (fresh (chainl1 p op)) (fresh (map (pair2 p (many (pair2 op p))) (fun x => foldl_chain (fst x) (snd x)))).
Proof.
  intros Hp Hs Hw Ha. apply same_obs. intros i _.
  assert (W : forall j c a j', succeeds (fresh (pair2 op p)) j c a j' <-> pair_ok2 (fresh op) (fresh p) j c a j').
  { intros j c a j'. destruct (pair2_runs op p) as [W _]. rewrite W. unfold pair_ok2. split.
    - intros [c1 [x [i1 [c2 [y [K1 [K2 [-> ->]]]]]]]]. exists c1, i1, c2. auto.
    - intros [c1 [i1 [c2 [K1 [K2 ->]]]]]. exists c1, (fst a), i1, c2, (snd a). destruct a; auto. }
  assert (F : forall j c, fails (fresh (pair2 op p)) j c <-> pair_fails (fresh op) (fresh p) j c).
  { intros j c. destruct (pair2_runs op p) as [_ F]. rewrite F. unfold pair_fails. tauto. }
  assert (M1 : forall j c l j', succeeds (fresh (many (pair2 op p))) j c l j' <->
    reps (pair_ok2 (fresh op) (fresh p)) j c l j' /\ pair_fails (fresh op) (fresh p) j' false /\ length l < fuel C).
  { intros. rewrite (C11_many_succeeds _ _ _ _ Hw), F, (reps_iff _ _ W). tauto. }
  assert (M2 : forall j c, fails (fresh (many (pair2 op p))) j c <->
    c = true /\ exists c' l j', reps (pair_ok2 (fresh op) (fresh p)) j c' l j' /\ pair_fails (fresh op) (fresh p) j' true /\ length l < fuel C).
  { intros j c. split.
    - intros [e K]. apply (C11_many_fails _ _ _ _ Hw) in K. destruct K as [-> [c' [l [j' [R [K L]]]]]]. split; auto. exists c', l, j'.
      split; [apply (reps_iff _ _ W); auto|]. split; auto. apply F. exists e. auto.
    - intros [-> [c' [l [j' [R [K L]]]]]]. apply F in K. destruct K as [e K]. exists e. apply (C11_many_fails _ _ _ _ Hw). split; auto. exists c', l, j'.
      split; [apply (reps_iff _ _ W); auto|auto]. }
  apply obs_eq.
  - intros c v i'. rewrite (C16_chainl1_succeeds _ _ _ _ p op Hp Hs Ha), obs_map, obs_pair. split.
    + intros [c1 [a [i1 [c2 [l' [K1 [K2 [K3 [K4 [-> ->]]]]]]]]]]. apply obs_ok in K1. rewrite K1. simpl.
      assert (K5 : succeeds (fresh (many (pair2 op p))) i1 c2 l' i') by (apply M1; auto). apply obs_ok in K5. rewrite K5. reflexivity.
    + destruct (obs (fresh p) i) as [c1 a i1|c1|] eqn:O1; simpl; try discriminate.
      destruct (obs (fresh (many (pair2 op p))) i1) as [c2 l' j|c2|] eqn:O2; simpl; try discriminate. intros H; inversion H; subst.
      apply obs_ok in O1. apply obs_ok in O2. apply M1 in O2. exists c1, a, i1, c2, l'. tauto.
  - intros c. rewrite (C16_chainl1_fails _ _ _ _ p op Hp Hs Ha), obs_map, obs_pair. split.
    + intros [K|[-> [c1 [a [i1 [c2 [l' [i' [K1 [K2 [K3 K4]]]]]]]]]]]; [apply obs_fail in K; rewrite K; reflexivity|].
      apply obs_ok in K1. rewrite K1. simpl. assert (K5 : fails (fresh (many (pair2 op p))) i1 true) by (apply M2; split; auto; exists c2, l', i'; auto).
      apply obs_fail in K5. rewrite K5. simpl. rewrite orb_true_r. reflexivity.
    + destruct (obs (fresh p) i) as [c1 a i1|c1|] eqn:O1; simpl; try discriminate.
      * destruct (obs (fresh (many (pair2 op p))) i1) as [c2 l' j|c2|] eqn:O2; simpl; try discriminate. intros H; inversion H; subst.
        apply obs_ok in O1. apply obs_fail in O2. apply M2 in O2. destruct O2 as [-> [c' [l [j' [R [K L]]]]]]. right. rewrite orb_true_r. split; auto.
        exists c1, a, i1, c', l, j'. auto.
      * intros H; inversion H; subst. left. apply obs_fail. auto.
Qed.
Lemma or_value_obs {S A} (p : parser C S (list A)) (b : beh (list A)) (F : Prop) i :
  (forall c l i', succeeds b i c l i' <-> succeeds (fresh p) i c l i' \/ (c = false /\ l = [] /\ i' = i /\ F)) ->
  (forall c, fails b i c <-> c = true /\ fails (fresh p) i true) -> (fails (fresh p) i false <-> F) ->
  obs b i = obs (fresh (or_ p (value []))) i.
Proof.
  intros H1 H2 H3. rewrite obs_or, obs_value. apply obs_eq.
  - intros c l i'. rewrite H1. destruct (obs (fresh p) i) as [c0 a i0|[]|] eqn:O; simpl.
    + rewrite obs_ok, O. split; [intros [K|[_ [_ [_ K]]]]; [auto|apply H3 in K; apply obs_fail in K; congruence]|auto].
    + rewrite obs_ok, O. split; [intros [K|[_ [_ [_ K]]]]; [auto|apply H3 in K; apply obs_fail in K; congruence]|discriminate].
    + rewrite obs_ok, O. split; [intros [K|[-> [-> [-> K]]]]; [discriminate|reflexivity]|intros K; inversion K; subst; right; repeat split; auto; apply H3; apply obs_fail; auto].
    + rewrite obs_ok, O. split; [intros [K|[_ [_ [_ K]]]]; [auto|apply H3 in K; apply obs_fail in K; congruence]|discriminate].
  - intros c. rewrite H2. rewrite obs_fail. destruct (obs (fresh p) i) as [c0 a i0|[]|] eqn:O; simpl.
    + split; [intros [_ K]; discriminate|discriminate].
    + split; [intros [-> _]; reflexivity|intros K; inversion K; auto].
    + split; [intros [_ K]; discriminate|discriminate].
    + split; [intros [_ K]; discriminate|discriminate].
Qed.

Lemma sep_end_by1_same {S1 S2 S3 S4 A B} (p : parser C S1 A) (p' : parser C S2 A) (s : parser C S3 B) (s' : parser C S4 B) :
  history_free false p -> history_free false p' -> history_free false s -> history_free false s' -> keeps (fresh p) -> keeps (fresh s) ->
  same (fresh p) (fresh p') -> same (fresh s) (fresh s') -> same (fresh (sep_end_by1 p s)) (fresh (sep_end_by1 p' s')).
Proof.
  intros Hp Hp' Hs Hs' Kp Ks Ep Es.
  assert (W : forall j, fits j -> forall c a j', pair_ok (fresh s) (fresh p) j c a j' <-> pair_ok (fresh s') (fresh p') j c a j').
  { intros j Hj c a j'. unfold pair_ok. split; intros [c1 [x [i1 [c2 [K1 [K2 ->]]]]]]; exists c1, x, i1, c2.
    - split; [apply (Es j Hj); auto|]. split; auto. apply (Ep i1); eauto.
    - apply (Es j Hj) in K1. split; auto. split; auto. apply (Ep i1); eauto. }
  assert (Kw : forall j c a j', fits j -> pair_ok (fresh s) (fresh p) j c a j' -> fits j').
  { intros j c a j' Hj [c1 [x [i1 [c2 [K1 [K2 ->]]]]]]. eauto. }
  assert (R : forall j, fits j -> forall c l j', reps (pair_ok (fresh s) (fresh p)) j c l j' <-> reps (pair_ok (fresh s') (fresh p')) j c l j').
  { apply reps_same; auto. }
  intros i Hi. split.
  - intros c l i'. rewrite (C15_sep_end_by1_succeeds _ _ _ _ _ p s Hp Hs), (C15_sep_end_by1_succeeds _ _ _ _ _ p' s' Hp' Hs').
    split; intros [c1 [a [i1 [c2 [l' [ib [c3 [K1 [K2 [K3 K4]]]]]]]]]]; exists c1, a, i1, c2, l', ib, c3.
    + assert (F1 : fits i1) by eauto. assert (F2 : fits ib) by (eapply reps_keeps; eauto).
      split; [apply (Ep i Hi); auto|]. split; [apply (R i1 F1); auto|]. split; auto. destruct K3 as [[K3 K5]|[x [K3 K5]]].
      * left. split; auto. apply (Es ib F2); auto.
      * right. exists x. split; [apply (Es ib F2); auto|]. apply (Ep i'); eauto.
    + apply (Ep i Hi) in K1. assert (F1 : fits i1) by eauto. apply (R i1 F1) in K2. assert (F2 : fits ib) by (eapply reps_keeps; eauto).
      split; auto. split; auto. split; auto. destruct K3 as [[K3 K5]|[x [K3 K5]]].
      * left. split; auto. apply (Es ib F2); auto.
      * apply (Es ib F2) in K3. right. exists x. split; auto. apply (Ep i'); eauto.
  - intros c. rewrite (C15_sep_end_by1_fails _ _ _ _ _ p s Hp Hs), (C15_sep_end_by1_fails _ _ _ _ _ p' s' Hp' Hs').
    split; (intros [K|[-> [c1 [a [i1 [c2 [l' [ib [K1 [K2 [K3 K4]]]]]]]]]]]; [left; apply (Ep i Hi); auto|]); right; split; auto; exists c1, a, i1, c2, l', ib.
    + assert (F1 : fits i1) by eauto. assert (F2 : fits ib) by (eapply reps_keeps; eauto).
      split; [apply (Ep i Hi); auto|]. split; [apply (R i1 F1); auto|]. split; auto. destruct K3 as [K3|[c3 [x [i2 [K3 K5]]]]].
      * left. apply (Es ib F2); auto.
      * right. exists c3, x, i2. split; [apply (Es ib F2); auto|]. apply (Ep i2); eauto.
    + apply (Ep i Hi) in K1. assert (F1 : fits i1) by eauto. apply (R i1 F1) in K2. assert (F2 : fits ib) by (eapply reps_keeps; eauto).
      split; auto. split; auto. split; auto. destruct K3 as [K3|[c3 [x [i2 [K3 K5]]]]].
      * left. apply (Es ib F2); auto.
      * apply (Es ib F2) in K3. right. exists c3, x, i2. split; auto. apply (Ep i2); eauto.
Qed.
Lemma count_same {S1 S2 A} (p : parser C S1 A) (q : parser C S2 A) mn mx : mn <= mx -> history_free false p -> history_free false q -> keeps (fresh p) ->
  same (fresh p) (fresh q) -> same (fresh (count_min_max mn mx p)) (fresh (count_min_max mn mx q)).
Proof.
  intros Hm Hp Hq Hk Hs i Hi.
  assert (R : forall j, fits j -> forall c l j', reps (succeeds (fresh p)) j c l j' <-> reps (succeeds (fresh q)) j c l j').
  { apply reps_same; [exact Hk|]. intros j Hj. apply (Hs j Hj). }
  split.
  - intros c l i'. rewrite (C13_count_min_max_succeeds _ _ _ p Hp mn mx i c l i' Hm), (C13_count_min_max_succeeds _ _ _ q Hq mn mx i c l i' Hm), (R i Hi).
    split; intros [K1 [K2 K3]]; (split; [auto|split; auto]); (destruct K3 as [K3|K3]; [left; auto|right]);
      (assert (F : fits i') by (eapply reps_keeps; [exact Hk|apply R; eauto|auto])); apply (Hs i' F); auto.
  - intros c. rewrite (C13_count_min_max_fails _ _ _ p Hp mn mx i c Hm), (C13_count_min_max_fails _ _ _ q Hq mn mx i c Hm).
    split; intros [c' [l [i' [K1 K2]]]]; exists c', l, i'.
    + assert (F : fits i') by (eapply reps_keeps; [exact Hk|eauto|auto]). split; [apply R; auto|].
      destruct K2 as [[K2 [K3 K4]]|[K2 [K3 K4]]]; [left|right]; (split; [auto|split; auto]); apply (Hs i' F); auto.
    + apply (R i Hi) in K1. assert (F : fits i') by (eapply reps_keeps; [exact Hk|eauto|auto]). split; auto.
      destruct K2 as [[K2 [K3 K4]]|[K2 [K3 K4]]]; [left|right]; (split; [auto|split; auto]); apply (Hs i' F); auto.
Qed.

(** ** Binding *)
Lemma obind_ext {A B} (o : ob (C:=C) A) (k k2 : A -> input C -> ob (C:=C) B) : (forall c a j, o = OOk c a j -> k a j = k2 a j) -> obind o k = obind o k2.
Proof. intros H. destruct o as [c a j| |]; auto. simpl. rewrite (H c a j eq_refl). reflexivity. Qed.
Lemma obind_assoc {A B D} (o : ob (C:=C) A) (k : A -> input C -> ob (C:=C) B) (h : B -> input C -> ob (C:=C) D) :
  obind (obind o k) h = obind o (fun a j => obind (k a j) h).
Proof.
  destruct o as [c a j| |]; auto. simpl. destruct (k a j) as [c2 b j2| |]; auto. simpl. destruct (h b j2); simpl; auto; rewrite orb_assoc; reflexivity.
Qed.
Lemma obind_map {A B D} (o : ob (C:=C) A) (f : A -> B) (h : B -> input C -> ob (C:=C) D) : obind (omapo f o) h = obind o (fun a j => h (f a) j).
Proof. destruct o; reflexivity. Qed.
Lemma omapo_bind {A B D} (o : ob (C:=C) A) (k : A -> input C -> ob (C:=C) B) (f : B -> D) : omapo f (obind o k) = obind o (fun a j => omapo f (k a j)).
Proof. destruct o as [c a j| |]; auto. simpl. destruct (k a j); reflexivity. Qed.
Lemma omapo_omapo {A B D} (o : ob (C:=C) A) (f : A -> B) (g : B -> D) : omapo g (omapo f o) = omapo (fun a => g (f a)) o.
Proof. destruct o; reflexivity. Qed.
Lemma omapo_ext {A B} (o : ob (C:=C) A) (f g : A -> B) : (forall a, f a = g a) -> omapo f o = omapo g o.
Proof. intros H. destruct o; simpl; try rewrite H; reflexivity. Qed.
Lemma obind_ret {A B} (o : ob (C:=C) A) (f : A -> B) : obind o (fun a j => OOk false (f a) j) = omapo f o.
Proof. destruct o; simpl; try rewrite orb_false_r; reflexivity. Qed.
Lemma omapo_id {A} (o : ob (C:=C) A) f : (forall a, f a = a) -> omapo f o = o.
Proof. intros H. destruct o; simpl; try rewrite H; reflexivity. Qed.
Lemma oor_assoc {A} (o o2 o3 : ob (C:=C) A) : oor (oor o o2) o3 = oor o (oor o2 o3).
Proof. destruct o as [| [] |]; reflexivity. Qed.

Lemma obs_between {S1 S2 S3 A B D} (open : parser C S1 A) (close : parser C S2 B) (p : parser C S3 D) i :
  obs (fresh (between open close p)) i =
  obind (obs (fresh open) i) (fun _ j => obind (obs (fresh p) j) (fun d j2 => omapo (fun _ => d) (obs (fresh close) j2))).
Proof.
  destruct (C05_between open close p) as [H1 H2]. apply obs_eq.
  - intros c x i'. rewrite H1. split.
    + intros [c1 [a [i1 [c2 [i2 [c3 [b [K1 [K2 [K3 ->]]]]]]]]]]. apply obs_ok in K1. apply obs_ok in K2. apply obs_ok in K3. rewrite K1. simpl. rewrite K2. simpl.
      rewrite K3. simpl. rewrite orb_assoc. reflexivity.
    + destruct (obs (fresh open) i) as [c1 a i1| |] eqn:O1; simpl; try discriminate. destruct (obs (fresh p) i1) as [c2 d i2| |] eqn:O2; simpl; try discriminate.
      destruct (obs (fresh close) i2) as [c3 b i3| |] eqn:O3; simpl; try discriminate. intros K; inversion K; subst.
      exists c1, a, i1, c2, i2, c3, b. rewrite !obs_ok, orb_assoc. auto.
  - intros c. rewrite H2. split.
    + intros [K|[[c1 [a [i1 [c2 [K1 [K2 ->]]]]]]|[c1 [a [i1 [c2 [b [i2 [c3 [K1 [K2 [K3 ->]]]]]]]]]]]].
      * apply obs_fail in K. rewrite K. reflexivity.
      * apply obs_ok in K1. apply obs_fail in K2. rewrite K1. simpl. rewrite K2. reflexivity.
      * apply obs_ok in K1. apply obs_ok in K2. apply obs_fail in K3. rewrite K1. simpl. rewrite K2. simpl. rewrite K3. simpl. rewrite orb_assoc. reflexivity.
    + destruct (obs (fresh open) i) as [c1 a i1|c1|] eqn:O1; simpl; try discriminate.
      * destruct (obs (fresh p) i1) as [c2 d i2|c2|] eqn:O2; simpl; try discriminate.
        -- destruct (obs (fresh close) i2) as [c3 b i3|c3|] eqn:O3; simpl; try discriminate. intros K; inversion K; subst.
           right; right. exists c1, a, i1, c2, d, i2, c3. rewrite !obs_ok, obs_fail, orb_assoc. auto.
        -- intros K; inversion K; subst. right; left. exists c1, a, i1, c2. rewrite !obs_ok, obs_fail. auto.
      * intros K; inversion K; subst. left. apply obs_fail. auto.
Qed.

Lemma obs_same {A} (b : beh A) (b2 : beh A) i : (forall c a i', succeeds b i c a i' <-> succeeds b2 i c a i') -> (forall c, fails b i c <-> fails b2 i c) -> obs b i = obs b2 i.
Proof. intros H1 H2. apply obs_eq; intros; [rewrite H1; apply obs_ok|rewrite H2; apply obs_fail]. Qed.
Lemma obs_message {S A} (p : parser C S A) m i : obs (fresh (message p m)) i = obs (fresh p) i.
Proof. unfold obs, fresh. simpl. destruct (p_run p true i (p_init p)) as [[[r j] s]| |]; auto. destruct r; reflexivity. Qed.
Lemma obs_silent {S A} (p : parser C S A) i : obs (fresh (silent p)) i = obs (fresh p) i.
Proof. unfold obs, fresh. simpl. destruct (p_run p true i (p_init p)) as [[[r j] s]| |]; auto. destruct r; reflexivity. Qed.
Lemma obs_no_partial {S A} (p : parser C S A) i : lib p -> obs (fresh (no_partial p)) i = obs (fresh p) i.
Proof.
  intros H. transitivity (obs (p_lazy p : beh A) i).
  - unfold obs, fresh. simpl. destruct (p_lazy p i) as [[r j]| |]; reflexivity.
  - apply obs_same; [apply lazy_succeeds|apply lazy_fails]; apply (ag_l _ (lib_agree _ _ _ H)).
Qed.

Ltac os := repeat first [rewrite obs_map | rewrite obs_ignore | rewrite obs_with | rewrite obs_skip | rewrite obs_pair | rewrite obs_or | rewrite obs_value
  | rewrite obs_unexpected | rewrite obs_optional | rewrite obs_nfb].

Lemma eqn_sound S1 S2 A (p : parser C S1 A) (q : parser C S2 A) : eqn p q -> same (fresh p) (fresh q).
Proof.
  induction 1.
  - apply same_refl.
  - intros i Hi. destruct (IHeqn i Hi) as [K1 K2]. split; intros; symmetry; auto.
  - intros i Hi. destruct (IHeqn1 i Hi) as [K1 K2]. destruct (IHeqn2 i Hi) as [K3 K4]. split; intros; [rewrite K1; auto|rewrite K2; auto].
  - apply same_obs; intros i Hi; os. apply omapo_id; auto.
  - apply same_obs; intros i Hi; os. apply omapo_omapo.
  - apply same_obs; intros i Hi; os. reflexivity.
  - (* with_assoc *) apply same_obs; intros i Hi; os. rewrite obind_assoc. apply obind_ext. intros; os. reflexivity.
  - apply same_obs; intros i Hi; os. rewrite obind_assoc. apply obind_ext. intros; os. reflexivity.
  - apply same_obs; intros i Hi; os. rewrite obind_assoc. apply obind_ext. intros; os. rewrite obind_map, omapo_bind. reflexivity.
  - apply same_obs; intros i Hi; os. rewrite omapo_bind. apply obind_ext. intros. rewrite omapo_omapo. symmetry. apply omapo_id. reflexivity.
  - apply same_obs; intros i Hi; os. rewrite omapo_bind. apply obind_ext. intros. rewrite omapo_omapo. reflexivity.
  - (* pair_assoc *) apply same_obs; intros i Hi; os. rewrite omapo_bind, obind_assoc. apply obind_ext. intros; os. rewrite obind_map, omapo_bind.
    apply obind_ext. intros. rewrite !omapo_omapo. reflexivity.
  - apply same_obs; intros i Hi; os. simpl. destruct (obs (fresh p) i); reflexivity.
  - apply same_obs; intros i Hi; os. rewrite (obind_ext _ _ (fun a j => OOk false a j)) by reflexivity. rewrite obind_ret. apply omapo_id; auto.
  - (* between *) apply same_obs; intros i Hi. rewrite obs_between. os. rewrite obind_assoc. reflexivity.
  - (* then *) apply same_obs; intros i Hi. rewrite obs_then by auto. os. simpl. destruct (obs (fresh (f a)) i); reflexivity.
  - apply same_obs; intros i Hi. rewrite (obs_then _ tt) by (auto; intros; constructor). rewrite (obind_ext _ _ (fun a j => OOk false a j)) by reflexivity.
    rewrite obind_ret. apply omapo_id; auto.
  - apply same_obs; intros i Hi. rewrite obs_then by auto. rewrite obs_then by auto. rewrite obs_then; auto.
    + rewrite obind_assoc. apply obind_ext. intros. rewrite obs_then by auto. reflexivity.
    + intros. constructor; auto.
  - apply same_obs; intros i Hi. rewrite obs_then by auto. os. reflexivity.
  - apply same_obs; intros i Hi. rewrite (obs_then _ tt) by (auto; intros; constructor). os. rewrite (obind_ext _ _ (fun a j => OOk false (f a) j)) by reflexivity. apply obind_ret.
  - (* or *) apply same_obs; intros i Hi; os. apply oor_assoc.
  - apply same_obs; intros i Hi; os. destruct (obs (fresh p) i) as [| [] |]; reflexivity.
  - apply same_obs; intros i Hi; os. reflexivity.
  - apply same_obs; intros i Hi; os. reflexivity.
  - apply same_obs; intros i Hi; os. apply oor_fail.
  - apply same_obs; intros i Hi; os. rewrite obs_choice. simpl. apply oor_fail.
  - apply same_obs; intros i Hi; os. rewrite !obs_choice. reflexivity.
  - apply same_obs; intros i Hi; os. reflexivity.
  - apply same_obs; intros i Hi; os. destruct (obs (fresh p) i) as [| [] |]; reflexivity.
  - (* factor_right *) apply same_obs; intros i Hi; os. destruct (obs (fresh p) i) as [c a j|[]|] eqn:O; simpl; try reflexivity.
    destruct c; [|exfalso; apply obs_ok in O; exact (H _ _ _ O)]. destruct (obs (fresh r) j); reflexivity.
  - (* factor_left *) apply same_obs; intros i Hi; os. rewrite obs_attempt by (try apply Hi; constructor; auto). os.
    destruct (obs (fresh p) i) as [c a j|c|] eqn:O; simpl; try reflexivity.
    os. assert (Hj : fits j) by (eapply (obs_fits p); eauto). rewrite obs_attempt by (auto; apply Hj).
    destruct (obs (fresh q) j); reflexivity.
  - (* attempt *) apply same_obs; intros i Hi. rewrite obs_attempt by (auto; apply Hi). destruct (obs (fresh p) i) as [|[]|] eqn:O; try reflexivity.
    exfalso. apply obs_fail in O. exact (H0 _ O).
  - apply same_obs; intros i Hi. rewrite !obs_attempt by (auto; try apply Hi; constructor; auto). destruct (obs (fresh p) i); reflexivity.
  - apply same_obs; intros i Hi. rewrite obs_attempt by (auto; try apply Hi; constructor; auto). os. rewrite obs_attempt by (auto; apply Hi). destruct (obs (fresh p) i); reflexivity.
  - apply same_obs; intros i Hi. rewrite !obs_attempt by (try apply Hi; repeat constructor; auto). os. rewrite obs_attempt by (auto; apply Hi).
    destruct (obs (fresh p) i) as [c a j|c|] eqn:O; simpl; try reflexivity. assert (Hj : fits j) by (eapply (obs_fits p); eauto).
    rewrite obs_attempt by (auto; apply Hj). destruct (obs (fresh q) j); reflexivity.
  - apply same_obs; intros i Hi. rewrite !obs_look by (auto; constructor; auto). destruct (obs (fresh p) i); reflexivity.
  - apply same_obs; intros i Hi. os. rewrite obs_look by auto. destruct (obs (fresh p) i) eqn:O; simpl; try reflexivity. rewrite O. reflexivity.
  - apply same_obs; intros i Hi. rewrite obs_look by (constructor; auto). rewrite !obs_attempt by (try apply Hi; try constructor; auto). rewrite obs_look by auto. destruct (obs (fresh p) i); reflexivity.
  - apply same_obs; intros i Hi. os. rewrite obs_look by (constructor; auto). rewrite obs_attempt by (auto; apply Hi). destruct (obs (fresh p) i); reflexivity.
  - apply eq_many1_sound; auto.
  - apply eq_many_sound; auto.
  - apply eq_skip_many_sound; auto.
  - apply eq_sep_by1_sound; auto.
  - apply same_obs; intros i Hi. apply (or_value_obs (sep_by1 p s) _ (fails (fresh p) i false)).
    + apply (C14_sep_by_succeeds _ _ _ _ _ p s); auto.
    + apply (C14_sep_by_fails _ _ _ _ _ p s); auto.
    + rewrite (C14_sep_by1_fails _ _ _ _ _ p s) by auto. split; auto. intros [K|[K _]]; [auto|discriminate].
  - apply same_obs; intros i Hi. apply (or_value_obs (sep_end_by1 p s) _ (fails (fresh p) i false)).
    + apply (C15_sep_end_by_succeeds _ _ _ _ _ p s); auto.
    + apply (C15_sep_end_by_fails _ _ _ _ _ p s); auto.
    + rewrite (C15_sep_end_by1_fails _ _ _ _ _ p s) by auto. split; auto. intros [K|[K _]]; [auto|discriminate].
  - apply eq_chainl1_sound; auto.
  - apply same_refl.
  - apply same_obs; intros i Hi. apply obs_message.
  - apply same_obs; intros i Hi. apply obs_silent.
  - apply same_obs; intros i Hi. unfold obs. rewrite any_partial_fresh. reflexivity.
  - apply same_refl.
  - apply same_obs; intros i Hi. apply obs_no_partial; auto.
  - (* congruences *) apply same_obs; intros i Hi; os. rewrite (proj1 (same_obs _ _) IHeqn i Hi). apply omapo_ext; auto.
  - apply same_obs; intros i Hi; os. rewrite <- (proj1 (same_obs _ _) IHeqn1 i Hi). apply obind_ext. intros c a j O.
    apply (proj1 (same_obs _ _) IHeqn2). eapply (obs_fits p); eauto.
  - apply same_obs; intros i Hi; os. rewrite <- (proj1 (same_obs _ _) IHeqn1 i Hi). apply obind_ext. intros c a j O.
    rewrite (proj1 (same_obs _ _) IHeqn2); auto. eapply (obs_fits p); eauto.
  - apply same_obs; intros i Hi; os. rewrite <- (proj1 (same_obs _ _) IHeqn1 i Hi). apply obind_ext. intros c a j O.
    rewrite (proj1 (same_obs _ _) IHeqn2); auto. eapply (obs_fits p); eauto.
  - apply same_obs; intros i Hi. rewrite !obs_then by auto. rewrite <- (proj1 (same_obs _ _) IHeqn i Hi). apply obind_ext. intros c a j O.
    apply (proj1 (same_obs _ _) (H6 a)). eapply (obs_fits p); eauto.
  - apply same_obs; intros i Hi; os. rewrite (proj1 (same_obs _ _) IHeqn1 i Hi), (proj1 (same_obs _ _) IHeqn2 i Hi). reflexivity.
  - apply same_obs; intros i Hi. rewrite !obs_attempt by (auto; apply Hi). rewrite (proj1 (same_obs _ _) IHeqn i Hi). reflexivity.
  - apply same_obs; intros i Hi. rewrite !obs_look by auto. rewrite (proj1 (same_obs _ _) IHeqn i Hi). reflexivity.
  - apply same_obs; intros i Hi; os. rewrite (proj1 (same_obs _ _) IHeqn i Hi). reflexivity.
  - apply many_same; auto. apply keeps_lib; auto.
  - apply sep_end_by1_same; auto; apply keeps_lib; auto.
  - apply count_same; auto. apply keeps_lib; auto.
Qed.
End EqProofs2.
