(** The concrete streams satisfy the laws of the error specifications; their positions tell consumption apart; the minimal
    error types; conversions between error types. *)
From Coq Require Import String List Bool Arith NArith Lia.
Import ListNotations.
From Verif Require Import Base Errors Instances Parser Combinator Spec AgreeSpec ErrSpec ErrProofs.
Unset Implicit Arguments.

Lemma nat_cmp_laws : (forall p q, Nat.compare p q = Eq <-> p = q) /\ (forall p q, Nat.compare q p = CompOpp (Nat.compare p q)) /\
  (forall p q r, Nat.compare p q = Lt -> Nat.compare q r = Lt -> Nat.compare p r = Lt).
Proof.
  split; [exact Nat.compare_eq_iff|]. split; [intros; apply Nat.compare_antisym|].
  intros p q r H1 H2. apply Nat.compare_lt_iff in H1, H2. apply Nat.compare_lt_iff. lia.
Qed.
Lemma bytes_tok_laws : tok_laws bytes_tok.
Proof. destruct nat_cmp_laws as [H1 [H2 H3]]. split; cbn; auto. exact N.eqb_eq. Qed.
Lemma str_tok_laws : tok_laws str_tok.
Proof. destruct nat_cmp_laws as [H1 [H2 H3]]. split; cbn; auto. exact N.eqb_eq. Qed.
Lemma src_tok_laws : tok_laws src_tok.
Proof.
  destruct nat_cmp_laws as [H1 [H2 H3]]. split; cbn; unfold source_cmp.
  - exact N.eqb_eq.
  - intros [l c] [l2 c2]. cbn. destruct (Nat.compare l l2) eqn:E.
    + apply H1 in E. rewrite H1. split; congruence.
    + split; [discriminate|intros K; inversion K; subst; rewrite Nat.compare_refl in E; discriminate].
    + split; [discriminate|intros K; inversion K; subst; rewrite Nat.compare_refl in E; discriminate].
  - intros [l c] [l2 c2]. cbn. rewrite (H2 l l2). destruct (Nat.compare l l2); cbn; auto.
  - intros [l c] [l2 c2] [l3 c3]. cbn. intros K1 K2.
    destruct (Nat.compare l l2) eqn:E1; destruct (Nat.compare l2 l3) eqn:E2; try discriminate.
    + apply H1 in E1, E2. subst. rewrite Nat.compare_refl. eapply H3; eauto.
    + apply H1 in E1. subst. rewrite E2. auto.
    + apply H1 in E2. subst. rewrite E1. auto.
    + rewrite (H3 _ _ _ E1 E2). auto.
Qed.

(** Positions grow. *)
Lemma grows_distinct {C : Cfg} (lt : Pos C -> Pos C -> Prop) : (forall p t, lt p (pos_step C p t)) -> (forall p q r, lt p q -> lt q r -> lt p r) -> (forall p, ~ lt p p) ->
  pos_distinct C.
Proof.
  intros H1 H2 H3.
  assert (Ha : forall l t p, lt p (pos_after p (t :: l))).
  { induction l as [|u l IH]; intros t p; [apply H1|]. eapply H2; [apply H1|]. apply (IH u (pos_step C p t)). }
  intros p [|t l] Hp; auto. exfalso. apply (H3 p). rewrite <- Hp at 2. apply Ha.
Qed.

Definition src_lt (p q : source_pos) : Prop := fst p < fst q \/ (fst p = fst q /\ snd p < snd q).
Lemma src_grows : (forall p t, src_lt p (source_step p t)) /\ (forall p q r, src_lt p q -> src_lt q r -> src_lt p r) /\ (forall p, ~ src_lt p p).
Proof.
  unfold src_lt, source_step. split; [intros p t; destruct (t =? 10)%N; cbn; lia|]. split; [intros; lia|intros; lia].
Qed.
Lemma utf8_len_ge c : 1 <= utf8_len c.
Proof. unfold utf8_len. repeat match goal with |- context [if ?b then _ else _] => destruct b end; lia. Qed.

Lemma distinct_bytes fl d : pos_distinct (cfg_easy bytes_tok fl d) /\ pos_distinct (cfg_unexpected bytes_tok fl d).
Proof. split; apply grows_distinct with (lt := lt); cbn; intros; lia. Qed.
Lemma distinct_str fl d : pos_distinct (cfg_easy str_tok fl d) /\ pos_distinct (cfg_string str_tok fl d).
Proof. split; apply grows_distinct with (lt := lt); cbn; intros; try lia; pose proof (utf8_len_ge t); lia. Qed.
Lemma distinct_src fl d : pos_distinct (cfg_easy src_tok fl d) /\ pos_distinct (cfg_string src_tok fl d).
Proof. destruct src_grows as [H1 [H2 H3]]. split; apply grows_distinct with (lt := src_lt); auto. Qed.

(** ** The minimal error types *)
Lemma u_fold_eoi l : forall a, fold_left u_add l a = UEoi <-> a = UEoi \/ In UEoi l.
Proof.
  induction l as [|e l IH]; intros a; cbn; [tauto|]. rewrite IH. destruct a, e; cbn; intuition (try discriminate; auto).
Qed.
Lemma s_fold_eoi l : forall a, fold_left s_add l a = SEoi <-> a = SEoi \/ In SEoi l.
Proof.
  induction l as [|e l IH]; intros a; cbn; [tauto|]. rewrite IH. destruct a, e; cbn; intuition (try discriminate; auto).
Qed.
Lemma last_cons {X} (l : list X) : forall e a, last (e :: l) a = last l e.
Proof. induction l as [|x l IH]; intros e a; auto. change (last (x :: l) a = last (x :: l) e). rewrite !IH. auto. Qed.
(** What a [StringStreamError] is after adding errors: end of input if one was, otherwise the last. *)
Lemma s_fold_last l a : fold_left s_add l a = if existsb s_is_eoi (a :: l) then SEoi else last l a.
Proof.
  revert a. induction l as [|e l IH]; intros a; [destruct a; reflexivity|]. cbn [fold_left]. rewrite IH, last_cons.
  destruct a; cbn [s_add existsb s_is_eoi orb]; reflexivity.
Qed.
