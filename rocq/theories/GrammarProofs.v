(** Proofs about the meanings of grammars; no parsers here. *)
From Coq Require Import String List Bool Arith NArith Lia.
Import ListNotations.
From Verif Require Import Base Parser GrammarSpec.
Unset Implicit Arguments.

Section Ev.
Context {C : Cfg}.
Notation T := (tok C).
Notation tree := (tree C).
Notation gram := (gram C).
Variable G : nat -> gram.
Notation ev := (ev G).
Notation peg := (peg G).

Definition left_of (r : option (tree * list T)) (l : list T) : Prop := match r with Some (_, l1) => exists w, l = w ++ l1 | None => True end.
Lemma ev_suffix g l c r : ev g l c r -> left_of r l.
Proof.
  induction 1; cbn in *; auto; try (destruct x; auto; fail).
  - exists [t]. reflexivity.
  - exists []. reflexivity.
  - destruct IHev1 as [v ->], IHev2 as [w ->]. exists (v ++ w). apply app_assoc.
  - exists []. reflexivity.
  - destruct IHev1 as [v ->], IHev2 as [w ->]. exists (v ++ w). apply app_assoc.
  - exists []. reflexivity.
  - exists []. reflexivity.
Qed.
(** A success that consumed something has committed. *)
Lemma ev_commit g l c r : ev g l c r -> match r with Some (_, l1) => c = false -> l1 = l | None => True end.
Proof.
  induction 1; cbn in *; auto; try discriminate; try (destruct x; auto; fail).
  - intros Hc. apply orb_false_iff in Hc. destruct Hc. rewrite IHev2, IHev1; auto.
  - intros Hc. apply orb_false_iff in Hc. destruct Hc. rewrite IHev2, IHev1; auto.
Qed.
Lemma ev_det g l c r : ev g l c r -> forall c' r', ev g l c' r' -> c = c' /\ r = r'.
Proof.
  induction 1; intros c' r' K; inversion K; subst; clear K; try congruence; auto.
  all: repeat match goal with
    | IH : forall c' r', ev ?g ?l c' r' -> _, H : ev ?g ?l _ _ |- _ =>
        let E1 := fresh in let E2 := fresh in destruct (IH _ _ H) as [E1 E2]; clear H; try discriminate; subst; try (injection E2 as; subst)
    end; try congruence; auto.
Qed.
(** A repetition that ends has only items that consume. *)
Lemma ev_many_consumes a l c r : ev (GMany a) l c r -> forall c1 x, ~ ev a l c1 (Some (x, l)).
Proof.
  intros H. remember (GMany a) as g eqn:E. induction H; try discriminate; injection E as ->; intros c' x' K.
  - destruct (ev_det _ _ _ _ H _ _ K). discriminate.
  - destruct (ev_det _ _ _ _ H _ _ K). discriminate.
  - destruct (ev_det _ _ _ _ H _ _ K) as [_ E2]. injection E2 as -> ->. eapply IHev2; eauto.
  - destruct (ev_det _ _ _ _ H _ _ K) as [_ E2]. injection E2 as -> ->. eapply IHev2; eauto.
Qed.
Lemma ev_shorter g l c x l1 : ev g l c (Some (x, l1)) -> l1 <> l -> length l1 < length l.
Proof.
  intros H Hn. apply ev_suffix in H. cbn in H. destruct H as [[|t w] ->]; [exfalso; apply Hn; reflexivity|]. cbn. rewrite app_length. lia.
Qed.
(** * PEG *)
Lemma peg_det g l r : peg g l r -> forall r', peg g l r' -> r = r'.
Proof.
  induction 1; intros r' K; inversion K; subst; clear K; try congruence; auto.
  all: repeat match goal with
    | IH : forall r', peg ?g ?l r' -> _, H : peg ?g ?l _ |- _ =>
        let E1 := fresh in pose proof (IH _ H) as E1; clear H; try discriminate; try (injection E1 as; subst); try subst
    end; try congruence; auto.
Qed.
Section Gentle.
Variable gr : nat -> bool.
Hypothesis Rules : forall n, attempted gr (G n) = true /\ (gr n = true -> gentle gr (G n) = true).
Lemma ev_gentle g l c r : ev g l c r -> r = None -> attempted gr g = true -> gentle gr g = true -> c = false.
Proof.
  induction 1; cbn [attempted gentle]; intros E HA HG; try discriminate; auto; rewrite ?andb_true_iff in *; try tauto.
  destruct (Rules n) as [R1 R2]. auto.
Qed.
Lemma ev_peg g l c r : ev g l c r -> attempted gr g = true -> peg g l r.
Proof.
  induction 1; cbn [attempted]; intros HA; rewrite ?andb_true_iff in *.
  - apply peg_tok; auto.
  - apply peg_tok_no; auto.
  - apply peg_tok_end.
  - apply peg_eps.
  - apply (peg_seq (l1:=l1)); tauto.
  - apply peg_seq_first; tauto.
  - apply (peg_seq_second (x:=x) (l1:=l1)); tauto.
  - apply peg_alt_first; tauto.
  - destruct HA as [[H1 H2] H3]. pose proof (ev_gentle _ _ _ _ H eq_refl H2 H1). discriminate.
  - apply peg_alt_second; tauto.
  - apply peg_many_stop; tauto.
  - destruct HA as [H1 H2]. pose proof (ev_gentle _ _ _ _ H eq_refl H2 H1). discriminate.
  - cbn [attempted] in IHev2. rewrite andb_true_iff in IHev2. apply (peg_many_more (l1:=l1)); tauto.
  - destruct HA as [H1 H2]. pose proof (ev_gentle _ _ _ _ (ev_many_fails H H0) eq_refl ltac:(cbn; rewrite H1, H2; auto) H1). discriminate.
  - apply peg_try; tauto.
  - apply peg_try; tauto.
  - apply peg_not; tauto.
  - apply (peg_not_no (x:=x)); tauto.
  - apply (peg_look (l1:=l1)); tauto.
  - apply peg_look_no; tauto.
  - apply peg_call. apply IHev. apply Rules.
Qed.
Lemma peg_ev g l r : peg g l r -> attempted gr g = true -> exists c, ev g l c r.
Proof.
  induction 1; cbn [attempted]; intros HA; rewrite ?andb_true_iff in *.
  - eexists. apply ev_tok; auto.
  - eexists. apply ev_tok_no; auto.
  - eexists. apply ev_tok_end.
  - eexists. apply ev_eps.
  - destruct IHpeg1 as [c1 K1]; [tauto|]. destruct IHpeg2 as [c2 K2]; [tauto|]. eexists. eapply ev_seq; eauto.
  - destruct IHpeg as [c1 K1]; [tauto|]. eexists. eapply ev_seq_first; eauto.
  - destruct IHpeg1 as [c1 K1]; [tauto|]. destruct IHpeg2 as [c2 K2]; [tauto|]. eexists. eapply ev_seq_second; eauto.
  - destruct IHpeg as [c1 K1]; [tauto|]. eexists. eapply ev_alt_first; eauto.
  - destruct IHpeg1 as [c1 K1]; [tauto|]. destruct IHpeg2 as [c2 K2]; [tauto|].
    assert (c1 = false) by (eapply ev_gentle; [exact K1|reflexivity|tauto|tauto]). subst. eexists. eapply ev_alt_second; eauto.
  - destruct IHpeg as [c1 K1]; [tauto|]. assert (c1 = false) by (eapply ev_gentle; [exact K1|reflexivity|tauto|tauto]). subst. eexists. eapply ev_many_stop; eauto.
  - cbn [attempted] in IHpeg2. rewrite andb_true_iff in IHpeg2. destruct IHpeg1 as [c1 K1]; [tauto|]. destruct IHpeg2 as [c2 K2]; [tauto|]. eexists. eapply ev_many_more; eauto.
  - destruct IHpeg as [c1 K1]; [tauto|]. destruct r as [x|]; eexists; [eapply ev_try|eapply ev_try_no]; eauto.
  - destruct IHpeg as [c1 K1]; [tauto|]. eexists. eapply ev_not; eauto.
  - destruct IHpeg as [c1 K1]; [tauto|]. eexists. eapply ev_not_no; eauto.
  - destruct IHpeg as [c1 K1]; [tauto|]. eexists. eapply ev_look; eauto.
  - destruct IHpeg as [c1 K1]; [tauto|]. eexists. eapply ev_look_no; eauto.
  - destruct IHpeg as [c1 K1]; [apply Rules|]. eexists. eapply ev_call; eauto.
Qed.
End Gentle.
End Ev.
