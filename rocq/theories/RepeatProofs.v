(** Repetition: [many], [many1], [count_min_max], [sep_by*], [sep_end_by*] against [reps]. *)
From Coq Require Import String List Bool Arith NArith Lia.
Import ListNotations.
From Verif Require Import Base Parser Token Combinator Sequence Choice Repeat Spec SeqProofs CombProofs ChoiceSpec ChoiceProofs
  TidySpec TidyProofs RepeatSpec.
Unset Implicit Arguments.

Section RepeatProofs.
Context {C : Cfg}.
Notation T := (tok C).
Notation E := (Err C).
Notation beh := (@Spec.beh C).

Lemma fails_with_commit {A} (b : beh A) i e : fails_with b i true e <-> exists i', b i = Done (CommitErr e, i').
Proof.
  split.
  - intros [r [i' [H1 [H2 H3]]]]. destruct r; simpl in *; try discriminate. inversion H2; subst. eauto.
  - intros [i' H]. exists (CommitErr e), i'. auto.
Qed.
Lemma fails_peek {A} (b : beh A) i : fails b i false <-> exists t i', b i = Done (PeekErr t, i').
Proof.
  split.
  - intros [e [r [i' [H1 [H2 H3]]]]]. destruct r; simpl in *; try discriminate. eauto.
  - intros [t [i' H]]. exists (terr t), (PeekErr t), i'. auto.
Qed.
Lemma fails_commit {A} (b : beh A) i : fails b i true <-> exists e i', b i = Done (CommitErr e, i').
Proof.
  split.
  - intros [e H]. apply fails_with_commit in H. destruct H; eauto.
  - intros [e [i' H]]. exists e. apply fails_with_commit. eauto.
Qed.
Lemma succeeds_true {A} (b : beh A) i a i' : b i = Done (CommitOk a, i') <-> succeeds b i true a i'.
Proof. reflexivity. Qed.
Lemma succeeds_false {A} (b : beh A) i a i' : b i = Done (PeekOk a, i') <-> succeeds b i false a i'.
Proof. reflexivity. Qed.
Lemma succeeds_not_fails {A} (b : beh A) i c a i' c' : succeeds b i c a i' -> ~ fails b i c'.
Proof. intros H [e [r [j [H1 [H2 _]]]]]. unfold succeeds in H. rewrite H1 in H. inversion H; subst. rewrite okr_not_error in H2. discriminate. Qed.
Lemma fails_det {A} (b : beh A) i c c' : fails b i c -> fails b i c' -> c = c'.
Proof. intros [e [r [j [H1 [H2 H3]]]]] [e' [r' [j' [K1 [K2 K3]]]]]. rewrite K1 in H1. inversion H1; subst. auto. Qed.

(** Repetitions are determined by the start and what stops them. *)
Lemma reps_det {A} (ok : input C -> bool -> A -> input C -> Prop) (stop : input C -> Prop) :
  (forall i c a i1 c' a' i2, ok i c a i1 -> ok i c' a' i2 -> c = c' /\ a = a' /\ i1 = i2) ->
  (forall i c a i1, ok i c a i1 -> stop i -> False) ->
  forall i c l i' c2 l2 i2, reps ok i c l i' -> stop i' -> reps ok i c2 l2 i2 -> stop i2 -> c = c2 /\ l = l2 /\ i' = i2.
Proof.
  intros Hd Hs i c l i' c2 l2 i2 H. revert c2 l2 i2. induction H as [i|i c a i1 c' l i' Hok H IH]; intros c2 l2 i2 Hst H2 Hst2.
  - inversion H2; subst; auto. exfalso. eauto.
  - inversion H2; subst. { exfalso. eauto. }
    destruct (Hd _ _ _ _ _ _ _ Hok H0) as [-> [-> ->]]. destruct (IH _ _ _ Hst H1 Hst2) as [-> [-> ->]]. auto.
Qed.

Lemma reps_step {A} (ok : input C -> bool -> A -> input C -> Prop) i c a i1 c' l i' :
  ok i c a i1 -> reps ok i1 c' l i' -> reps ok i (c || c') (a :: l) i'.
Proof. intros. econstructor; eauto. Qed.
Lemma reps_mono {A} (ok ok' : input C -> bool -> A -> input C -> Prop) : (forall i c a i', ok i c a i' -> ok' i c a i') ->
  forall i c l i', reps ok i c l i' -> reps ok' i c l i'.
Proof. intros H i c l i' Hr. induction Hr; econstructor; eauto. Qed.

Lemma done_okr_inj {A} c c' (a a' : A) (i i' : input C) :
  Done (@okr A E c a, i) = Done (okr c' a', i') -> c = c' /\ a = a' /\ i = i'.
Proof. intros H. inversion H. apply okr_inj in H1. tauto. Qed.

Lemma omap_comp {X Y Z} (f : X -> Y) (g : Y -> Z) (h : X -> Z) o : (forall x, g (f x) = h x) -> omap g (omap f o) = omap h o.
Proof. intros H. destruct o; simpl; auto. rewrite H. auto. Qed.

Section Iter.
Context {S A : Type} (Clean : S -> Prop) (p : parser C S A) (Hi : Clean (p_init p)) (Hr : run_hyg false Clean (p_run p)).
Notation b := (fresh p).

Lemma step_fwd i st r i' st' : Clean st -> p_run p true i st = Done (r, i', st') ->
  b i = Done (r, i') /\ (not_commit_err r -> Clean st').
Proof.
  intros Hc H. pose proof (Hr i st (p_init p) Hc Hi) as Ha. rewrite H in Ha. unfold fresh.
  destruct (p_run p true i (p_init p)) as [[[r2 j2] s2]| |]; simpl in *; try contradiction. destruct Ha as [-> [-> Hx]].
  split; auto. intros Hn. apply Hx; auto.
Qed.
Lemma step_bwd i st r i' : Clean st -> b i = Done (r, i') ->
  exists st', p_run p true i st = Done (r, i', st') /\ (not_commit_err r -> Clean st').
Proof.
  intros Hc H. pose proof (Hr i st (p_init p) Hc Hi) as Ha. unfold fresh in H.
  destruct (p_run p true i (p_init p)) as [[[r2 j2] s2]| |]; simpl in *; try discriminate. inversion H; subst.
  destruct (p_run p true i st) as [[[r3 j3] s3]| |]; simpl in *; try contradiction. destruct Ha as [-> [-> Hx]].
  exists s3. split; auto. intros Hn. apply Hx; auto.
Qed.
Lemma step_other i st : Clean st -> (b i = Panic -> p_run p true i st = Panic) /\ (b i = OOF -> p_run p true i st = OOF).
Proof.
  intros Hc. pose proof (Hr i st (p_init p) Hc Hi) as Ha. unfold fresh.
  destruct (p_run p true i (p_init p)) as [[[r2 j2] s2]| |]; simpl in *; split; intros; try discriminate;
    destruct (p_run p true i st) as [[[r3 j3] s3]| |]; simpl in *; try contradiction; auto.
Qed.

Definition ended (is : @iter_state C) (ib j : input C) (st' : S) : Prop :=
  match is with
  | ISOk => False
  | ISPeek e => j = ib /\ fails_with b ib false e /\ Clean st'
  | ISCommit e => fails_with b ib true e
  end.

Lemma iter_all_fwd n : forall c0 i st l is c j st', Clean st -> iter_all n p true c0 i st = Done (l, is, c, j, st') ->
  exists c' ib, reps (succeeds b) i c' l ib /\ c = c0 || c' /\ length l < n /\ ended is ib j st'.
Proof.
  induction n as [|n IH]; intros c0 i st l is c j st' Hc H; simpl in H; [discriminate|].
  destruct (p_run p true i st) as [[[r i1] st1]| |] eqn:Hp; simpl in H; try discriminate.
  destruct (step_fwd _ _ _ _ _ Hc Hp) as [Hb Hc1]. destruct r as [a|a|e|t].
  - destruct (iter_all n p true true i1 st1) as [[[[[l1 is1] c1] j1] s1]| |] eqn:Hit; simpl in H; inversion H; subst.
    destruct (IH _ _ _ _ _ _ _ _ (Hc1 I) Hit) as [c' [ib [H1 [H2 [H3 H4]]]]]. exists (true || c'), ib. simpl.
    split; [apply (reps_step _ _ true a i1 c'); [exact Hb|exact H1]|]. split; [rewrite H2; destruct c0; reflexivity|]. split; [simpl; lia|auto].
  - destruct (iter_all n p true c0 i1 st1) as [[[[[l1 is1] c1] j1] s1]| |] eqn:Hit; simpl in H; inversion H; subst.
    destruct (IH _ _ _ _ _ _ _ _ (Hc1 I) Hit) as [c' [ib [H1 [H2 [H3 H4]]]]]. exists (false || c'), ib. simpl.
    split; [apply (reps_step _ _ false a i1 c'); [exact Hb|exact H1]|]. split; [rewrite H2; destruct c0; reflexivity|]. split; [simpl; lia|auto].
  - inversion H; subst. exists false, i. split; [constructor|]. split; [rewrite orb_false_r; auto|]. split; [simpl; lia|].
    simpl. apply fails_with_commit. eauto.
  - inversion H; subst. exists false, j. split; [constructor|]. split; [rewrite orb_false_r; auto|]. split; [simpl; lia|].
    simpl. split; [auto|]. split; [|apply Hc1; exact I]. exists (PeekErr t), i1. auto.
Qed.

Lemma iter_all_bwd : forall i c' l ib, reps (succeeds b) i c' l ib -> forall n c0 st, Clean st -> length l < n ->
  (forall e, fails_with b ib false e -> exists st', iter_all n p true c0 i st = Done (l, ISPeek e, c0 || c', ib, st') /\ Clean st') /\
  (forall e, fails_with b ib true e -> exists j st', iter_all n p true c0 i st = Done (l, ISCommit e, c0 || c', j, st')).
Proof.
  intros i c' l ib H. induction H as [i|i c a i1 c' l i' Hok H IH]; intros n c0 st Hc Hn.
  - destruct n as [|n]; [simpl in Hn; lia|]. split; intros e He; simpl.
    + destruct He as [r [i' [H1 [H2 H3]]]]. destruct (step_bwd _ _ _ _ Hc H1) as [st' [-> Hx]]. destruct r; simpl in *; try discriminate.
      inversion H2; subst. rewrite orb_false_r. exists st'. auto.
    + apply fails_with_commit in He. destruct He as [i' H1]. destruct (step_bwd _ _ _ _ Hc H1) as [st' [-> Hx]]. simpl.
      rewrite orb_false_r. eauto.
  - destruct n as [|n]; [simpl in Hn; lia|]. simpl in Hn. unfold succeeds in Hok. destruct (step_bwd _ _ _ _ Hc Hok) as [st1 [Hrun Hx]].
    assert (Hc1 : Clean st1) by (apply Hx; destruct c; exact I).
    destruct (IH n (c0 || c) st1 Hc1 ltac:(lia)) as [IH1 IH2]. split; intros e He; simpl; rewrite Hrun; simpl.
    + destruct (IH1 e He) as [st' [Hit Hcl]]. exists st'. split; auto. destruct c; simpl.
      * rewrite orb_true_r in Hit. simpl in *. rewrite Hit. simpl. rewrite orb_true_r. auto.
      * rewrite orb_false_r in Hit. rewrite Hit. simpl. auto.
    + destruct (IH2 e He) as [j [st' Hit]]. exists j, st'. destruct c; simpl.
      * rewrite orb_true_r in Hit. simpl in *. rewrite Hit. simpl. rewrite orb_true_r. auto.
      * rewrite orb_false_r in Hit. rewrite Hit. simpl. auto.
Qed.

Lemma iter_take_fwd n : forall c0 i st l is c j st', Clean st -> iter_take n p true c0 i st = Done (l, is, c, j, st') ->
  exists c' ib, reps (succeeds b) i c' l ib /\ c = c0 || c' /\
    match is with ISOk => length l = n /\ j = ib | ISPeek e => length l < n /\ j = ib /\ fails_with b ib false e | ISCommit e => length l < n /\ fails_with b ib true e end.
Proof.
  induction n as [|n IH]; intros c0 i st l is c j st' Hc H; simpl in H.
  { inversion H; subst. exists false, j. split; [constructor|]. rewrite orb_false_r. auto. }
  destruct (p_run p true i st) as [[[r i1] st1]| |] eqn:Hp; simpl in H; try discriminate.
  destruct (step_fwd _ _ _ _ _ Hc Hp) as [Hb Hc1]. destruct r as [a|a|e|t].
  - destruct (iter_take n p true true i1 st1) as [[[[[l1 is1] c1] j1] s1]| |] eqn:Hit; simpl in H; inversion H; subst.
    destruct (IH _ _ _ _ _ _ _ _ (Hc1 I) Hit) as [c' [ib [H1 [H2 H3]]]]. exists (true || c'), ib. simpl.
    split; [apply (reps_step _ _ true a i1 c'); [exact Hb|exact H1]|]. split; [rewrite H2; destruct c0; reflexivity|].
    destruct is; [destruct H3; split; auto|destruct H3; split; [lia|auto]|destruct H3; split; [lia|auto]].
  - destruct (iter_take n p true c0 i1 st1) as [[[[[l1 is1] c1] j1] s1]| |] eqn:Hit; simpl in H; inversion H; subst.
    destruct (IH _ _ _ _ _ _ _ _ (Hc1 I) Hit) as [c' [ib [H1 [H2 H3]]]]. exists (false || c'), ib. simpl.
    split; [apply (reps_step _ _ false a i1 c'); [exact Hb|exact H1]|]. split; [rewrite H2; destruct c0; reflexivity|].
    destruct is; [destruct H3; split; auto|destruct H3; split; [lia|auto]|destruct H3; split; [lia|auto]].
  - inversion H; subst. exists false, i. split; [constructor|]. split; [rewrite orb_false_r; auto|]. split; [simpl; lia|].
    apply fails_with_commit. eauto.
  - inversion H; subst. exists false, j. split; [constructor|]. split; [rewrite orb_false_r; auto|]. split; [simpl; lia|].
    split; [auto|]. exists (PeekErr t), i1. auto.
Qed.

Lemma iter_take_bwd : forall i c' l ib, reps (succeeds b) i c' l ib -> forall n c0 st, Clean st -> 
  (length l = n -> exists st', iter_take n p true c0 i st = Done (l, ISOk, c0 || c', ib, st')) /\
  (length l < n -> forall e, fails_with b ib false e -> exists st', iter_take n p true c0 i st = Done (l, ISPeek e, c0 || c', ib, st')) /\
  (length l < n -> forall e, fails_with b ib true e -> exists j st', iter_take n p true c0 i st = Done (l, ISCommit e, c0 || c', j, st')).
Proof.
  intros i c' l ib H. induction H as [i|i c a i1 c' l i' Hok H IH]; intros n c0 st Hc.
  - split; [|split].
    + intros <-. simpl. rewrite orb_false_r. eauto.
    + intros Hn e [r [i' [H1 [H2 H3]]]]. destruct n as [|n]; [simpl in Hn; lia|]. simpl.
      destruct (step_bwd _ _ _ _ Hc H1) as [st' [-> Hx]]. destruct r; simpl in *; try discriminate.
      inversion H2; subst. rewrite orb_false_r. eauto.
    + intros Hn e He. destruct n as [|n]; [simpl in Hn; lia|]. simpl.
      apply fails_with_commit in He. destruct He as [i' H1]. destruct (step_bwd _ _ _ _ Hc H1) as [st' [-> Hx]]. simpl.
      rewrite orb_false_r. eauto.
  - unfold succeeds in Hok. destruct (step_bwd _ _ _ _ Hc Hok) as [st1 [Hrun Hx]].
    assert (Hc1 : Clean st1) by (apply Hx; destruct c; exact I).
    destruct n as [|n]; [simpl; split; [discriminate|split; intros; lia]|].
    destruct (IH n (c0 || c) st1 Hc1) as [IH1 [IH2 IH3]]. simpl. rewrite Hrun. split; [|split]; simpl.
    + intros Hl. destruct (IH1 ltac:(lia)) as [st' Hit]. exists st'. destruct c; simpl.
      * rewrite orb_true_r in Hit. simpl in *. rewrite Hit. simpl. rewrite orb_true_r. auto.
      * rewrite orb_false_r in Hit. rewrite Hit. simpl. auto.
    + intros Hl e He. destruct (IH2 ltac:(lia) e He) as [st' Hit]. exists st'. destruct c; simpl.
      * rewrite orb_true_r in Hit. simpl in *. rewrite Hit. simpl. rewrite orb_true_r. auto.
      * rewrite orb_false_r in Hit. rewrite Hit. simpl. auto.
    + intros Hl e He. destruct (IH3 ltac:(lia) e He) as [j [st' Hit]]. exists j, st'. destruct c; simpl.
      * rewrite orb_true_r in Hit. simpl in *. rewrite Hit. simpl. rewrite orb_true_r. auto.
      * rewrite orb_false_r in Hit. rewrite Hit. simpl. auto.
Qed.

(** Endless repetition. *)
Lemma iter_all_oof : forall i c' l ib, reps (succeeds b) i c' l ib -> forall n c0 st, Clean st -> length l = n ->
  iter_all n p true c0 i st = OOF.
Proof.
  intros i c' l ib H. induction H as [i|i c a i1 c' l i' Hok H IH]; intros n c0 st Hc Hn; subst; simpl; auto.
  unfold succeeds in Hok. destruct (step_bwd _ _ _ _ Hc Hok) as [st1 [Hrun Hx]]. rewrite Hrun.
  assert (Hc1 : Clean st1) by (apply Hx; destruct c; exact I). destruct c; simpl; rewrite (IH _ _ st1 Hc1 eq_refl); auto.
Qed.

(** Progress bounds the number of turns. *)
Lemma iter_all_total n : productive b -> total b -> forall c0 i st, Clean st -> length (rest i) < n ->
  exists x, iter_all n p true c0 i st = Done x.
Proof.
  intros Hp Ht. induction n as [|n IH]; intros c0 i st Hc Hn; [lia|]. simpl.
  destruct (Ht i) as [[r i1] Hb]. destruct (step_bwd _ _ _ _ Hc Hb) as [st1 [Hrun Hx]]. rewrite Hrun. simpl. destruct r as [a|a|e|t].
  - specialize (Hp _ _ _ Hb eq_refl). unfold shorter in Hp. destruct (IH true i1 st1 (Hx I) ltac:(lia)) as [[[[[l is] c] j] s] ->]. simpl. eauto.
  - specialize (Hp _ _ _ Hb eq_refl). unfold shorter in Hp. destruct (IH c0 i1 st1 (Hx I) ltac:(lia)) as [[[[[l is] c] j] s] ->]. simpl. eauto.
  - eauto.
  - eauto.
Qed.
End Iter.

(** ** many *)
Section Many.
Context {S A : Type} (p : parser C S A) (H : history_free false p).
Notation b := (fresh p).
Let Hi : leftover false p (p_init p) := left_init false p.
Let Hr := history_free_run_hyg false p H.

Lemma fresh_many i : fresh (many p) i =
  omap (fun x => match x with (l, is, c, i', s) => (fst (into_result_fast l is c), i') end) (iter_all (fuel C) p true false i (p_init p)).
Proof.
  unfold fresh. simpl. unfold many_run. destruct (iter_all (fuel C) p true false i (p_init p)) as [[[[[l is] c] j] s]| |]; simpl; auto.
  destruct (into_result_fast l is c); auto.
Qed.

Lemma many_ok i c l i' : succeeds (fresh (many p)) i c l i' <-> reps (succeeds b) i c l i' /\ fails b i' false /\ length l < fuel C.
Proof.
  unfold succeeds at 1. rewrite fresh_many. split.
  - intros Hs. destruct (iter_all (fuel C) p true false i (p_init p)) as [[[[[l1 is] c1] j] s]| |] eqn:Hit; simpl in Hs; try discriminate.
    destruct (iter_all_fwd _ p Hi Hr _ _ _ _ _ _ _ _ _ Hi Hit) as [c' [ib [H1 [H2 [H3 H4]]]]]. simpl in H2. subst c1.
    destruct is as [|e|e]; simpl in *; try contradiction.
    + destruct H4 as [-> [Hf _]]. apply done_okr_inj in Hs. destruct Hs as [? [? ?]]. subst.
      split; auto. split; auto. eexists; eauto.
    + inversion Hs. destruct c; discriminate.
  - intros [H1 [[e H2] H3]]. destruct (iter_all_bwd _ p Hi Hr _ _ _ _ H1 (fuel C) false (p_init p) Hi H3) as [Hb _].
    destruct (Hb e H2) as [st' [-> _]]. simpl. destruct c; auto.
Qed.

Lemma many_fails i c e : fails_with (fresh (many p)) i c e <->
  c = true /\ exists c' l i', reps (succeeds b) i c' l i' /\ fails_with b i' true e /\ length l < fuel C.
Proof.
  split.
  - intros [r [j [Hs [He Hc]]]]. rewrite fresh_many in Hs.
    destruct (iter_all (fuel C) p true false i (p_init p)) as [[[[[l1 is] c1] j1] s]| |] eqn:Hit; simpl in Hs; try discriminate.
    destruct (iter_all_fwd _ p Hi Hr _ _ _ _ _ _ _ _ _ Hi Hit) as [c' [ib [H1 [H2 [H3 H4]]]]].
    destruct is as [|e1|e1]; simpl in *; try contradiction.
    + inversion Hs; subst. destruct c'; discriminate.
    + inversion Hs; subst. simpl in He. inversion He; subst. split; auto. eauto 10.
  - intros [-> [c' [l [i' [H1 [H2 H3]]]]]]. destruct (iter_all_bwd _ p Hi Hr _ _ _ _ H1 (fuel C) false (p_init p) Hi H3) as [_ Hb].
    destruct (Hb e H2) as [j [st' Hit]]. exists (CommitErr e), j. rewrite fresh_many, Hit. auto.
Qed.

Lemma many_total : productive b -> total b -> forall i, length (rest i) < fuel C -> exists x, fresh (many p) i = Done x.
Proof.
  intros Hp Ht i Hn. rewrite fresh_many. destruct (iter_all_total _ p Hi Hr (fuel C) Hp Ht false i (p_init p) Hi Hn) as [[[[[l is] c] j] s] ->].
  simpl. eauto.
Qed.

Lemma loop_reps i c a : succeeds b i c a i -> forall n, exists c', reps (succeeds b) i c' (repeat a n) i.
Proof.
  intros Hs. induction n as [|n [c' IH]]; simpl. { exists false. constructor. }
  eexists. econstructor; eauto.
Qed.
Lemma many_diverges i c a : succeeds b i c a i -> fresh (many p) i = OOF.
Proof.
  intros Hs. rewrite fresh_many. destruct (loop_reps i c a Hs (fuel C)) as [c' Hreps].
  rewrite (iter_all_oof _ p Hi Hr _ _ _ _ Hreps (fuel C) false (p_init p) Hi (repeat_length a (fuel C))). auto.
Qed.

(** ** many1 *)
Lemma fresh_many1 i : fresh (many1 p) i =
  obind (p_run p true i (p_init p)) (fun x => match x with (r, i', s) =>
    match r with
    | PeekErr e => Done (PeekErr e, i')
    | CommitErr e => Done (CommitErr e, i')
    | PeekOk a => omap (fun x => match x with (l, is, c, i', s) => (fst (into_result_fast (a :: l) is c), i') end) (iter_all (fuel C) p true false i' s)
    | CommitOk a => omap (fun x => match x with (l, is, c, i', s) => (fst (into_result_fast (a :: l) is c), i') end) (iter_all (fuel C) p true true i' s)
    end end).
Proof.
  unfold fresh. simpl. rewrite andb_false_r. destruct (p_run p true i (p_init p)) as [[[r j] s]| |]; simpl; auto.
  unfold many1_iter. destruct r; simpl; auto.
  - destruct (iter_all (fuel C) p true true j s) as [[[[[l is] c] j2] s2]| |]; simpl; auto. destruct (into_result_fast (a :: l) is c); auto.
  - destruct (iter_all (fuel C) p true false j s) as [[[[[l is] c] j2] s2]| |]; simpl; auto. destruct (into_result_fast (a :: l) is c); auto.
Qed.

Lemma many1_ok i c l i' : succeeds (fresh (many1 p)) i c l i' <->
  l <> [] /\ reps (succeeds b) i c l i' /\ fails b i' false /\ length l <= fuel C.
Proof.
  unfold succeeds at 1. rewrite fresh_many1. split.
  - intros Hs. destruct (p_run p true i (p_init p)) as [[[r i1] s1]| |] eqn:Hp; simpl in Hs; try discriminate.
    destruct (step_fwd _ p Hi Hr _ _ _ _ _ Hi Hp) as [Hb Hc]. 
    assert (Hk : forall a c1, b i = Done (okr c1 a, i1) -> leftover false p s1 ->
      omap (fun x => match x with (l, is, c, i', s) => (fst (into_result_fast (a :: l) is c), i') end) (iter_all (fuel C) p true c1 i1 s1) = Done (okr c l, i') ->
      l <> [] /\ reps (succeeds b) i c l i' /\ fails b i' false /\ length l <= fuel C).
    { intros a c1 Hb1 Hc1 Ho. destruct (iter_all (fuel C) p true c1 i1 s1) as [[[[[l1 is] c2] j] s]| |] eqn:Hit; simpl in Ho; try discriminate.
      destruct (iter_all_fwd _ p Hi Hr _ _ _ _ _ _ _ _ _ Hc1 Hit) as [c' [ib [H1 [H2 [H3 H4]]]]].
      destruct is as [|e|e]; simpl in *; try contradiction.
      - destruct H4 as [-> [Hf _]]. apply done_okr_inj in Ho. destruct Ho as [? [? ?]]. subst.
        split; [discriminate|]. split; [econstructor; eauto|]. split; [eexists; eauto|]. simpl. lia.
      - inversion Ho. destruct c; discriminate. }
    destruct r as [a|a|e|e]; simpl in Hs.
    + apply (Hk a true); auto. apply Hc. exact I.
    + apply (Hk a false); auto. apply Hc. exact I.
    + inversion Hs. destruct c; discriminate.
    + inversion Hs. destruct c; discriminate.
  - intros [Hn [H1 [[e H2] H3]]]. inversion H1; subst. { congruence. }
    unfold succeeds in H0. destruct (step_bwd _ p Hi Hr _ _ _ _ Hi H0) as [st1 [Hrun Hx]]. rewrite Hrun. simpl.
    assert (Hc1 : leftover false p st1) by (apply Hx; destruct c0; exact I). simpl in H3.
    destruct (iter_all_bwd _ p Hi Hr _ _ _ _ H4 (fuel C) c0 st1 Hc1 ltac:(lia)) as [Hb _].
    destruct (Hb e H2) as [st' [Hit _]]. destruct c0; simpl; rewrite Hit; simpl; auto; destruct c'; auto.
Qed.

Lemma many1_fails i c e : fails_with (fresh (many1 p)) i c e <->
  fails_with b i c e \/
  (c = true /\ exists c' l i', l <> [] /\ reps (succeeds b) i c' l i' /\ fails_with b i' true e /\ length l <= fuel C).
Proof.
  split.
  - intros [r0 [j [Hs [He Hc0]]]]. rewrite fresh_many1 in Hs.
    destruct (p_run p true i (p_init p)) as [[[r i1] s1]| |] eqn:Hp; simpl in Hs; try discriminate.
    destruct (step_fwd _ p Hi Hr _ _ _ _ _ Hi Hp) as [Hb Hc].
    assert (Hk : forall a c1, b i = Done (okr c1 a, i1) -> leftover false p s1 ->
      omap (fun x => match x with (l, is, c, i', s) => (fst (into_result_fast (a :: l) is c), i') end) (iter_all (fuel C) p true c1 i1 s1) = Done (r0, j) ->
      c = true /\ exists c' l i', l <> [] /\ reps (succeeds b) i c' l i' /\ fails_with b i' true e /\ length l <= fuel C).
    { intros a c1 Hb1 Hc1 Ho. destruct (iter_all (fuel C) p true c1 i1 s1) as [[[[[l1 is] c2] j2] s]| |] eqn:Hit; simpl in Ho; try discriminate.
      destruct (iter_all_fwd _ p Hi Hr _ _ _ _ _ _ _ _ _ Hc1 Hit) as [c' [ib [H1 [H2 [H3 H4]]]]].
      destruct is as [|e1|e1]; simpl in *; try contradiction.
      - inversion Ho; subst. destruct (c1 || c'); discriminate.
      - inversion Ho; subst. simpl in He. inversion He; subst. split; auto. exists (c1 || c'), (a :: l1), ib.
        split; [discriminate|]. split; [econstructor; eauto|]. split; auto. }
    destruct r as [a|a|e1|e1]; simpl in Hs.
    + right. apply (Hk a true); auto. apply Hc. exact I.
    + right. apply (Hk a false); auto. apply Hc. exact I.
    + left. inversion Hs; subst. exists (CommitErr e1), j. auto.
    + left. inversion Hs; subst. exists (PeekErr e1), j. auto.
  - intros [[r [j [Hs [He Hc]]]]|[-> [c' [l [i' [Hn [H1 [H2 H3]]]]]]]].
    + unfold fails_with. rewrite fresh_many1. apply fresh_run in Hs. destruct Hs as [st' ->]. simpl.
      destruct r as [a|a|e1|e1]; simpl in *; try discriminate; do 2 eexists; (split; [reflexivity|auto]).
    + inversion H1; subst. { congruence. }
      unfold succeeds in H0. destruct (step_bwd _ p Hi Hr _ _ _ _ Hi H0) as [st1 [Hrun Hx]].
      assert (Hc1 : leftover false p st1) by (apply Hx; destruct c; exact I). simpl in H3.
      destruct (iter_all_bwd _ p Hi Hr _ _ _ _ H4 (fuel C) c st1 Hc1 ltac:(lia)) as [_ Hb].
      destruct (Hb e H2) as [j [st' Hit]]. exists (CommitErr e), j. rewrite fresh_many1, Hrun. simpl.
      destruct c; simpl; rewrite Hit; auto.
Qed.

Lemma many1_total : productive b -> total b -> forall i, length (rest i) <= fuel C -> exists x, fresh (many1 p) i = Done x.
Proof.
  intros Hp Ht i Hn. pose proof Hp as Hp'. rewrite fresh_many1. destruct (Ht i) as [[r i1] Hb].
  destruct (step_bwd _ p Hi Hr _ _ _ _ Hi Hb) as [st1 [Hrun Hx]]. rewrite Hrun. simpl. destruct r as [a|a|e|e]; eauto.
  - specialize (Hp _ _ _ Hb eq_refl). unfold shorter in Hp.
    destruct (iter_all_total _ p Hi Hr (fuel C) Hp' Ht true i1 st1 (Hx I) ltac:(lia)) as [[[[[l is] c] j] s] ->]. simpl. eauto.
  - specialize (Hp _ _ _ Hb eq_refl). unfold shorter in Hp.
    destruct (iter_all_total _ p Hi Hr (fuel C) Hp' Ht false i1 st1 (Hx I) ltac:(lia)) as [[[[[l is] c] j] s] ->]. simpl. eauto.
Qed.

(** ** count_min_max *)
Lemma fresh_cmm mn mx i : mn <= mx -> fresh (count_min_max mn mx p) i =
  omap (fun x => match x with (l, is, c, i', s) =>
     (if length l <? mn then iter_fail is c i' (se_message C (IFormat ("expected " ++ nat_str (mn - length l) ++ " more elements")%string))
      else fst (into_result_fast l is c), i') end) (iter_take mx p true false i (p_init p)).
Proof.
  intros Hle. unfold fresh. simpl. unfold count_min_max_run. replace (mx <? mn) with false by (symmetry; apply Nat.ltb_ge; auto).
  rewrite Nat.sub_0_r. simpl. destruct (iter_take mx p true false i (p_init p)) as [[[[[l is] c] j] s]| |]; simpl; auto.
  destruct (length l <? mn); simpl; auto. destruct (into_result_fast l is c); auto.
Qed.

Lemma cmm_ok mn mx i c l i' : mn <= mx -> (succeeds (fresh (count_min_max mn mx p)) i c l i' <->
  reps (succeeds b) i c l i' /\ mn <= length l <= mx /\ (length l = mx \/ fails b i' false)).
Proof.
  intros Hle. unfold succeeds at 1. rewrite (fresh_cmm mn mx i Hle). split.
  - intros Hs. destruct (iter_take mx p true false i (p_init p)) as [[[[[l1 is] c1] j] s]| |] eqn:Hit; simpl in Hs; try discriminate.
    destruct (iter_take_fwd _ p Hi Hr _ _ _ _ _ _ _ _ _ Hi Hit) as [c' [ib [H1 [H2 H3]]]]. simpl in H2. subst c1.
    destruct (length l1 <? mn) eqn:Hlt.
    + inversion Hs. destruct is, c', c; discriminate.
    + apply Nat.ltb_ge in Hlt. destruct is as [|e|e]; simpl in *.
      * destruct H3 as [H3 ->]. apply done_okr_inj in Hs. destruct Hs as [? [? ?]]. subst.
        split; [auto|]. split; [lia|auto].
      * destruct H3 as [H3 [-> Hf]]. apply done_okr_inj in Hs. destruct Hs as [? [? ?]]. subst.
        split; auto. split; [lia|]. right. eexists; eauto.
      * inversion Hs. destruct c; discriminate.
  - intros [H1 [H2 H3]]. destruct (iter_take_bwd _ p Hi Hr _ _ _ _ H1 mx false (p_init p) Hi) as [Hb1 [Hb2 _]].
    assert (Hnb : length l <? mn = false) by (apply Nat.ltb_ge; lia).
    destruct (Nat.eq_dec (length l) mx) as [He|He].
    + destruct (Hb1 He) as [st' ->]. simpl. rewrite Hnb. destruct c; auto.
    + destruct H3 as [H3|[e H3]]; [lia|]. destruct (Hb2 ltac:(lia) e H3) as [st' ->]. simpl. rewrite Hnb. destruct c; auto.
Qed.

Lemma cmm_fails mn mx i c : mn <= mx -> (fails (fresh (count_min_max mn mx p)) i c <->
  exists c' l i', reps (succeeds b) i c' l i' /\
    ((length l < mx /\ fails b i' true /\ c = true) \/ (length l < mn /\ fails b i' false /\ c = c'))).
Proof.
  intros Hle. split.
  - intros [e [r [j [Hs [He Hc]]]]]. rewrite (fresh_cmm mn mx i Hle) in Hs.
    destruct (iter_take mx p true false i (p_init p)) as [[[[[l1 is] c1] j1] s]| |] eqn:Hit; simpl in Hs; try discriminate.
    destruct (iter_take_fwd _ p Hi Hr _ _ _ _ _ _ _ _ _ Hi Hit) as [c' [ib [H1 [H2 H3]]]]. simpl in H2. subst c1.
    exists c', l1, ib. split; auto.
    destruct (length l1 <? mn) eqn:Hlt.
    + apply Nat.ltb_lt in Hlt. destruct is as [|e1|e1]; simpl in *.
      * lia.
      * right. split; auto. split; [eexists; apply H3|]. inversion Hs; subst. destruct c'; reflexivity.
      * left. split; [lia|]. split; [eexists; apply H3|]. inversion Hs; subst. reflexivity.
    + destruct is as [|e1|e1]; simpl in *.
      * inversion Hs; subst. destruct c'; discriminate.
      * inversion Hs; subst. destruct c'; discriminate.
      * left. split; [lia|]. split; [eexists; apply H3|]. inversion Hs; subst. reflexivity.
  - intros [c' [l [i' [H1 H2]]]]. destruct (iter_take_bwd _ p Hi Hr _ _ _ _ H1 mx false (p_init p) Hi) as [Hb1 [Hb2 Hb3]].
    unfold fails, fails_with. rewrite (fresh_cmm mn mx i Hle).
    destruct H2 as [[H2 [[e H3] ->]]|[H2 [[e H3] ->]]].
    + destruct (Hb3 H2 e H3) as [j [st' ->]]. simpl. destruct (length l <? mn); simpl; do 3 eexists; (split; [reflexivity|split; reflexivity]).
    + destruct (Hb2 ltac:(lia) e H3) as [st' ->]. simpl. replace (length l <? mn) with true by (symmetry; apply Nat.ltb_lt; auto).
      destruct c'; simpl; do 3 eexists; (split; [reflexivity|split; reflexivity]).
Qed.
Lemma cmm_panics mn mx i : mx < mn -> fresh (count_min_max mn mx p) i = Panic.
Proof. intros H1. unfold fresh. simpl. unfold count_min_max_run. replace (mx <? mn) with true by (symmetry; apply Nat.ltb_lt; auto). auto. Qed.
End Many.

(** ** separators *)
Section Sep.
Context {S1 S2 A B : Type} (p : parser C S1 A) (sep : parser C S2 B).
Context (Hp : history_free false p) (Hs : history_free false sep).
Notation bp := (fresh p).
Notation bs := (fresh sep).
Let w := with_ (by_ref sep) (by_ref p).
Let Cw := pair_clean (A:=unit) (B:=A) (leftover false sep) (leftover false p).
Let Hw : hyg false Cw w :=
  hyg_with false _ _ (by_ref sep) (by_ref p) (history_free_by_ref false sep Hs) (history_free_by_ref false p Hp).

Let s0 (s : S1) : sep_state S1 S2 A := (((None, p_init sep), (None, s)), 0%N).

Lemma with_pair_ok i c a i' : succeeds (fresh w) i c a i' <-> pair_ok bs bp i c a i'.
Proof.
  destruct (with_runs (by_ref sep) (by_ref p)) as [H _]. unfold w. rewrite H. split.
  - intros [c1 [x [i1 [c2 [y [K1 [K2 [-> ->]]]]]]]]. exists c1, x, i1, c2. auto.
  - intros [c1 [x [i1 [c2 [K1 [K2 ->]]]]]]. exists c1, x, i1, c2, a. auto.
Qed.
Lemma with_pair_fails i c : fails (fresh w) i c <-> pair_fails bs bp i c.
Proof. destruct (with_runs (by_ref sep) (by_ref p)) as [_ H]. unfold w. rewrite H. unfold pair_fails. reflexivity. Qed.
Lemma with_reps i c l i' : reps (succeeds (fresh w)) i c l i' <-> reps (pair_ok bs bp) i c l i'.
Proof. split; apply reps_mono; intros; apply with_pair_ok; auto. Qed.

Lemma clean_s0 s : leftover false p s -> Cw (s0 s).
Proof. intros H. exact (conj (left_init false sep) H). Qed.

Lemma fresh_sep_by1 i : fresh (sep_by1 p sep) i =
  obind (p_run p true i (p_init p)) (fun x => match x with (r, i', s) =>
    match r with
    | PeekErr e => Done (PeekErr e, i')
    | CommitErr e => Done (CommitErr e, i')
    | PeekOk a => omap (fun x => match x with (l, is, c, i', s) => (fst (into_result_fast (a :: l) is c), i') end)
        (iter_all (fuel C) w true false i' (s0 s))
    | CommitOk a => omap (fun x => match x with (l, is, c, i', s) => (combine_commit (Commit tt) (fun _ => fst (into_result_fast (a :: l) is c)), i') end)
        (iter_all (fuel C) w true false i' (s0 s))
    end end).
Proof.
  unfold fresh, sep_by1, mk_mode, sep_by1_run. cbn [p_run p_init]. unfold sep_get. cbn [snd fst with_ mk_both p_init pair2 tuple mk_mode tup_init by_ref ignore].
  destruct (p_run p true i (p_init p)) as [[[r j] s]| |]; cbn [obind]; auto.
  unfold sep_by1_rest. fold w. destruct r; cbn [obind omap]; auto; apply omap_comp; intros [[[[l is] c] j2] s2];
    cbn [app]; destruct (into_result_fast (a :: l) is c); auto.
Qed.

Lemma sep_by1_ok i c l i' : succeeds (fresh (sep_by1 p sep)) i c l i' <->
  exists c1 a i1 c2 l', succeeds bp i c1 a i1 /\ reps (pair_ok bs bp) i1 c2 l' i' /\ pair_fails bs bp i' false /\
    length l' < fuel C /\ l = a :: l' /\ c = c1 || c2.
Proof.
  pose proof (left_init false p) as Hi. pose proof (history_free_run_hyg false p Hp) as Hr.
  unfold succeeds at 1. rewrite fresh_sep_by1. split.
  - intros Ho. destruct (p_run p true i (p_init p)) as [[[r i1] s1]| |] eqn:Hrun; simpl in Ho; try discriminate.
    destruct (step_fwd _ p Hi Hr _ _ _ _ _ Hi Hrun) as [Hb Hc].
    destruct r as [a|a|e|e]; simpl in Ho; try (inversion Ho; destruct c; discriminate).
    + specialize (Hc I). assert (Hcw : Cw (s0 s1)).
      { apply clean_s0. auto. }
      destruct (iter_all (fuel C) w true false i1 _) as [[[[[l1 is] c1] j] s]| |] eqn:Hit; simpl in Ho; try discriminate.
      destruct (iter_all_fwd _ w (h_init _ _ _ Hw) (h_run _ _ _ Hw) _ _ _ _ _ _ _ _ _ Hcw Hit) as [c' [ib [H1 [H2 [H3 H4]]]]]. simpl in H2. subst c1.
      apply with_reps in H1. destruct is as [|e|e]; simpl in *; try contradiction; [|inversion Ho; destruct c; discriminate].
      destruct H4 as [-> [Hf _]]. exists true, a, i1, c', l1. assert (Ho' : Done (@okr _ E true (a :: l1), ib) = Done (okr c l, i')) by (destruct c'; exact Ho).
      apply done_okr_inj in Ho'. destruct Ho' as [? [? ?]]. subst.
      assert (Hpf : pair_fails bs bp i' false) by (apply with_pair_fails; eexists; eauto). repeat split; auto.
    + specialize (Hc I). assert (Hcw : Cw (s0 s1)).
      { apply clean_s0. auto. }
      destruct (iter_all (fuel C) w true false i1 _) as [[[[[l1 is] c1] j] s]| |] eqn:Hit; simpl in Ho; try discriminate.
      destruct (iter_all_fwd _ w (h_init _ _ _ Hw) (h_run _ _ _ Hw) _ _ _ _ _ _ _ _ _ Hcw Hit) as [c' [ib [H1 [H2 [H3 H4]]]]]. simpl in H2. subst c1.
      apply with_reps in H1. destruct is as [|e|e]; simpl in *; try contradiction; [|inversion Ho; destruct c; discriminate].
      destruct H4 as [-> [Hf _]]. exists false, a, i1, c', l1. apply done_okr_inj in Ho. destruct Ho as [? [? ?]]. subst.
      assert (Hpf : pair_fails bs bp i' false) by (apply with_pair_fails; eexists; eauto). repeat split; auto.
  - intros [c1 [a [i1 [c2 [l' [H1 [H2 [H3 [H4 [-> ->]]]]]]]]]].
    destruct (step_bwd _ p Hi Hr _ _ _ _ Hi H1) as [st1 [Hrun Hx]]. rewrite Hrun. simpl.
    assert (Hc1 : leftover false p st1) by (apply Hx; destruct c1; exact I).
    assert (Hcw : Cw (s0 st1)). { apply clean_s0. auto. }
    apply with_pair_fails in H3. destruct H3 as [e H3]. apply with_reps in H2.
    destruct (iter_all_bwd _ w (h_init _ _ _ Hw) (h_run _ _ _ Hw) _ _ _ _ H2 (fuel C) false _ Hcw H4) as [Hb _].
    destruct (Hb e H3) as [st' [Hit _]]. destruct c1; simpl; rewrite Hit; simpl; destruct c2; auto.
Qed.

Lemma sep_by1_fails i c : fails (fresh (sep_by1 p sep)) i c <->
  fails bp i c \/
  (c = true /\ exists c1 a i1 c2 l' i', succeeds bp i c1 a i1 /\ reps (pair_ok bs bp) i1 c2 l' i' /\ pair_fails bs bp i' true /\ length l' < fuel C).
Proof.
  pose proof (left_init false p) as Hi. pose proof (history_free_run_hyg false p Hp) as Hr.
  unfold fails at 1, fails_with. split.
  - intros [e0 [r0 [j0 [Ho [He Hc0]]]]]. rewrite fresh_sep_by1 in Ho.
    destruct (p_run p true i (p_init p)) as [[[r i1] s1]| |] eqn:Hrun; simpl in Ho; try discriminate.
    destruct (step_fwd _ p Hi Hr _ _ _ _ _ Hi Hrun) as [Hb Hc].
    destruct r as [a|a|e|e]; simpl in Ho.
    + right. specialize (Hc I). assert (Hcw : Cw (s0 s1)).
      { apply clean_s0. auto. }
      destruct (iter_all (fuel C) w true false i1 _) as [[[[[l1 is] c1] j] s]| |] eqn:Hit; simpl in Ho; try discriminate.
      destruct (iter_all_fwd _ w (h_init _ _ _ Hw) (h_run _ _ _ Hw) _ _ _ _ _ _ _ _ _ Hcw Hit) as [c' [ib [H1 [H2 [H3 H4]]]]]. simpl in H2. subst c1.
      apply with_reps in H1. destruct is as [|e|e]; simpl in *; try contradiction.
      * inversion Ho; subst. destruct c'; discriminate.
      * inversion Ho; subst. split; auto. exists true, a, i1, c', l1, ib. assert (Hpf : pair_fails bs bp ib true) by (apply with_pair_fails; eexists; eauto). repeat split; auto.
    + right. specialize (Hc I). assert (Hcw : Cw (s0 s1)).
      { apply clean_s0. auto. }
      destruct (iter_all (fuel C) w true false i1 _) as [[[[[l1 is] c1] j] s]| |] eqn:Hit; simpl in Ho; try discriminate.
      destruct (iter_all_fwd _ w (h_init _ _ _ Hw) (h_run _ _ _ Hw) _ _ _ _ _ _ _ _ _ Hcw Hit) as [c' [ib [H1 [H2 [H3 H4]]]]]. simpl in H2. subst c1.
      apply with_reps in H1. destruct is as [|e|e]; simpl in *; try contradiction.
      * inversion Ho; subst. destruct c'; discriminate.
      * inversion Ho; subst. split; auto. exists false, a, i1, c', l1, ib. assert (Hpf : pair_fails bs bp ib true) by (apply with_pair_fails; eexists; eauto). repeat split; auto.
    + left. inversion Ho; subst. exists e, (CommitErr e), j0. auto.
    + left. inversion Ho; subst. exists (terr e), (PeekErr e), j0. auto.
  - intros [[e [r [j [Ho [He Hc]]]]]|[-> [c1 [a [i1 [c2 [l' [i' [H1 [H2 [H3 H4]]]]]]]]]]].
    + exists e. rewrite fresh_sep_by1. apply fresh_run in Ho. destruct Ho as [st' ->]. simpl.
      destruct r as [a|a|e1|e1]; simpl in *; try discriminate; do 2 eexists; (split; [reflexivity|auto]).
    + destruct (step_bwd _ p Hi Hr _ _ _ _ Hi H1) as [st1 [Hrun Hx]]. rewrite fresh_sep_by1, Hrun. simpl.
      assert (Hc1 : leftover false p st1) by (apply Hx; destruct c1; exact I).
      assert (Hcw : Cw (s0 st1)). { apply clean_s0. auto. }
      apply with_pair_fails in H3. destruct H3 as [e H3]. apply with_reps in H2.
      destruct (iter_all_bwd _ w (h_init _ _ _ Hw) (h_run _ _ _ Hw) _ _ _ _ H2 (fuel C) false _ Hcw H4) as [_ Hb].
      destruct (Hb e H3) as [j [st' Hit]]. exists e, (CommitErr e), j. destruct c1; simpl; rewrite Hit; simpl; auto.
Qed.
End Sep.
End RepeatProofs.
