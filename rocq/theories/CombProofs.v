(** C05: derived sequences and value transformers. *)
From Coq Require Import String List Bool Arith NArith Lia.
Import ListNotations.
From Verif Require Import Base Parser Token Combinator Sequence Spec SeqSpec SeqProofs.
Unset Implicit Arguments.

Section Comb.
Context {C : Cfg}.
Notation T := (tok C).
Notation E := (Err C).
Notation beh := (@Spec.beh C).

Lemma fresh_run {S A} (p : parser C S A) i r i' :
  fresh p i = Done (r, i') <-> exists st', p_run p true i (p_init p) = Done (r, i', st').
Proof.
  unfold fresh. destruct (p_run p true i (p_init p)) as [[[r0 i0] s0]| |]; simpl; split; intros H.
  - inversion H; subst; eauto.
  - destruct H as [st' H]; inversion H; subst; auto.
  - discriminate.
  - destruct H; discriminate.
  - discriminate.
  - destruct H; discriminate.
Qed.

Lemma okr_cases {A} (r : PR A E) : (exists c a, r = okr c a) \/ (exists e, error_of r = Some e).
Proof.
  destruct r as [a|a|e|e].
  - left; exists true, a; auto.
  - left; exists false, a; auto.
  - right; exists e; auto.
  - right; exists (terr e); auto.
Qed.

Lemma okr_inj {A} c c' (a a' : A) : @okr A E c a = okr c' a' -> c = c' /\ a = a'.
Proof. destruct c, c'; simpl; intros H; inversion H; auto. Qed.

Lemma okr_not_error {A} c (a : A) : error_of (@okr A E c a) = None.
Proof. destruct c; auto. Qed.

Lemma fails_not_ok {A} (b : beh A) i c r i' : fails b i c -> b i = Done (r, i') -> is_ok r = false /\ committed r = c.
Proof.
  intros [e [r0 [i0 [H1 [H2 H3]]]]] H. rewrite H1 in H. inversion H; subst. destruct r; simpl in *; try discriminate; auto.
Qed.

Lemma fails_intro {A} (b : beh A) i r i' : b i = Done (r, i') -> is_ok r = false -> fails b i (committed r).
Proof. intros H Ho. destruct r as [a|a|e|e]; try discriminate; repeat eexists; eauto; reflexivity. Qed.

Lemma succeeds_det {A} (b : beh A) i c c' a a' i1 i2 :
  succeeds b i c a i1 -> succeeds b i c' a' i2 -> c = c' /\ a = a' /\ i1 = i2.
Proof. unfold succeeds. intros H1 H2. rewrite H1 in H2. inversion H2. apply okr_inj in H0. tauto. Qed.

(** Proving [runs_after] from the forward direction: each case determines the result. *)
Lemma runs_after_intro {A B D} (b1 : beh A) (k : A -> beh B) (out : A -> B -> D) (b : beh D) :
  (forall i c1 a i1 c2 x i', succeeds b1 i c1 a i1 -> succeeds (k a) i1 c2 x i' -> succeeds b i (c1 || c2) (out a x) i') ->
  (forall i c, fails b1 i c -> fails b i c) ->
  (forall i c1 a i1 c2, succeeds b1 i c1 a i1 -> fails (k a) i1 c2 -> fails b i (c1 || c2)) ->
  (forall i r i', b i = Done (r, i') -> exists r1 i1, b1 i = Done (r1, i1) /\
     (forall c a, r1 = okr c a -> exists r2 i2, k a i1 = Done (r2, i2))) ->
  runs_after b1 k out b.
Proof.
  intros Hok Hf1 Hf2 Hx. split.
  - intros i c d i'. split.
    + intros H. destruct (Hx _ _ _ H) as [r1 [i1 [H1 H2]]].
      destruct (okr_cases r1) as [[c1 [a ->]]|[e He]].
      * destruct (H2 c1 a eq_refl) as [r2 [i2 Hk]]. destruct (okr_cases r2) as [[c2 [x ->]]|[e He]].
        { pose proof (Hok i c1 a i1 c2 x i2 H1 Hk) as Hs. destruct (succeeds_det _ _ _ _ _ _ _ _ H Hs) as [-> [-> ->]].
          exists c1, a, i1, c2, x. auto. }
        { assert (Hf : fails b i (c1 || committed r2)).
          { apply (Hf2 i c1 a i1 (committed r2) H1). exists e, r2, i2. auto. }
          destruct (fails_not_ok _ _ _ _ _ Hf H) as [Hno _]. rewrite okr_is_ok in Hno. discriminate. }
      * assert (Hf : fails b i (committed r1)). { apply Hf1. exists e, r1, i1. auto. }
        destruct (fails_not_ok _ _ _ _ _ Hf H) as [Hno _]. rewrite okr_is_ok in Hno. discriminate.
    + intros [c1 [a [i1 [c2 [x [H1 [H2 [-> ->]]]]]]]]. eapply Hok; eauto.
  - intros i c. split.
    + intros Hf. pose proof Hf as [e0 [r0 [i0 [H0 [He0 Hc0]]]]]. destruct (Hx _ _ _ H0) as [r1 [i1 [H1 H2]]].
      destruct (okr_cases r1) as [[c1 [a ->]]|[e He]].
      * right. destruct (H2 c1 a eq_refl) as [r2 [i2 Hk]]. destruct (okr_cases r2) as [[c2 [x ->]]|[e He]].
        { pose proof (Hok i c1 a i1 c2 x i2 H1 Hk) as Hs.
          destruct (fails_not_ok _ _ _ _ _ Hf Hs) as [Hno _]. rewrite okr_is_ok in Hno. discriminate. }
        { exists c1, a, i1, (committed r2). split; auto. split. { exists e, r2, i2. auto. }
          assert (Hf' : fails b i (c1 || committed r2)).
          { apply (Hf2 i c1 a i1 (committed r2) H1). exists e, r2, i2. auto. }
          destruct (fails_not_ok _ _ _ _ _ Hf H0), (fails_not_ok _ _ _ _ _ Hf' H0). congruence. }
      * left. assert (Hf1' : fails b1 i (committed r1)). { exists e, r1, i1. auto. }
        pose proof (Hf1 _ _ Hf1') as Hf'.
        destruct (fails_not_ok _ _ _ _ _ Hf H0), (fails_not_ok _ _ _ _ _ Hf' H0). congruence.
    + intros [H|[c1 [a [i1 [c2 [H1 [H2 ->]]]]]]]; eauto.
Qed.

(** Two behaviours that differ only in what they do to values. *)
Definition maps_to {A B} (f : A -> B) (b : beh A) (b' : beh B) : Prop :=
  forall i, b' i = omap (fun x => (pr_map f (fst x), snd x)) (b i).

Lemma maps_to_succeeds {A B} (f : A -> B) b b' i c d i' :
  maps_to f b b' -> (succeeds b' i c d i' <-> exists a, succeeds b i c a i' /\ d = f a).
Proof.
  intros H. unfold succeeds. rewrite H. destruct (b i) as [[r j]| |]; simpl; split; intros Hq.
  - destruct r, c; simpl in Hq; inversion Hq; subst; eexists; split; reflexivity.
  - destruct Hq as [a [Hq ->]]. inversion Hq; subst. destruct c; reflexivity.
  - discriminate.
  - destruct Hq as [a [Hq _]]; discriminate.
  - discriminate.
  - destruct Hq as [a [Hq _]]; discriminate.
Qed.

Lemma maps_to_fails {A B} (f : A -> B) b b' i c e :
  maps_to f b b' -> (fails_with b' i c e <-> fails_with b i c e).
Proof.
  intros H. unfold fails_with. rewrite H. destruct (b i) as [[r j]| |]; simpl; split; intros [r0 [i0 [H1 [H2 H3]]]]; try discriminate.
  - inversion H1; subst. exists r, i0. destruct r; simpl in *; auto.
  - inversion H1; subst. exists (pr_map f r0), i0. destruct r0; simpl in *; auto; discriminate.
Qed.

Lemma runs_after_maps {A B D D'} (b1 : beh A) (k : A -> beh B) (out : A -> B -> D) b (g : D -> D') b' :
  runs_after b1 k out b -> maps_to g b b' -> runs_after b1 k (fun a x => g (out a x)) b'.
Proof.
  intros [H1 H2] Hm. split.
  - intros i c d i'. rewrite (maps_to_succeeds _ _ _ _ _ _ _ Hm). split.
    + intros [a [Hs ->]]. apply H1 in Hs. destruct Hs as [c1 [a' [i1 [c2 [x [? [? [-> ->]]]]]]]].
      exists c1, a', i1, c2, x. auto.
    + intros [c1 [a' [i1 [c2 [x [? [? [-> ->]]]]]]]]. eexists. split; [|reflexivity]. apply H1.
      exists c1, a', i1, c2, x. auto.
  - intros i c. rewrite <- H2. unfold fails. split; intros [e He]; exists e; apply (maps_to_fails _ _ _ _ _ _ Hm); assumption.
Qed.

(** Replacing the parts by others with the same successes and failures. *)
Lemma runs_after_maps_l {A A' B D} (b1 : beh A) (f : A -> A') b1' (k : beh B) (out : A' -> B -> D) b :
  maps_to f b1 b1' -> runs_after b1' (fun _ => k) out b -> runs_after b1 (fun _ => k) (fun a x => out (f a) x) b.
Proof.
  intros Hm [H1 H2]. split.
  - intros i c d i'. rewrite H1. split.
    + intros [c1 [a' [i1 [c2 [x [Hs [? [-> ->]]]]]]]]. apply (maps_to_succeeds _ _ _ _ _ _ _ Hm) in Hs.
      destruct Hs as [a [Hs ->]]. exists c1, a, i1, c2, x. auto.
    + intros [c1 [a [i1 [c2 [x [Hs [? [-> ->]]]]]]]]. exists c1, (f a), i1, c2, x. split; auto.
      apply (maps_to_succeeds _ _ _ _ _ _ _ Hm). eauto.
  - intros i c. rewrite H2. split.
    + intros [[e Hf]|[c1 [a' [i1 [c2 [Hs [Hf ->]]]]]]].
      * left. exists e. apply (maps_to_fails _ _ _ _ _ _ Hm); assumption.
      * right. apply (maps_to_succeeds _ _ _ _ _ _ _ Hm) in Hs. destruct Hs as [a [Hs ->]]. exists c1, a, i1, c2. auto.
    + intros [[e Hf]|[c1 [a [i1 [c2 [Hs [Hf ->]]]]]]].
      * left. exists e. apply (maps_to_fails _ _ _ _ _ _ Hm); assumption.
      * right. exists c1, (f a), i1, c2. split; auto. apply (maps_to_succeeds _ _ _ _ _ _ _ Hm). eauto.
Qed.

Lemma runs_after_maps_r {A B B' D} (b1 : beh A) (k : beh B) (f : B -> B') k' (out : A -> B' -> D) b :
  maps_to f k k' -> runs_after b1 (fun _ => k') out b -> runs_after b1 (fun _ => k) (fun a x => out a (f x)) b.
Proof.
  intros Hm [H1 H2]. split.
  - intros i c d i'. rewrite H1. split.
    + intros [c1 [a [i1 [c2 [x' [? [Hs [-> ->]]]]]]]]. apply (maps_to_succeeds _ _ _ _ _ _ _ Hm) in Hs.
      destruct Hs as [x [Hs ->]]. exists c1, a, i1, c2, x. auto.
    + intros [c1 [a [i1 [c2 [x [? [Hs [-> ->]]]]]]]]. exists c1, a, i1, c2, (f x). repeat split; auto.
      apply (maps_to_succeeds _ _ _ _ _ _ _ Hm). eauto.
  - intros i c. rewrite H2. split; intros [Hf|[c1 [a [i1 [c2 [Hs [[e Hf] ->]]]]]]]; auto; right; exists c1, a, i1, c2;
      repeat split; auto; exists e; apply (maps_to_fails _ _ _ _ _ _ Hm); assumption.
Qed.

(** ** pairs *)
Lemma pair2_runs {S1 A S2 B} (p : parser C S1 A) (q : parser C S2 B) :
  runs_after (fresh p) (fun _ => fresh q) pair (fresh (pair2 p q)).
Proof.
  apply runs_after_intro.
  - intros i c1 a i1 c2 x i' H1 H2. apply fresh_tuple_ok. simpl. exists c1, i1, c2. auto.
  - intros i c [e [r [i' [H1 [H2 H3]]]]]. destruct r as [a|a|e0|e0]; simpl in *; try discriminate; subst.
    + eexists. exists (CommitErr e0), i'. split; [|split; reflexivity].
      apply (fresh_tuple_commit _ i 0 false e0 i i'). simpl. left. auto.
    + destruct (fresh_tuple_peek (TC p (T1 q)) i 0 false e0 i i') as [x Hx]. { simpl. left. auto. }
      simpl in Hx. eexists. eexists. exists i'. split; [exact Hx|]. split; reflexivity.
  - intros i c1 a i1 c2 H1 [e [r [i' [H2 [H3 H4]]]]]. destruct r as [x|x|e0|e0]; simpl in *; try discriminate; subst.
    + exists e0, (CommitErr e0), i'. split; [|split; [reflexivity|rewrite orb_true_r; auto]].
      apply (fresh_tuple_commit _ i 1 (c1 || false) e0 i1 i'). simpl. right. exists c1, a, i1, 0, false. auto 10.
    + destruct (fresh_tuple_peek (TC p (T1 q)) i 1 (c1 || false) e0 i1 i') as [x Hx].
      { simpl. right. exists c1, a, i1, 0, false. auto 10. }
      destruct c1; simpl in *; eexists; do 2 eexists; (split; [exact Hx|]; split; reflexivity).
  - intros i r i' H. destruct (fresh_tuple_cases _ _ _ _ H) as [[c [b [-> Hok]]]|[k [c [f [ib [ia [Hst _]]]]]]].
    + simpl in Hok. destruct Hok as [c1 [i1 [c2 [H1 [H2 ->]]]]]. exists (okr c1 (fst b)), i1. split; auto.
      intros c' a' Hq. exists (okr c2 (snd b)), i'. auto.
    + simpl in Hst. destruct Hst as [[_ [_ [_ Hf]]]|[c1 [a [i1 [k' [c2 [H1 [[_ [_ [_ H2]]] _]]]]]]]].
      * eexists. exists ia. split; [exact Hf|]. intros c' a' Hq. destruct f, c'; discriminate.
      * exists (okr c1 a), i1. split; auto. intros. eexists. exists ia. exact H2.
Qed.

Lemma ignore_maps {S A} (p : parser C S A) : maps_to (fun _ => tt) (fresh p) (fresh (ignore p)).
Proof. intros i. unfold fresh. simpl. destruct (p_run p true i (p_init p)) as [[[r j] s]| |]; reflexivity. Qed.

Lemma map_maps {S A B} (p : parser C S A) (f : A -> B) : maps_to f (fresh p) (fresh (map p f)).
Proof. intros i. unfold fresh. simpl. destruct (p_run p true i (p_init p)) as [[[r j] s]| |]; reflexivity. Qed.

Lemma with_runs {S1 A S2 B} (p : parser C S1 A) (q : parser C S2 B) :
  runs_after (fresh p) (fun _ => fresh q) (fun _ b => b) (fresh (with_ p q)).
Proof.
  assert (Hm : maps_to snd (fresh (pair2 (ignore p) q)) (fresh (with_ p q))).
  { intros i. unfold fresh. simpl. destruct (tuple_run _ true i _) as [[[r j] s]| |]; reflexivity. }
  apply (runs_after_maps_l _ _ _ _ (fun _ b => b) _ (ignore_maps p)).
  exact (runs_after_maps _ _ _ _ _ _ (pair2_runs (ignore p) q) Hm).
Qed.

Lemma skip_runs {S1 A S2 B} (p : parser C S1 A) (q : parser C S2 B) :
  runs_after (fresh p) (fun _ => fresh q) (fun a _ => a) (fresh (skip p q)).
Proof.
  assert (Hm : maps_to fst (fresh (pair2 p (ignore q))) (fresh (skip p q))).
  { intros i. unfold fresh. simpl. destruct (tuple_run _ true i _) as [[[r j] s]| |]; reflexivity. }
  apply (runs_after_maps_r _ _ _ _ (fun a _ => a) _ (ignore_maps q)).
  exact (runs_after_maps _ _ _ _ _ _ (pair2_runs p (ignore q)) Hm).
Qed.

(** ** tuples of any length, in terms of success and failure *)
Lemma tuple_fails {SS B} (t : tup (C:=C) SS B) i c :
  fails (fresh (tuple t)) i c <-> exists k c0 f ib ia, seq_stop t i k c0 f ib ia /\
    c = c0 || match f with inl _ => true | inr _ => false end.
Proof.
  split.
  - intros Hf. pose proof Hf as [e [r [i' [H1 [H2 H3]]]]].
    destruct (fresh_tuple_cases _ _ _ _ H1) as [[c' [b [-> _]]]|[k [c0 [f [ib [ia [Hst _]]]]]]].
    { rewrite okr_not_error in H2. discriminate. }
    exists k, c0, f, ib, ia. split; auto. destruct f as [e0|e0].
    + rewrite (fresh_tuple_commit _ _ _ _ _ _ _ Hst) in H1. inversion H1; subst. rewrite orb_true_r. auto.
    + destruct (fresh_tuple_peek _ _ _ _ _ _ _ Hst) as [x Hx]. rewrite Hx in H1. inversion H1; subst.
      destruct c0; auto.
  - intros [k [c0 [f [ib [ia [Hst ->]]]]]]. destruct f as [e0|e0].
    + rewrite orb_true_r. exists e0, (CommitErr e0), ia. rewrite (fresh_tuple_commit _ _ _ _ _ _ _ Hst). auto.
    + destruct (fresh_tuple_peek _ _ _ _ _ _ _ Hst) as [x Hx]. rewrite orb_false_r.
      destruct c0; eexists; do 2 eexists; (split; [exact Hx|]; split; reflexivity).
Qed.

Lemma tuple_succeeds {SS B} (t : tup (C:=C) SS B) i c b i' :
  succeeds (fresh (tuple t)) i c b i' <-> seq_ok t i c b i'.
Proof.
  split.
  - intros H. destruct (fresh_tuple_cases _ _ _ _ H) as [[c' [b' [Hq Hok]]]|[k [c0 [f [ib [ia [Hst Hno]]]]]]].
    + apply okr_inj in Hq. destruct Hq as [-> ->]. auto.
    + rewrite okr_is_ok in Hno. discriminate.
  - intros H. apply fresh_tuple_ok. auto.
Qed.

Lemma tup3_runs {S1 A S2 B S3 D} (p : parser C S1 A) (q : parser C S2 B) (r : parser C S3 D) :
  (forall i c x i', succeeds (fresh (tup3 p q r)) i c x i' <->
     exists c1 i1 c2 i2 c3, succeeds (fresh p) i c1 (fst x) i1 /\ succeeds (fresh q) i1 c2 (fst (snd x)) i2 /\
       succeeds (fresh r) i2 c3 (snd (snd x)) i' /\ c = c1 || c2 || c3) /\
  (forall i c, fails (fresh (tup3 p q r)) i c <->
     fails (fresh p) i c \/
     (exists c1 a i1 c2, succeeds (fresh p) i c1 a i1 /\ fails (fresh q) i1 c2 /\ c = c1 || c2) \/
     (exists c1 a i1 c2 b i2 c3, succeeds (fresh p) i c1 a i1 /\ succeeds (fresh q) i1 c2 b i2 /\
        fails (fresh r) i2 c3 /\ c = c1 || c2 || c3)).
Proof.
  split.
  - intros i c x i'. unfold tup3. rewrite tuple_succeeds. simpl. split.
    + intros [c1 [i1 [c' [H1 [[c2 [i2 [c3 [H2 [H3 ->]]]]] ->]]]]]. exists c1, i1, c2, i2, c3. rewrite orb_assoc. auto.
    + intros [c1 [i1 [c2 [i2 [c3 [H1 [H2 [H3 ->]]]]]]]]. exists c1, i1, (c2 || c3). rewrite orb_assoc. split; auto.
      split; auto. exists c2, i2, c3. auto.
  - intros i c. unfold tup3. rewrite tuple_fails. simpl.
    assert (Hone : forall S A (p : parser C S A) (f : E + trk E) i ia,
      fresh p i = Done (match f with inl e => CommitErr e | inr e => PeekErr e end, ia) ->
      fails (fresh p) i (match f with inl _ => true | inr _ => false end)).
    { intros S0 A0 p0 f j ia H. destruct f as [e|e]; eexists; do 2 eexists; (split; [exact H|]; split; reflexivity). }
    assert (Hinv : forall S A (p : parser C S A) i c, fails (fresh p) i c ->
      exists (f : E + trk E) ia, fresh p i = Done (match f with inl e => CommitErr e | inr e => PeekErr e end, ia) /\
        c = match f with inl _ => true | inr _ => false end).
    { intros S0 A0 p0 j c0 [e [r0 [i0 [H1 [H2 H3]]]]]. destruct r0 as [a|a|e0|e0]; try discriminate.
      - exists (inl e0), i0. auto.
      - exists (inr e0), i0. auto. }
    split.
    + intros [k [c0 [f [ib [ia [[[-> [-> [-> H]]]|[c1 [a [i1 [k' [c2 [H1 [H2 [-> ->]]]]]]]]] ->]]]]]].
      * left. eauto.
      * right. destruct H2 as [[-> [-> [-> H2]]]|[c3 [b [i2 [k2 [c4 [H3 [[-> [-> [-> H4]]] [-> ->]]]]]]]]].
        { left. exists c1, a, i1, (match f with inl _ => true | inr _ => false end). rewrite orb_false_r. eauto. }
        { right. exists c1, a, i1, c3, b, i2, (match f with inl _ => true | inr _ => false end).
          rewrite orb_false_r. eauto 10. }
    + intros [H|[[c1 [a [i1 [c2 [H1 [H2 ->]]]]]]|[c1 [a [i1 [c2 [b [i2 [c3 [H1 [H2 [H3 ->]]]]]]]]]]]].
      * apply Hinv in H. destruct H as [f [ia [H ->]]]. exists 0, false, f, i, ia. auto 10.
      * apply Hinv in H2. destruct H2 as [f [ia [H2 ->]]]. exists 1, (c1 || false), f, i1, ia.
        rewrite orb_false_r. split; auto. right. exists c1, a, i1, 0, false. rewrite orb_false_r. auto 20.
      * apply Hinv in H3. destruct H3 as [f [ia [H3 ->]]]. exists 2, (c1 || c2), f, i2, ia.
        split; auto. right. exists c1, a, i1, 1, c2. split; auto. split; auto.
        right. exists c2, b, i2, 0, false. rewrite orb_false_r. auto 20.
Qed.

Lemma between_runs {S1 A S2 B S3 D} (open : parser C S1 A) (close : parser C S2 B) (p : parser C S3 D) :
  (forall i c x i', succeeds (fresh (between open close p)) i c x i' <->
     exists c1 a i1 c2 i2 c3 b, succeeds (fresh open) i c1 a i1 /\ succeeds (fresh p) i1 c2 x i2 /\
       succeeds (fresh close) i2 c3 b i' /\ c = c1 || c2 || c3) /\
  (forall i c, fails (fresh (between open close p)) i c <->
     fails (fresh open) i c \/
     (exists c1 a i1 c2, succeeds (fresh open) i c1 a i1 /\ fails (fresh p) i1 c2 /\ c = c1 || c2) \/
     (exists c1 a i1 c2 b i2 c3, succeeds (fresh open) i c1 a i1 /\ succeeds (fresh p) i1 c2 b i2 /\
        fails (fresh close) i2 c3 /\ c = c1 || c2 || c3)).
Proof.
  assert (Hm : maps_to (fun x : A * (D * B) => fst (snd x)) (fresh (tup3 open p close)) (fresh (between open close p))).
  { exact (map_maps (tup3 open p close) _). }
  destruct (tup3_runs open p close) as [H1 H2]. split.
  - intros i c x i'. rewrite (maps_to_succeeds _ _ _ _ _ _ _ Hm). split.
    + intros [[a [d b]] [Hs ->]]. apply H1 in Hs. simpl in *.
      destruct Hs as [c1 [i1 [c2 [i2 [c3 [? [? [? ->]]]]]]]]. exists c1, a, i1, c2, i2, c3, b. auto.
    + intros [c1 [a [i1 [c2 [i2 [c3 [b [? [? [? ->]]]]]]]]]]. exists (a, (x, b)). split; auto. apply H1. simpl.
      exists c1, i1, c2, i2, c3. auto.
  - intros i c. rewrite <- H2. split; intros [e He]; exists e; apply (maps_to_fails _ _ _ _ _ _ Hm); assumption.
Qed.

(** ** then *)
Lemma default_cmode_agrees {S A} (p : parser C S A) :
  p_cmode p = default_cmode (p_run p) (p_adderr p) -> cmode_agrees p.
Proof.
  intros H first i st. rewrite H. unfold default_cmode.
  destruct (p_run p first i st) as [[[r i'] s']| |]; simpl; auto.
  destruct r as [a|a|e|e]; simpl; auto.
Qed.

Lemma run_cmode_agrees {S A} (p : parser C S A) : p_cmode p = p_run p -> cmode_agrees p.
Proof.
  intros H first i st. rewrite H. destruct (p_run p first i st) as [[[r i'] s']| |]; simpl; auto.
  destruct r; auto.
Qed.

Lemma cmode_fresh {S A} (p : parser C S A) (H : cmode_agrees p) i :
  match fresh p i, freshc p i with
  | Done (r, i'), Done (r2, i2) => shape r2 = shape r /\ match r with PeekErr _ => True | _ => r2 = r /\ i2 = i' end
  | Panic, Panic | OOF, OOF => True
  | _, _ => False
  end.
Proof.
  specialize (H true i (p_init p)). unfold fresh, freshc.
  destruct (p_run p true i (p_init p)) as [[[r i'] s']| |], (p_cmode p true i (p_init p)) as [[[r2 i2] s2]| |]; simpl; auto.
  tauto.
Qed.

Lemma cmode_succeeds {S A} (p : parser C S A) (H : cmode_agrees p) i c a i' :
  succeeds (freshc p) i c a i' <-> succeeds (fresh p) i c a i'.
Proof.
  pose proof (cmode_fresh p H i) as Hc. unfold succeeds.
  destruct (fresh p i) as [[r j]| |], (freshc p i) as [[r2 j2]| |]; try contradiction; try tauto; try (split; discriminate).
  destruct Hc as [Hs Hx]. destruct r as [x|x|e|e]; [destruct Hx as [-> ->]; tauto|destruct Hx as [-> ->]; tauto|destruct Hx as [-> ->]; tauto|].
  split; intros Hq; inversion Hq; subst; destruct c; try discriminate; destruct r2; discriminate.
Qed.

Lemma cmode_fails {S A} (p : parser C S A) (H : cmode_agrees p) i c :
  fails (freshc p) i c <-> fails (fresh p) i c.
Proof.
  pose proof (cmode_fresh p H i) as Hc. unfold fails, fails_with.
  destruct (fresh p i) as [[r j]| |], (freshc p i) as [[r2 j2]| |]; try contradiction;
    try (split; intros [e [r0 [i0 [Hq _]]]]; discriminate).
  destruct Hc as [Hs Hx]. unfold shape in Hs. inversion Hs as [[Hc Hv]].
  split; intros [e [r0 [i0 [Hq [He Hcc]]]]]; inversion Hq; subst.
  - destruct r as [x|x|e0|e0]; simpl in *.
    + destruct r0; discriminate.
    + destruct r0; discriminate.
    + eexists. exists (CommitErr e0), j. repeat split; auto.
    + eexists. exists (PeekErr e0), j. repeat split; auto.
  - destruct r2 as [x|x|e0|e0]; simpl in *.
    + destruct r0; discriminate.
    + destruct r0; discriminate.
    + eexists. exists (CommitErr e0), j2. repeat split; auto.
    + eexists. exists (PeekErr e0), j2. repeat split; auto.
Qed.

Lemma then_runs {S1 A S2 B} (p : parser C S1 A) (s0 : S2) (f : A -> parser C S2 B) :
  (forall a, p_init (f a) = s0) -> (forall a, cmode_agrees (f a)) ->
  runs_after (fresh p) (fun a => fresh (f a)) (fun _ b => b) (fresh (then_ p s0 f)).
Proof.
  intros Hi Hc.
  assert (Hgen : forall i, fresh (then_ p s0 f) i =
    obind (fresh p i) (fun x => match x with (r, i1) =>
      match r with
      | PeekErr e => Done (PeekErr e, i1)
      | CommitErr e => Done (CommitErr e, i1)
      | PeekOk a => freshc (f a) i1
      | CommitOk a => omap (fun y => (match fst y with PeekOk b => CommitOk b | PeekErr e => CommitErr (terr e) | r => r end, snd y)) (freshc (f a) i1)
      end end)).
  { intros i. unfold fresh at 1. simpl. rewrite andb_false_r. unfold fresh, freshc.
    destruct (p_run p true i (p_init p)) as [[[r i1] s1]| |]; simpl; auto.
    destruct r as [a|a|e|e]; simpl; auto; rewrite (Hi a);
      destruct (p_cmode (f a) true i1 s0) as [[[r2 i2] s2]| |]; simpl; auto; destruct r2; reflexivity. }
  apply runs_after_intro.
  - intros i c1 a i1 c2 x i' H1 H2. apply (cmode_succeeds _ (Hc a)) in H2. unfold succeeds in *. rewrite Hgen, H1. simpl.
    destruct c1; simpl; rewrite H2; destruct c2; reflexivity.
  - intros i c [e [r [i' [H1 [H2 H3]]]]]. destruct r as [a|a|e0|e0]; try discriminate; simpl in *; subst;
      eexists; do 2 eexists; rewrite Hgen, H1; simpl; repeat split.
  - intros i c1 a i1 c2 H1 H2. apply (cmode_fails _ (Hc a)) in H2. destruct H2 as [e [r [i' [H2 [H3 H4]]]]].
    unfold succeeds in H1. unfold fails, fails_with. rewrite Hgen, H1. destruct c1; simpl; rewrite H2; simpl;
      destruct r as [x|x|e0|e0]; try discriminate; simpl in *; subst; eexists; do 2 eexists; repeat split; auto.
  - intros i r i' H. rewrite Hgen in H. destruct (fresh p i) as [[r1 i1]| |] eqn:Hp; simpl in H; try discriminate.
    exists r1, i1. split; auto. intros c a ->. pose proof (cmode_fresh _ (Hc a) i1) as Hx.
    destruct (fresh (f a) i1) as [[r2 i2]| |]; eauto; destruct c; simpl in H; destruct (freshc (f a) i1) as [[? ?]| |]; try contradiction; discriminate.
Qed.

Lemma then_ref_runs {S1 A S2 B} (p : parser C S1 A) (s0 : S2) (f : A -> parser C S2 B) :
  (forall a, p_init (f a) = s0) -> (forall a, cmode_agrees (f a)) ->
  runs_after (fresh p) (fun a => fresh (f a)) pair (fresh (then_ref p s0 f)).
Proof.
  intros Hi Hc. unfold then_ref.
  match goal with |- runs_after _ _ _ (fresh (then_ p s0 ?g)) => set (f' := g) end.
  assert (Hm : forall a, maps_to (pair a) (fresh (f a)) (fresh (f' a))).
  { intros a i. unfold fresh, f'. simpl. destruct (p_run (f a) true i (p_init (f a))) as [[[r j] s]| |]; reflexivity. }
  assert (Hc' : forall a, cmode_agrees (f' a)).
  { intros a first i st. specialize (Hc a first i st). unfold f'. simpl.
    destruct (p_run (f a) first i st) as [[[r i'] s']| |], (p_cmode (f a) first i st) as [[[r2 i2] s2]| |]; simpl; auto; try contradiction.
    destruct Hc as [Hs [-> Hx]]. unfold shape in *. inversion Hs.
    destruct r as [x|x|e|e]; [destruct Hx as [-> ->]; repeat split|destruct Hx as [-> ->]; repeat split|destruct Hx as [-> ->]; repeat split|].
    destruct r2 as [x|x|e2|e2]; try discriminate. repeat split. }
  destruct (then_runs p s0 f' Hi Hc') as [H1 H2]. split.
  - intros i c d i'. rewrite H1. split.
    + intros [c1 [a [i1 [c2 [x [Hs [Hs2 [-> ->]]]]]]]]. apply (maps_to_succeeds _ _ _ _ _ _ _ (Hm a)) in Hs2.
      destruct Hs2 as [b [Hs2 ->]]. exists c1, a, i1, c2, b. auto.
    + intros [c1 [a [i1 [c2 [x [Hs [Hs2 [-> ->]]]]]]]]. exists c1, a, i1, c2, (a, x). repeat split; auto.
      apply (maps_to_succeeds _ _ _ _ _ _ _ (Hm a)). eauto.
  - intros i c. rewrite H2. split; intros [Hf|[c1 [a [i1 [c2 [Hs [[e Hf] ->]]]]]]]; auto; right; exists c1, a, i1, c2;
      repeat split; auto; exists e; apply (maps_to_fails _ _ _ _ _ _ (Hm a)); assumption.
Qed.

(** ** flat_map, and_then *)
Lemma flat_map_spec {S A B} (p : parser C S A) (f : A -> B + E) :
  (forall i c b i', succeeds (fresh (flat_map p f)) i c b i' <-> exists a, succeeds (fresh p) i c a i' /\ f a = inl b) /\
  (forall i c e, fails_with (fresh (flat_map p f)) i c e <->
     fails_with (fresh p) i c e \/ exists a i', succeeds (fresh p) i c a i' /\ f a = inr e).
Proof.
  split.
  - intros i c b i'. unfold succeeds, fresh; simpl. destruct (p_run p true i (p_init p)) as [[[r j] s]| |]; simpl; split; intros H.
    + destruct r as [a|a|e|e]; simpl in H; try (destruct c; discriminate);
        destruct (f a) as [b'|e] eqn:Hf; inversion H; destruct c; try discriminate; inversion H1; subst; exists a; auto.
    + destruct H as [a [H Hf]]. inversion H; subst. destruct c; simpl; rewrite Hf; reflexivity.
    + discriminate.
    + destruct H as [a [H Hf]]; discriminate.
    + discriminate.
    + destruct H as [a [H Hf]]; discriminate.
  - intros i c e. unfold fails_with, succeeds, fresh; simpl.
    destruct (p_run p true i (p_init p)) as [[[r j] s]| |]; simpl; split; intros H.
    + destruct H as [r0 [i0 [H1 [H2 H3]]]]. destruct r as [a|a|e0|e0]; simpl in H1.
      * destruct (f a) as [b|e'] eqn:Hf; inversion H1; subst; try discriminate. inversion H2; subst. right. exists a, i0. auto.
      * destruct (f a) as [b|e'] eqn:Hf; inversion H1; subst; try discriminate. inversion H2; subst. right. exists a, i0. auto.
      * inversion H1; subst. left. exists (CommitErr e0), i0. auto.
      * inversion H1; subst. left. exists (PeekErr e0), i0. auto.
    + destruct H as [[r0 [i0 [H1 [H2 H3]]]]|[a [i' [H1 H2]]]].
      * inversion H1; subst. destruct r0 as [a|a|e0|e0]; try discriminate; simpl.
        { exists (CommitErr e0), i0. auto. } { exists (PeekErr e0), i0. auto. }
      * inversion H1; subst. destruct c; simpl; rewrite H2.
        { exists (CommitErr e), i'. auto. } { exists (PeekErr (to_trk e)), i'. auto. }
    + destruct H as [r0 [i0 [H1 _]]]; discriminate.
    + destruct H as [[r0 [i0 [H1 [H2 H3]]]]|[a [i' [H1 H2]]]]; discriminate.
    + destruct H as [r0 [i0 [H1 _]]]; discriminate.
    + destruct H as [[r0 [i0 [H1 [H2 H3]]]]|[a [i' [H1 H2]]]]; discriminate.
Qed.

(** The conversion error of [and_then] is reported at the start of the converted text, and (complete input) with the
    commitment of the success it replaces.  On a partial input whose data is exhausted the failure is always
    committed and the input is back at the start. *)
Lemma and_then_spec (L : lawful C) {S A B} (p : parser C S A) (f : A -> B + SErr C) :
  (forall i c b i', succeeds (fresh (and_then p f)) i c b i' <-> exists a, succeeds (fresh p) i c a i' /\ f a = inl b) /\
  (forall i c a i' se, succeeds (fresh p) i c a i' -> f a = inr se -> (ipart i' = false \/ rest i' <> []) ->
     exists r, fresh (and_then p f) i = Done (r, i') /\ committed r = c /\ error_of r = Some (e_from C (ipos i) se)) /\
  (forall i c a i' se, succeeds (fresh p) i c a i' -> f a = inr se -> ipart i' = true -> rest i' = [] ->
     fresh (and_then p f) i = Done (CommitErr (e_from C (ipos i) se), i)) /\
  (forall i c e, fails_with (fresh p) i c e -> fails_with (fresh (and_then p f)) i c e).
Proof.
  assert (Heof : forall i : input C, input_at_eof i = match rest i with [] => true | _ => false end).
  { intros i. unfold input_at_eof, uncons. destruct (rest i); auto. apply (law_eoi L). }
  split; [|split; [|split]].
  - intros i c b i'. unfold succeeds, fresh; simpl. destruct (p_run p true i (p_init p)) as [[[r j] s]| |]; simpl; split; intros H.
    + destruct r as [a|a|e|e]; simpl in H; try (destruct c; discriminate).
      * destruct (f a) as [b'|e] eqn:Hf; inversion H; destruct c; try discriminate; inversion H1; subst; exists a; auto.
      * destruct (f a) as [b'|e] eqn:Hf.
        { inversion H; destruct c; try discriminate; inversion H1; subst; exists a; auto. }
        { destruct (ipart j && input_at_eof j); destruct c; discriminate. }
    + destruct H as [a [H Hf]]. inversion H; subst. destruct c; simpl; rewrite Hf; reflexivity.
    + discriminate.
    + destruct H as [a [H Hf]]; discriminate.
    + discriminate.
    + destruct H as [a [H Hf]]; discriminate.
  - intros i c a i' se H Hf Hx. unfold succeeds in H. apply fresh_run in H. destruct H as [s H].
    assert (Hz : ipart i' && input_at_eof i' = false).
    { rewrite Heof. destruct Hx as [->|Hx]; auto. destruct (rest i'); try congruence. apply andb_false_r. }
    unfold fresh; simpl. rewrite H. destruct c; simpl; rewrite Hf; rewrite Hz; eexists; repeat split.
  - intros i c a i' se H Hf H1 H2. unfold succeeds in H. apply fresh_run in H. destruct H as [s H].
    assert (Hz : ipart i' && input_at_eof i' = true). { rewrite Heof, H1, H2. auto. }
    unfold fresh; simpl. rewrite H. destruct c; simpl; rewrite Hf; rewrite Hz; auto.
  - intros i c e [r [i' [H1 [H2 H3]]]]. apply fresh_run in H1. destruct H1 as [s H1].
    unfold fails_with, fresh; simpl. rewrite H1. destruct r as [a|a|e0|e0]; try discriminate.
    + exists (CommitErr e0), i'. auto.
    + exists (PeekErr e0), i'. auto.
Qed.

(** ** C49: the values are there when the tuple is assembled *)
Lemma seq_elem_value {S A} (p : parser C S A) first cur fep i st off first' cur' fep' i' st' off' :
  seq_elem p first cur fep i st off = Done (KOk first' cur' fep', i', st', off') -> fst st' <> None.
Proof.
  destruct st as [v s]. unfold seq_elem. destruct (first || is_none v) eqn:Hm.
  - destruct (p_run p first i s) as [[[r j] s1]| |]; simpl; try discriminate.
    destruct r; intros H; inversion H; subst; simpl; congruence.
  - intros H; inversion H; subst. simpl. destruct v; [congruence|]. rewrite orb_true_r in Hm. discriminate.
Qed.

Lemma seq_head_value {S A} (p : parser C S A) first i st off first' cur' fep' i' st' off' :
  seq_head p first i st off = Done (KOk first' cur' fep', i', st', off') -> fst st' <> None.
Proof.
  destruct st as [v s]. unfold seq_head. destruct (first || is_none v) eqn:Hm.
  - destruct (p_run p first i s) as [[[r j] s1]| |]; simpl; try discriminate.
    destruct r; intros H; inversion H; subst; simpl; congruence.
  - intros H; inversion H; subst. simpl. destruct v; [congruence|]. rewrite orb_true_r in Hm. discriminate.
Qed.

Lemma seq_rest_value {SS B} (t : tup (C:=C) SS B) : forall first cur fep i st off first' cur' fep' i' st' off',
  seq_rest t first cur fep i st off = Done (KOk first' cur' fep', i', st', off') -> tup_take t st' <> None.
Proof.
  induction t as [S A p|S A SS B p r IH]; intros first cur fep i st off first' cur' fep' i' st' off' H; simpl in *.
  - apply seq_elem_value in H. destruct (fst st'); congruence.
  - destruct (seq_elem p first cur fep i (fst st) off) as [[[[k i1] s1] o1]| |] eqn:He; simpl in H; try discriminate.
    destruct k as [f1 c1 p1|e|e|e n]; try discriminate. apply seq_elem_value in He.
    destruct (seq_rest r f1 c1 p1 i1 (snd st) o1) as [[[[k2 i2] s2] o2]| |] eqn:Hr; simpl in H; try discriminate.
    inversion H; subst. apply IH in Hr. simpl. destruct (fst s1); [|congruence]. destruct (tup_take r s2) as [[? ?]|]; congruence.
Qed.

Lemma seq_all_value {SS B} (t : tup (C:=C) SS B) first i st off first' cur' fep' i' st' off' :
  seq_all t first i st off = Done (KOk first' cur' fep', i', st', off') -> tup_take t st' <> None.
Proof.
  destruct t as [S A p|S A SS B p r]; simpl; intros H.
  - apply seq_head_value in H. destruct (fst st'); congruence.
  - destruct (seq_head p first i (fst st) off) as [[[[k i1] s1] o1]| |] eqn:He; simpl in H; try discriminate.
    destruct k as [f1 c1 p1|e|e|e n]; try discriminate. apply seq_head_value in He.
    destruct (seq_rest r f1 c1 p1 i1 (snd st) o1) as [[[[k2 i2] s2] o2]| |] eqn:Hr; simpl in H; try discriminate.
    inversion H; subst. apply seq_rest_value in Hr. simpl. destruct (fst s1); [|congruence]. destruct (tup_take r s2) as [[? ?]|]; congruence.
Qed.

Lemma seq_rest_panics {SS B} (t : tup (C:=C) SS B) : tup_all (fun S A (p : parser C S A) => never_panics p) t ->
  forall first cur fep i st off, seq_rest t first cur fep i st off <> Panic.
Proof.
  assert (Hel : forall S A (p : parser C S A), never_panics p -> forall first cur fep i st off, seq_elem p first cur fep i st off <> Panic).
  { intros S A p Hp first cur fep i [v s] off. unfold seq_elem. destruct (first || is_none v); try congruence.
    specialize (Hp first i s). destruct (p_run p first i s); simpl; congruence. }
  induction t as [S A p|S A SS B p r IH]; simpl; intros Ha first cur fep i st off; auto.
  destruct Ha as [Hp Hr]. specialize (Hel _ _ p Hp first cur fep i (fst st) off).
  destruct (seq_elem p first cur fep i (fst st) off) as [[[[k i1] s1] o1]| |]; simpl; try congruence.
  destruct k as [f1 c1 p1|e|e|e n]; try congruence. specialize (IH Hr f1 c1 p1 i1 (snd st) o1).
  destruct (seq_rest r f1 c1 p1 i1 (snd st) o1); simpl; congruence.
Qed.

Lemma tuple_never_panics {SS B} (t : tup (C:=C) SS B) :
  tup_all (fun S A (p : parser C S A) => never_panics p) t -> never_panics (tuple t).
Proof.
  intros Ha first i [st off]. simpl. unfold tuple_run. simpl.
  assert (Hn : seq_all t first i st off <> Panic).
  { destruct t as [S A p|S A SS B p r]; simpl in *.
    - unfold seq_head. destruct st as [v s]. destruct (first || is_none v); try congruence.
      specialize (Ha first i s). destruct (p_run p first i s); simpl; congruence.
    - destruct Ha as [Hp Hr]. unfold seq_head. destruct st as [[v s] ss]; simpl.
      destruct (first || is_none v); simpl.
      + specialize (Hp first i s). destruct (p_run p first i s) as [[[r0 i1] s1]| |]; simpl; try congruence.
        destruct r0; simpl; try congruence;
          match goal with |- context [seq_rest r ?a ?b ?c ?d ?e ?f] =>
            pose proof (seq_rest_panics r Hr a b c d e f); destruct (seq_rest r a b c d e f); simpl; congruence end.
      + pose proof (seq_rest_panics r Hr first 0 0 i ss off). destruct (seq_rest r first 0 0 i ss off); simpl; congruence. }
  destruct (seq_all t first i st off) as [[[[k i1] s1] o1]| |] eqn:Hq; simpl; try congruence.
  destruct k as [f1 c1 p1|e|e|e n]; try congruence.
  - apply seq_all_value in Hq. destruct (tup_take t s1) as [[b s2]|]; congruence.
  - destruct (add_errors i1 e n o1 (tup_errfns t)) as [r i2]. congruence.
Qed.

End Comb.
