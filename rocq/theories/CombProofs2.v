(** attempt, look_ahead, not_followed_by, recognize, entry points, any_partial_state, spanned. *)
From Coq Require Import String List Bool Arith NArith Lia.
Import ListNotations.
From Verif Require Import Base Parser Token Combinator Sequence Choice Repeat RangeP ByteP Spec SeqProofs CombProofs ChoiceSpec ChoiceProofs
  LibSpec ForwardProofs AgreeSpec AgreeProofs RepeatProofs.
Unset Implicit Arguments.

Section CombProofs2.
Context {C : Cfg}.
Notation T := (tok C).
Notation E := (Err C).
Notation beh := (@Spec.beh C).

Lemma done_peek {A} (x : A) j c a i' : Done (@PeekOk A E x, j) = Done (okr c a, i' : input C) -> c = false /\ a = x /\ i' = j.
Proof. destruct c; intros H; inversion H; auto. Qed.
Lemma done_commit {A} (x : A) j c a i' : Done (@CommitOk A E x, j) = Done (okr c a, i' : input C) -> c = true /\ a = x /\ i' = j.
Proof. destruct c; intros H; inversion H; auto. Qed.

(** ** attempt *)
Lemma fresh_attempt {S A} (p : parser C S A) i : fresh (attempt p) i =
  omap (fun x => match x with
        | (CommitErr err, i') => if ipart i' && e_is_eoi C err then (CommitErr err, i') else (PeekErr (to_trk err), i')
        | _ => x end) (freshc p i).
Proof.
  unfold fresh, freshc. cbn. unfold attempt_run. destruct (p_cmode p true i (p_init p)) as [[[r i'] s]| |]; cbn; auto.
  destruct r; cbn; auto. destruct (ipart i' && e_is_eoi C e); reflexivity.
Qed.

Lemma attempt_succeeds {S A} (p : parser C S A) : cmode_agrees p -> forall i c a i',
  succeeds (fresh (attempt p)) i c a i' <-> succeeds (fresh p) i c a i'.
Proof.
  intros H i c a i'. rewrite <- (cmode_succeeds p H). unfold succeeds. rewrite fresh_attempt.
  destruct (freshc p i) as [[r j]| |]; cbn; try tauto. destruct r as [x|x|e|e]; cbn; try tauto.
  destruct (ipart j && e_is_eoi C e); split; intros K; inversion K; subst; destruct c; discriminate.
Qed.

(** The failure of [attempt] in full. *)
Lemma attempt_fails {S A} (p : parser C S A) : cmode_agrees p -> forward p -> forall i c,
  fails (fresh (attempt p)) i c <->
  if c then ipart i = true /\ exists e, fails_with (fresh p) i true e /\ e_is_eoi C e = true
  else fails (fresh p) i false \/ exists e, fails_with (fresh p) i true e /\ (ipart i = false \/ e_is_eoi C e = false).
Proof.
  intros H Hf i c. pose proof (cmode_fresh p H i) as Hc. unfold fails, fails_with. setoid_rewrite fresh_attempt.
  assert (Hpart : forall r j, fresh p i = Done (r, j) -> ipart j = ipart i).
  { intros r j K. apply fresh_run in K. destruct K as [s K]. apply Hf in K. destruct K as [l [_ [_ K]]]. auto. }
  destruct (fresh p i) as [[r j]| |], (freshc p i) as [[r2 j2]| |]; try contradiction; cbn [omap];
    try (destruct c; split; [intros [? [? [? [? _]]]]; discriminate| |intros [? [? [? [? _]]]]; discriminate|];
         [intros [_ [? [[? [? [? _]]] _]]]; discriminate|intros [[? [? [? [? _]]]]|[? [[? [? [? _]]] _]]]; discriminate]).
  specialize (Hpart _ _ eq_refl). destruct Hc as [Hs Hc].
  destruct r as [a|a|e|e]; destruct r2 as [a2|a2|e2|e2]; try discriminate.
  - destruct c; split; [intros [? [? [? [K [K2 _]]]]]; inversion K; subst; discriminate|intros [_ [? [[? [? [K [K2 _]]]] _]]]; inversion K; subst; discriminate
      |intros [? [? [? [K [K2 _]]]]]; inversion K; subst; discriminate|intros [[? [? [? [K [K2 _]]]]]|[? [[? [? [K [K2 _]]]] _]]]; inversion K; subst; discriminate].
  - destruct c; split; [intros [? [? [? [K [K2 _]]]]]; inversion K; subst; discriminate|intros [_ [? [[? [? [K [K2 _]]]] _]]]; inversion K; subst; discriminate
      |intros [? [? [? [K [K2 _]]]]]; inversion K; subst; discriminate|intros [[? [? [? [K [K2 _]]]]]|[? [[? [? [K [K2 _]]]] _]]]; inversion K; subst; discriminate].
  - destruct Hc as [K ->]. inversion K; subst. destruct c.
    + split.
      * intros [x [r0 [i0 [K1 [K2 K3]]]]]. destruct (ipart j && e_is_eoi C e) eqn:Hx; inversion K1; subst; try discriminate.
        apply andb_prop in Hx. destruct Hx as [Hx1 Hx2]. split; [congruence|]. exists e. split; auto. exists (CommitErr e), i0. auto.
      * intros [Hp [x [[r0 [i0 [K1 [K2 K3]]]] K4]]]. inversion K1; subst. inversion K2; subst. rewrite Hpart, Hp, K4. cbn.
        exists x, (CommitErr x), i0. auto.
    + split.
      * intros [x [r0 [i0 [K1 [K2 K3]]]]]. destruct (ipart j && e_is_eoi C e) eqn:Hx; inversion K1; subst; try discriminate.
        right. exists e. split; [exists (CommitErr e), i0; auto|]. rewrite Hpart in Hx. apply andb_false_iff in Hx. auto.
      * intros [[x [r0 [i0 [K1 [K2 K3]]]]]|[x [[r0 [i0 [K1 [K2 K3]]]] K4]]]; inversion K1; subst; [discriminate|]. inversion K2; subst.
        rewrite Hpart. exists x, (PeekErr (to_trk x)), i0. destruct (ipart i && e_is_eoi C x) eqn:Hx; [|auto].
        apply andb_prop in Hx. destruct Hx as [Hx1 Hx2], K4; congruence.
  - destruct c.
    + split; [intros [x [r0 [i0 [K1 [K2 K3]]]]]; inversion K1; subst; discriminate|intros [_ [x [[r0 [i0 [K1 [K2 K3]]]] _]]]; inversion K1; subst; discriminate].
    + split; [|intros _; exists (terr e2), (PeekErr e2), j2; auto]. intros _. left. exists (terr e), (PeekErr e), j. auto.
Qed.

(** On complete input. *)
Lemma attempt_fails_complete {S A} (p : parser C S A) : cmode_agrees p -> forward p -> forall i c, ipart i = false ->
  (fails (fresh (attempt p)) i c <-> c = false /\ exists c0, fails (fresh p) i c0).
Proof.
  intros H Hf i c Hp. rewrite (attempt_fails p H Hf). destruct c.
  - split; [intros [K _]; congruence|intros [K _]; discriminate].
  - split.
    + intros [K|[e [K _]]]; split; eauto. exists true, e. auto.
    + intros [_ [[|] K]]; auto. destruct K as [e K]. right. exists e. auto.
Qed.

Lemma chosen_one {A} (b : beh A) i r i' : chosen [b] i r i' <-> b i = Done (r, i') /\ backtracks r = false.
Proof.
  split.
  - intros H. remember [b] as bs eqn:Hb. destruct H as [b0 bs0 i0 r0 j0 H1 H2|b0 bs0 i0 r0 i1 r1 j0 H1 H2 H3]; inversion Hb; subst; auto.
    remember (@nil (beh A)) as e eqn:He. destruct H3; discriminate.
  - intros [H1 H2]. apply chosen_here; auto.
Qed.
Lemma chosen_two {A} (b b2 : beh A) i r i' : chosen [b; b2] i r i' <->
  (b i = Done (r, i') /\ backtracks r = false) \/ ((exists r0 i0, b i = Done (r0, i0) /\ backtracks r0 = true) /\ b2 i = Done (r, i') /\ backtracks r = false).
Proof.
  split.
  - intros H. remember [b; b2] as bs eqn:Hb. destruct H as [b0 bs0 i0 r0 j0 H1 H2|b0 bs0 i0 r0 i1 r1 j0 H1 H2 H3]; inversion Hb; subst; auto.
    apply chosen_one in H3. right. eauto.
  - intros [[H1 H2]|[[r0 [i0 [H1 H2]]] H3]]; [apply chosen_here; auto|]. eapply chosen_later; eauto. apply chosen_one; auto.
Qed.

(** So a following alternative is always tried, from the original position. *)
Lemma attempt_or {S1 S2 A} (p : parser C S1 A) (q : parser C S2 A) : cmode_agrees p -> forward p -> forall i c a i', ipart i = false ->
  (succeeds (fresh (or_ (attempt p) q)) i c a i' <->
   succeeds (fresh p) i c a i' \/ ((exists c0, fails (fresh p) i c0) /\ succeeds (fresh q) i c a i')).
Proof.
  intros H Hf i c a i' Hp. destruct (or_ordered (attempt p) q) as [O1 [O2 O3]]. split.
  - intros K. destruct (O3 _ _ _ K) as [K2|K2].
    + apply chosen_two in K2. destruct K2 as [[K2 _]|[[r0 [i0 [K2 K3]]] [K4 _]]].
      * left. apply (attempt_succeeds p H). auto.
      * right. split; auto. assert (Hx : fails (fresh (attempt p)) i false).
        { exists match r0 with PeekErr e => terr e | CommitErr e => e | _ => e_empty C (ipos i) end, r0, i0. destruct r0; try discriminate. auto. }
        apply (attempt_fails_complete p H Hf) in Hx; [apply Hx|auto].
    + apply O2 in K2. destruct (fails_not_ok _ _ _ _ _ K2 K) as [K3 _]. destruct c; discriminate.
  - intros [K|[K K2]].
    + apply (attempt_succeeds p H) in K. apply O1. apply chosen_two. left. split; auto. destruct c; auto.
    + apply O1. apply chosen_two. right. split; [|split; auto; destruct c; auto].
      assert (Hx : fails (fresh (attempt p)) i false) by (apply (attempt_fails_complete p H Hf); auto).
      destruct Hx as [e [r [j [Hx1 [Hx2 Hx3]]]]]. exists r, j. split; auto. destruct r; try discriminate; auto.
Qed.

(** ** look_ahead *)
Lemma look_ahead_spec {S A} (p : parser C S A) : lazy_agrees p ->
  (forall i c a i', succeeds (fresh (look_ahead p)) i c a i' <-> c = false /\ i' = i /\ exists c0 i0, succeeds (fresh p) i c0 a i0) /\
  (forall i c e, fails_with (fresh (look_ahead p)) i c e <-> fails_with (fresh p) i c e) /\
  (forall i r i', fresh (look_ahead p) i = Done (r, i') -> i' = i).
Proof.
  intros H.
  assert (Hx : forall i, fresh (look_ahead p) i =
    omap (fun x => match x with (CommitOk o, _) | (PeekOk o, _) => (PeekOk o, i) | (r, _) => (r, i) end) (p_lazy p i)).
  { intros i. unfold fresh. cbn. unfold lazy_run. destruct (p_lazy p i) as [[r j]| |]; cbn; auto. destruct r; reflexivity. }
  split; [|split].
  - intros i c a i'. setoid_rewrite <- (lazy_succeeds p H). unfold succeeds. rewrite Hx. destruct (p_lazy p i) as [[r j]| |]; cbn;
      try (split; [discriminate|intros [_ [_ [c0 [i0 K]]]]; discriminate]). destruct r as [x|x|e|e]; split; intros K.
    + apply done_peek in K. destruct K as [-> [-> ->]]. repeat split; auto. exists true, j. auto.
    + destruct K as [-> [-> [c0 [i0 K]]]]. destruct c0; inversion K; subst. auto.
    + apply done_peek in K. destruct K as [-> [-> ->]]. repeat split; auto. exists false, j. auto.
    + destruct K as [-> [-> [c0 [i0 K]]]]. destruct c0; inversion K; subst. auto.
    + destruct c; discriminate.
    + destruct K as [_ [_ [c0 [i0 K]]]]. destruct c0; discriminate.
    + destruct c; discriminate.
    + destruct K as [_ [_ [c0 [i0 K]]]]. destruct c0; discriminate.
  - intros i c e. rewrite <- (lazy_fails_with p H). unfold fails_with. rewrite Hx. destruct (p_lazy p i) as [[r j]| |]; cbn; try tauto.
    destruct r; split; intros [r0 [i0 [K1 [K2 K3]]]]; inversion K1; subst; try discriminate; (eexists _, _; split; [reflexivity|split; [exact K2|reflexivity]]).
  - intros i r i' K. rewrite Hx in K. destruct (p_lazy p i) as [[r0 j]| |]; try discriminate. destruct r0; cbn in K; inversion K; auto.
Qed.

(** ** not_followed_by *)
Lemma not_followed_by_spec {S A} (p : parser C S A) :
  (forall i c u i', succeeds (fresh (not_followed_by p)) i c u i' <-> c = false /\ i' = i /\ exists c0, fails (fresh p) i c0) /\
  (forall i c, fails (fresh (not_followed_by p)) i c <-> c = false /\ exists c0 a i0, succeeds (fresh p) i c0 a i0) /\
  (forall i r i', fresh (not_followed_by p) i = Done (r, i') -> i' = i).
Proof.
  assert (Hx : forall i, fresh (not_followed_by p) i =
    omap (fun x => (if is_ok (fst x) then PeekErr (to_trk (e_empty C (ipos i))) else PeekOk tt, i)) (fresh p i)).
  { intros i. unfold fresh. cbn. destruct (p_run p true i (p_init p)) as [[[r j] s]| |]; reflexivity. }
  split; [|split].
  - intros i c [] i'. unfold succeeds, fails, fails_with. rewrite Hx. destruct (fresh p i) as [[r j]| |]; cbn;
      try (split; [discriminate|intros [_ [_ [c0 [e0 [r0 [i0 [K _]]]]]]]; discriminate]).
    destruct r as [a|a|e|e]; cbn; split; intros K;
      [destruct c; discriminate|destruct K as [_ [_ [c0 [e0 [r0 [i0 [K [K2 K3]]]]]]]]; inversion K; subst; discriminate
      |destruct c; discriminate|destruct K as [_ [_ [c0 [e0 [r0 [i0 [K [K2 K3]]]]]]]]; inversion K; subst; discriminate| | | |].
    + apply done_peek in K. destruct K as [-> [_ ->]].
      repeat split; auto. exists true, e, (CommitErr e), j. auto.
    + destruct K as [-> [-> _]]. reflexivity.
    + apply done_peek in K. destruct K as [-> [_ ->]].
      repeat split; auto. exists false, (terr e), (PeekErr e), j. auto.
    + destruct K as [-> [-> _]]. reflexivity.
  - intros i c. unfold succeeds, fails, fails_with. rewrite Hx. destruct (fresh p i) as [[r j]| |]; cbn;
      try (split; [intros [e0 [r0 [i0 [K _]]]]; discriminate|intros [_ [c0 [e0 [i0 K]]]]; discriminate]).
    destruct r as [a|a|e|e]; cbn; split; intros K.
    + destruct K as [e0 [r0 [i0 [K [K2 K3]]]]]. inversion K; subst. split; [reflexivity|]. exists true, a, j. reflexivity.
    + destruct K as [-> _]. do 3 eexists; split; [reflexivity|split; reflexivity].
    + destruct K as [e0 [r0 [i0 [K [K2 K3]]]]]. inversion K; subst. split; [reflexivity|]. exists false, a, j. reflexivity.
    + destruct K as [-> _]. do 3 eexists; split; [reflexivity|split; reflexivity].
    + destruct K as [e0 [r0 [i0 [K [K2 K3]]]]]. inversion K; subst. discriminate.
    + destruct K as [_ [c0 [a0 [i0 K]]]]. destruct c0; discriminate.
    + destruct K as [e0 [r0 [i0 [K [K2 K3]]]]]. inversion K; subst. discriminate.
    + destruct K as [_ [c0 [a0 [i0 K]]]]. destruct c0; discriminate.
  - intros i r i' K. rewrite Hx in K. destruct (fresh p i) as [[r0 j]| |]; try discriminate. cbn in K. inversion K; auto.
Qed.

(** ** recognize *)
Lemma replay_exact (L : lawful C) (D : pos_distinct C) : forall l r (p : Pos C), replay (pos_after p l) (l ++ r) p = (l, r, pos_after p l, true).
Proof.
  induction l as [|t l IH]; intros r p.
  - cbn [app pos_after fold_left]. destruct r; cbn; rewrite (proj2 (law_pos L p p) eq_refl); reflexivity.
  - cbn [app replay]. destruct (pos_eqb C p (pos_after p (t :: l))) eqn:He.
    + apply (law_pos L) in He. symmetry in He. apply D in He. discriminate.
    + change (pos_after p (t :: l)) with (pos_after (pos_step C p t) l). rewrite IH. reflexivity.
Qed.

Lemma advanced_by_fun (i : input C) l i1 i2 : advanced_by i l i1 -> advanced_by i l i2 -> i1 = i2.
Proof. intros [A1 [A2 A3]] [B1 [B2 B3]]. destruct i1, i2; cbn in *. subst. rewrite A1 in B1. apply app_inv_head in B1. subst. auto. Qed.
Lemma advanced_by_inj (i : input C) l1 l2 i' : advanced_by i l1 i' -> advanced_by i l2 i' -> l1 = l2.
Proof. intros [A1 _] [B1 _]. rewrite A1 in B1. apply app_inv_tail in B1. auto. Qed.

Lemma recognize_spec (L : lawful C) (D : pos_distinct C) {S A} (p : parser C S A) : forward p ->
  (forall i c l i', succeeds (fresh (recognize p)) i c l i' <-> exists a, succeeds (fresh p) i c a i' /\ advanced_by i l i') /\
  (forall i c e, fails_with (fresh (recognize p)) i c e <-> fails_with (fresh p) i c e).
Proof.
  intros Hf.
  assert (Hx : forall i, match fresh p i with
    | Done (r, j) => exists l, advanced_by i l j /\ fresh (recognize p) i = Done (pr_map (fun _ => l) r, j)
    | Panic => fresh (recognize p) i = Panic | OOF => fresh (recognize p) i = OOF end).
  { intros i. unfold fresh. cbn. destruct (p_run p true i (p_init p)) as [[[r j] s]| |] eqn:Hp; cbn; auto.
    destruct (Hf _ _ _ _ _ _ Hp) as [l [Ha [Hb Hc]]]. exists l. split; [split; auto|].
    rewrite Ha, Hb. rewrite (replay_exact L D). rewrite <- Hb, <- Hc. destruct j as [jr jp jb]. destruct r; reflexivity. }
  split.
  - intros i c l i'. specialize (Hx i). unfold succeeds. destruct (fresh p i) as [[r j]| |]; try (rewrite Hx; split; [discriminate|intros [a [K _]]; discriminate]).
    destruct Hx as [l0 [Ha ->]]. split.
    + intros K. destruct r as [a|a|e|e]; cbn in K.
      * apply done_commit in K. destruct K as [-> [-> ->]]. exists a. auto.
      * apply done_peek in K. destruct K as [-> [-> ->]]. exists a. auto.
      * destruct c; discriminate.
      * destruct c; discriminate.
    + intros [a [K K2]]. inversion K; subst. rewrite (advanced_by_inj _ _ _ _ Ha K2). destruct c; reflexivity.
  - intros i c e. specialize (Hx i). unfold fails_with.
    destruct (fresh p i) as [[r j]| |]; [|rewrite Hx; split; intros [? [? [? _]]]; discriminate|rewrite Hx; split; intros [? [? [? _]]]; discriminate].
    destruct Hx as [l0 [Ha ->]]. destruct r; cbn; split; intros [r0 [i0 [K1 [K2 K3]]]]; inversion K1; subst; try discriminate; (eexists _, _; split; [reflexivity|split; [exact K2|reflexivity]]).
Qed.

(** *** the range versions *)
Lemma range_len_app (a b : list T) : range_len (C:=C) (a ++ b) = range_len a + range_len b.
Proof. unfold range_len. induction a as [|t a IH]; cbn; auto. rewrite IH. lia. Qed.
Lemma range_len_0 (L : lawful C) (l : list T) : range_len l = 0 -> l = [].
Proof. destruct l as [|t l]; auto. cbn. pose proof (law_width L t). lia. Qed.
Lemma split_width_exact (L : lawful C) : forall (l r : list T), split_width (range_len l) (l ++ r) = inl (l, r).
Proof.
  induction l as [|t l IH]; intros r.
  - destruct r; reflexivity.
  - change (range_len (t :: l)) with (width C t + range_len l). cbn [app split_width]. pose proof (law_width L t) as Hw. destruct (width C t + range_len l =? 0) eqn:H0; [apply Nat.eqb_eq in H0; lia|].
    destruct (width C t <=? width C t + range_len l) eqn:H1; [|apply Nat.leb_gt in H1; lia].
    replace (width C t + range_len l - width C t) with (range_len l) by lia. rewrite IH. reflexivity.
Qed.
Lemma uncons_range_exact (L : lawful C) (i : input C) l i' : advanced_by i l i' -> uncons_range (range_len l) i = (inl l, i').
Proof.
  intros [H1 [H2 H3]]. unfold uncons_range. rewrite H1, (split_width_exact L). unfold advance. rewrite <- H2, <- H3. destruct i'; reflexivity.
Qed.
Lemma distance_exact (i : input C) l i' : advanced_by i l i' -> distance i' i = range_len l.
Proof. intros [H1 _]. unfold distance. rewrite H1, range_len_app. lia. Qed.
Lemma s_uncons_range_exact (L : lawful C) (i : input C) l i' : advanced_by i l i' -> s_uncons_range i (range_len l) = (okr (consumed_some l) l, i').
Proof.
  intros H. unfold s_uncons_range. rewrite (uncons_range_exact L _ _ _ H). destruct l as [|t l]; auto.
  change (range_len (t :: l)) with (width C t + range_len l). pose proof (law_width L t). destruct (width C t + range_len l =? 0) eqn:Hz; [apply Nat.eqb_eq in Hz; lia|].
  reflexivity.
Qed.

Lemma recognize_with_value_spec (L : lawful C) {S A} (p : parser C S A) : forward p ->
  (forall i c l a i', succeeds (fresh (recognize_with_value p)) i c (l, a) i' <->
     (exists c0, succeeds (fresh p) i c0 a i') /\ advanced_by i l i' /\ c = consumed_some l) /\
  (forall i c e, fails_with (fresh (recognize_with_value p)) i c e <-> fails_with (fresh p) i c e).
Proof.
  intros Hf.
  assert (Hx : forall i, match fresh p i with
    | Done (r, j) => match r with
                     | CommitOk a | PeekOk a => exists l, advanced_by i l j /\ fresh (recognize_with_value p) i = Done (okr (consumed_some l) (l, a), j)
                     | CommitErr e => fresh (recognize_with_value p) i = Done (CommitErr e, i)
                     | PeekErr e => fresh (recognize_with_value p) i = Done (PeekErr e, j)
                     end
    | Panic => fresh (recognize_with_value p) i = Panic | OOF => fresh (recognize_with_value p) i = OOF end).
  { intros i. unfold fresh. cbn. destruct (p_run p true i (p_init p)) as [[[r j] s]| |] eqn:Hp; cbn; auto.
    destruct (Hf _ _ _ _ _ _ Hp) as [l Ha]. destruct r as [a|a|e|e]; cbn; auto;
    exists l; (split; [auto|]); rewrite (distance_exact _ _ _ Ha), (s_uncons_range_exact L _ _ _ Ha); destruct (consumed_some l); reflexivity. }
  split.
  - intros i c l a i'. specialize (Hx i). unfold succeeds.
    destruct (fresh p i) as [[r j]| |]; try (rewrite Hx; split; [discriminate|intros [[c0 K] _]; discriminate]).
    destruct r as [x|x|e|e].
    + destruct Hx as [l0 [Ha ->]]. split.
      * intros K. apply done_okr_inj in K. destruct K as [<- [K1 ->]]. inversion K1; subst. split; [exists true; reflexivity|auto].
      * intros [[c0 K] [K2 ->]]. destruct c0; inversion K; subst. rewrite (advanced_by_inj _ _ _ _ Ha K2). auto.
    + destruct Hx as [l0 [Ha ->]]. split.
      * intros K. apply done_okr_inj in K. destruct K as [<- [K1 ->]]. inversion K1; subst. split; [exists false; reflexivity|auto].
      * intros [[c0 K] [K2 ->]]. destruct c0; inversion K; subst. rewrite (advanced_by_inj _ _ _ _ Ha K2). auto.
    + rewrite Hx. split; [destruct c; discriminate|intros [[c0 K] _]; destruct c0; discriminate].
    + rewrite Hx. split; [destruct c; discriminate|intros [[c0 K] _]; destruct c0; discriminate].
  - intros i c e. specialize (Hx i). unfold fails_with.
    destruct (fresh p i) as [[r j]| |]; [|rewrite Hx; split; intros [? [? [? _]]]; discriminate|rewrite Hx; split; intros [? [? [? _]]]; discriminate].
    destruct r as [x|x|e0|e0].
    + destruct Hx as [l0 [Ha ->]]. split; intros [r0 [i0 [K1 [K2 K3]]]]; inversion K1; subst; try discriminate. rewrite okr_not_error in K2. discriminate.
    + destruct Hx as [l0 [Ha ->]]. split; intros [r0 [i0 [K1 [K2 K3]]]]; inversion K1; subst; try discriminate. rewrite okr_not_error in K2. discriminate.
    + rewrite Hx. split; intros [r0 [i0 [K1 [K2 K3]]]]; inversion K1; subst; (eexists _, _; split; [reflexivity|split; [exact K2|reflexivity]]).
    + rewrite Hx. split; intros [r0 [i0 [K1 [K2 K3]]]]; inversion K1; subst; (eexists _, _; split; [reflexivity|split; [exact K2|reflexivity]]).
Qed.

Lemma recognize_range_spec (L : lawful C) {S A} (p : parser C S A) : forward p ->
  (forall i c l i', succeeds (fresh (recognize_range p)) i c l i' <->
     (exists c0 a, succeeds (fresh p) i c0 a i') /\ advanced_by i l i' /\ c = consumed_some l) /\
  (forall i c e, fails_with (fresh (recognize_range p)) i c e <-> fails_with (fresh p) i c e).
Proof.
  intros Hf. destruct (recognize_with_value_spec L p Hf) as [H1 H2].
  assert (Hm : maps_to fst (fresh (recognize_with_value p)) (fresh (recognize_range p))) by exact (map_maps (recognize_with_value p) fst).
  split.
  - intros i c l i'. rewrite (maps_to_succeeds fst _ _ i c l i' Hm). split.
    + intros [[l0 a] [K ->]]. apply H1 in K. destruct K as [[c0 K] K2]. split; eauto.
    + intros [[c0 [a K]] K2]. exists (l, a). split; auto. apply H1. split; eauto.
  - intros i c e. rewrite (maps_to_fails fst _ _ i c e Hm). apply H2.
Qed.

(** ** any_partial_state *)

Lemma any_partial_some {S A} (p : parser C S A) : forall calls s, trace (any_partial_state p) (Some s) calls = trace p s calls.
Proof.
  induction calls as [|[first i] calls IH]; intros s; cbn; auto.
  destruct (p_run p first i s) as [[[r i'] s']| |]; cbn; auto. rewrite IH. reflexivity.
Qed.

Lemma any_partial_trace {S A} (p : parser C S A) calls : 
  (forall x, In x (removelast (trace p (p_init p) calls)) -> needs_more x) ->
  trace (any_partial_state p) (p_init (any_partial_state p)) calls = trace p (p_init p) calls.
Proof.
  destruct calls as [|[first i] calls]; auto. cbn. destruct (p_run p first i (p_init p)) as [[[r i'] s']| |]; cbn; auto.
  intros H. f_equal. destruct calls as [|[f2 i2] calls]; auto.
  assert (K : exists y l, trace p s' ((f2, i2) :: calls) = y :: l) by (cbn; destruct (p_run p f2 i2 s') as [[[? ?] ?]| |]; eauto).
  destruct K as [y [l K]]. assert (Hr : needs_more (Done (r, i'))).
  { apply H. change (trace p s' ((f2, i2) :: calls)) with (trace p s' ((f2, i2) :: calls)). rewrite K. cbn. auto. }
  destruct Hr as [e [j Hr]]. inversion Hr; subst. apply any_partial_some.
Qed.

Lemma any_partial_fresh {S A} (p : parser C S A) i : fresh (any_partial_state p) i = fresh p i.
Proof. unfold fresh. cbn. destruct (p_run p true i (p_init p)) as [[[r j] s]| |]; auto. Qed.

(** ** spanned *)
Lemma spanned_spec {Q S A} (q_eqb : Q -> Q -> bool) (st en : Pos C -> Q) (mk : Q -> Q -> Pos C) (p : parser C S A) :
  (forall i c a i', succeeds (fresh (spanned q_eqb st en mk p)) i c a i' <-> succeeds (fresh p) i c a i') /\
  (forall i c i' r, fresh p i = Done (r, i') -> is_ok r = false -> committed r = c -> forall e, error_of r = Some e ->
     exists r2, fresh (spanned q_eqb st en mk p) i = Done (r2, i') /\ committed r2 = c /\
       error_of r2 = Some (if q_eqb (st (e_position C e)) (en (e_position C e)) then e_setpos C e (mk (st (ipos i)) (en (ipos i'))) else e)).
Proof.
  split.
  - intros i c a i'. unfold succeeds, fresh. cbn. destruct (p_run p true i (p_init p)) as [[[r j] s]| |]; cbn; try tauto.
    destruct r; cbn; try tauto; split; intros K; inversion K as [[K1 K2]]; destruct c; discriminate.
  - intros i c i' r H Ho Hc e He. apply fresh_run in H. destruct H as [s H]. unfold fresh. cbn. rewrite H. cbn.
    destruct r as [x|x|e0|e0]; try discriminate; cbn in He; inversion He; subst; eexists; (split; [reflexivity|]); cbn; auto.
Qed.
End CombProofs2.
