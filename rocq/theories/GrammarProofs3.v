(** The parser of a grammar does what the grammar means. *)
From Coq Require Import String List Bool Arith NArith Lia.
Import ListNotations.
From Verif Require Import Base Parser Token Combinator Sequence Choice Repeat ByteP Spec RepeatSpec ChoiceSpec AgreeSpec LibSpec TidySpec
  SeqProofs ChoiceProofs RepeatProofs CombProofs ForwardProofs AgreeProofs ByteProofs GrammarSpec GrammarProofs GrammarProofs2
  Properties1 Properties2 Properties3 Properties4.
Unset Implicit Arguments.

Section Link.
Context {C : Cfg}.
Notation T := (tok C).
Notation tree := (tree C).
Notation gram := (gram C).
Notation E := (Err C).

Lemma den_lib (env : nat -> parser C unit tree) g : (forall n, lib (env n)) -> lib (projT2 (den env g)).
Proof.
  intros H. induction g; cbn [den projT2]; repeat first [assumption|apply H|constructor].
Qed.
Lemma den_tidy (env : nat -> parser C unit tree) g : tidy false (projT2 (den env g)).
Proof.
  induction g; cbn [den projT2].
  - apply td_unit.
  - apply td_unit.
  - apply td_map. apply td_tuple. apply td_TC; [auto|apply td_T1; auto].
  - apply td_or.
  - apply td_map, td_many. auto.
  - apply td_attempt, td_unit.
  - apply td_map, td_not_followed_by, td_unit.
  - apply td_unit.
  - apply td_unit.
Qed.

Lemma fresh_fn {A} (f : input C -> outcome (std_result A E * input C)) i :
  fresh (fn_parser f) i = omap (fun x => (from_std (fst x), snd x)) (f i).
Proof. unfold fresh, fn_parser, mk_lazy, p_run, lazy_run. destruct (f i) as [[r j]| |]; reflexivity. Qed.

Lemma outcome_case (b : beh (C:=C) tree) i : (exists c a i', succeeds b i c a i') \/ (exists c, fails b i c) \/ b i = Panic \/ b i = OOF.
Proof.
  unfold succeeds, fails, fails_with. destruct (b i) as [[[a|a|e|e] j]| |]; auto.
  - left. exists true, a, j. reflexivity.
  - left. exists false, a, j. reflexivity.
  - right. left. exists true. eexists _, _, _. split; [reflexivity|split; reflexivity].
  - right. left. exists false. eexists _, _, _. split; [reflexivity|split; reflexivity].
Qed.

Lemma does_det (b : beh (C:=C) tree) i c r c' r' : does b i c r -> does b i c' r' -> c = c' /\ r = r'.
Proof.
  unfold does, fails, fails_with, succeeds. destruct r as [[x l]|], r' as [[y l']|].
  - intros [i1 [H1 <-]] [i2 [H2 <-]]. rewrite H1 in H2. injection H2 as H2 <-. apply okr_inj in H2. destruct H2 as [<- <-]. auto.
  - intros [i1 [H1 <-]] [e [r0 [j [H2 [H3 H4]]]]]. rewrite H1 in H2. injection H2 as <- <-. rewrite okr_not_error in H3. discriminate.
  - intros [e [r0 [j [H2 [H3 H4]]]]] [i1 [H1 <-]]. rewrite H1 in H2. injection H2 as <- <-. rewrite okr_not_error in H3. discriminate.
  - intros [e [r0 [j [H2 [H3 H4]]]]] [e' [r1 [j' [H5 [H6 H7]]]]]. rewrite H2 in H5. injection H5 as <- <-. split; congruence.
Qed.
Lemma does_eq (b : beh (C:=C) tree) i r0 i' i2 c r : b i = Done (r0, i') -> does (fun _ => Done (r0, i')) i2 c r -> does b i c r.
Proof.
  unfold does, fails, fails_with, succeeds. intros H. rewrite H. auto.
Qed.
(** A rule does what its body does. *)
Lemma call_fn {S} (p : parser C S tree) : lib p -> forall i c,
  (forall a i', succeeds (fresh (fn_parser (fun i => omap (fun x => (into_std (fst x), snd x)) (p_stream p i)))) i c a i' <-> succeeds (fresh p) i c a i') /\
  (fails (fresh (fn_parser (fun i => omap (fun x => (into_std (fst x), snd x)) (p_stream p i)))) i c <-> fails (fresh p) i c).
Proof.
  intros L i c. pose proof (lib_agree _ _ _ L) as [_ _ HS]. specialize (HS i).
  unfold succeeds, fails, fails_with. rewrite fresh_fn.
  destruct (fresh p i) as [[r i']| |], (p_stream p i) as [[r2 i2]| |]; try destruct HS; cbn [omap fst snd].
  2,3: split; [intros; split; discriminate|split; intros [e [r0 [j [H _]]]]; discriminate].
  destruct H0 as [H1 H2]. unfold shape in H. injection H as Hc Hv.
  assert (K : from_std (into_std r2) = r2) by (destruct r2; reflexivity). rewrite K. split.
  - intros a j. split; intros Q; injection Q as -> ->.
    + assert (is_ok r = true) by (destruct r, c; cbn in *; congruence). destruct (H1 H) as [<- <-]. reflexivity.
    + assert (is_ok r2 = true). { destruct (H1 (okr_is_ok _ _)) as [-> _]. apply okr_is_ok. }
      destruct (H1 (okr_is_ok _ _)) as [-> ->]. reflexivity.
  - split; intros [e [r0 [j [Q [H3 H4]]]]]; injection Q as <- <-.
    + destruct r2 as [?|?|e2|e2]; try discriminate H3; destruct r as [?|?|e1|e1]; try discriminate Hv; try discriminate Hc; subst c; eexists _, _, _; (split; [reflexivity|split; reflexivity]).
    + destruct r as [?|?|e2|e2]; try discriminate H3; destruct r2 as [?|?|e1|e1]; try discriminate Hv; try discriminate Hc; subst c; eexists _, _, _; (split; [reflexivity|split; reflexivity]).
Qed.

Lemma call_macro {S} (p : parser C S tree) i c :
  (forall a i', succeeds (fresh (parser_fn0 p)) i c a i' <-> succeeds (fresh p) i c a i') /\ (fails (fresh (parser_fn0 p)) i c <-> fails (fresh p) i c).
Proof. unfold succeeds, fails, fails_with. rewrite fresh_parser_fn0. split; [intros|]; split; auto. Qed.

Lemma macro_ok {S} (p : parser C S tree) i c a i' : succeeds (fresh (parser_fn0 p)) i c a i' -> succeeds (fresh p) i c a i'.
Proof. apply call_macro. Qed.
Lemma macro_err {S} (p : parser C S tree) i c : fails (fresh (parser_fn0 p)) i c -> fails (fresh p) i c.
Proof. apply call_macro. Qed.
Section G.
Variable G : nat -> gram.
Variable by_fn : nat -> bool.
Notation ev := (ev G).
Notation rules := (rules G by_fn).
Lemma rules_lib k n : lib (rules k n).
Proof.
  revert n. induction k as [|k IH]; intros n; cbn [GrammarSpec.rules].
  - constructor. intros i x i' H. discriminate.
  - pose proof (den_lib (rules k) (G n) IH) as L. destruct (by_fn n); constructor; auto.
    intros i x i' H. unfold parser_of in H. destruct (p_stream (projT2 (den (rules k) (G n))) i) as [[r0 j]| |] eqn:Hq; try discriminate.
    inversion H; subst. eapply (fwd_stream _ (lib_fwd _ _ _ L)); eauto.
Qed.
Lemma rules_does k n i c r : does (fresh (rules (Datatypes.S k) n)) i c r <-> does (fresh (projT2 (den (rules k) (G n)))) i c r.
Proof.
  cbn [GrammarSpec.rules]. unfold parser_of. destruct (by_fn n).
  - destruct (call_fn (projT2 (den (rules k) (G n))) (den_lib _ _ (rules_lib k)) i c) as [H1 H2].
    destruct r as [[x l]|]; cbn [does]; [|exact H2]. split; intros [i' [K1 K2]]; exists i'; (split; [apply H1; exact K1|exact K2]).
  - destruct (call_macro (projT2 (den (rules k) (G n))) i c) as [H1 H2].
    destruct r as [[x l]|]; cbn [does]; [|exact H2]. split; intros [i' [K1 K2]]; exists i'; (split; [apply H1; exact K1|exact K2]).
Qed.
Lemma still {S} (p : parser C S tree) i c a i' : lib p -> succeeds (fresh p) i c a i' -> ipart i = false -> ipart i' = false.
Proof.
  intros L H Hp. unfold succeeds, fresh in H. destruct (p_run p true i (p_init p)) as [[[r j] st]| |] eqn:E0; try discriminate.
  injection H as -> ->. destruct (lib_forward _ L _ _ _ _ _ _ E0) as [l [_ [_ K]]]. congruence.
Qed.

Lemma ev_le g l c x l1 : ev g l c (Some (x, l1)) -> length l1 <= length l.
Proof. intros H. pose proof (ev_suffix _ _ _ _ _ H) as [w Hw]. apply (f_equal (@length T)) in Hw. rewrite app_length in Hw. lia. Qed.

Section Sound.
Variable env : nat -> parser C unit tree.
Hypothesis EL : forall n, lib (env n).
Hypothesis EE : forall n i c r, ipart i = false -> does (fresh (env n)) i c r -> ev (G n) (rest i) c r.
Lemma reps_ev a i c xs i' : lib (projT2 (den env a)) ->
  (forall i c r, ipart i = false -> does (fresh (projT2 (den env a))) i c r -> ev a (rest i) c r) ->
  reps (succeeds (fresh (projT2 (den env a)))) i c xs i' -> ipart i = false ->
  ipart i' = false /\
  (fails (fresh (projT2 (den env a))) i' false -> ev (GMany a) (rest i) c (Some (Items xs, rest i'))) /\
  (fails (fresh (projT2 (den env a))) i' true -> ev (GMany a) (rest i) true None).
Proof.
  intros L IH R. induction R as [i|i c1 x i1 c2 xs i' H1 R IHR]; intros Hp.
  - split; auto. split; intros K; [apply ev_many_stop|apply ev_many_committed]; apply (IH i _ None Hp K).
  - pose proof (still _ _ _ _ _ L H1 Hp) as Hp1. destruct (IHR Hp1) as [Hp' [K1 K2]].
    assert (Q : ev a (rest i) c1 (Some (x, rest i1))) by (apply (IH i c1 (Some (x, rest i1)) Hp); exists i1; auto).
    split; auto. split; intros K; [eapply ev_many_more|eapply ev_many_fails]; eauto.
Qed.
Lemma sound : forall g i c r, ipart i = false -> does (fresh (projT2 (den env g))) i c r -> ev g (rest i) c r.
Proof.
  induction g as [f| |a IHa b IHb|a IHa b IHb|a IHa|a IHa|a IHa|a IHa|n]; cbn [den projT2]; intros i c r Hp H.
  - assert (K : exists c0 r0, does (fresh (map (satisfy f) Tok)) i c0 r0 /\ ev (GTok f) (rest i) c0 r0).
    { destruct (@C02_satisfy C f true i tt) as [H1 [H2 [H3 _]]]. destruct (rest i) as [|t l] eqn:Er.
      - specialize (H3 eq_refl Hp). eexists false, None. split; [|apply ev_tok_end]. cbn [does].
        destruct (@C05_map C _ _ _ (satisfy f) Tok i) as [_ K]. eexists. apply K. unfold fails_with, fresh. change (p_init (satisfy f)) with tt. rewrite H3.
        eexists _, _. split; [reflexivity|split; reflexivity].
      - destruct (f t) eqn:Ef.
        + destruct (H1 t l t eq_refl (conj eq_refl Ef)) as [i' [K1 K2]]. exists true, (Some (Tok t, l)). split; [|apply ev_tok; auto].
          exists i'. split; [|destruct K2 as [K2 _]; rewrite Er in K2; cbn in K2; congruence]. apply (proj1 (@C05_map C _ _ _ (satisfy f) Tok i)). exists t. split; auto.
          unfold succeeds, fresh. change (p_init (satisfy f)) with tt. rewrite K1. reflexivity.
        + destruct (H2 t l eq_refl) as [i' K]; [intros r0 [_ E0]; congruence|]. exists false, None. split; [|apply ev_tok_no; auto].
          cbn [does]. eexists. apply (proj2 (@C05_map C _ _ _ (satisfy f) Tok i)). unfold fails_with, fresh. change (p_init (satisfy f)) with tt. rewrite K.
          eexists _, _. split; [reflexivity|split; reflexivity]. }
    destruct K as [c0 [r0 [K1 K2]]]. destruct (does_det _ _ _ _ _ _ H K1) as [-> ->]. exact K2.
  - assert (K : does (fresh (value Leaf)) i false (Some (Leaf, rest i))) by (exists i; split; reflexivity).
    destruct (does_det _ _ _ _ _ _ H K) as [-> ->]. apply ev_eps.
  - pose proof (@C05_pair C _ _ _ _ (projT2 (den env a)) (projT2 (den env b))) as [P1 P2].
    pose proof (@C05_map C _ _ _ (pair2 (projT2 (den env a)) (projT2 (den env b))) (fun x => Both (fst x) (snd x)) i) as [M1 M2].
    destruct r as [[x l]|]; cbn [does] in H.
    + destruct H as [i' [H Hr]]. apply M1 in H. destruct H as [xy [H ->]]. apply P1 in H. destruct H as [c1 [y [i1 [c2 [z [H1 [H2 [-> ->]]]]]]]]. cbn [fst snd]. subst l.
      eapply ev_seq; [apply (IHa i c1 (Some (y, rest i1)) Hp); exists i1; auto|apply (IHb i1 c2 (Some (z, rest i'))); [exact (still _ _ _ _ _ (den_lib env a EL) H1 Hp)|exists i'; auto]].
    + destruct H as [e H]. apply M2 in H. assert (H' : fails (fresh (pair2 (projT2 (den env a)) (projT2 (den env b)))) i c) by (exists e; auto). apply P2 in H'.
      destruct H' as [H'|[c1 [y [i1 [c2 [H1 [H2 ->]]]]]]]; [apply ev_seq_first; apply (IHa i c None Hp H')|].
      eapply ev_seq_second; [apply (IHa i c1 (Some (y, rest i1)) Hp); exists i1; auto|apply (IHb i1 c2 None); [exact (still _ _ _ _ _ (den_lib env a EL) H1 Hp)|exact H2]].
  - pose proof (@C06_or C _ _ _ (projT2 (den env a)) (projT2 (den env b))) as [_ [_ P]].
    assert (Q : exists r0 i', fresh (or_ (projT2 (den env a)) (projT2 (den env b))) i = Done (r0, i') /\ does (fun _ => Done (r0, i')) i c r).
    { destruct r as [[x l]|]; cbn [does] in *; [destruct H as [i' [H <-]]; exists (okr c x), i'; split; [exact H|exists i'; split; reflexivity]|].
      destruct H as [e [r0 [i' [H H']]]]. exists r0, i'. split; [exact H|]. exists e, r0, i'. split; [reflexivity|exact H']. }
    destruct Q as [r0 [i' [Q Hd]]]. destruct (P _ _ _ Q) as [K|K].
    + inversion K; subst.
      * assert (D : does (fresh (projT2 (den env a))) i c r) by (apply (does_eq _ _ _ _ _ _ _ H2 Hd)).
        pose proof (IHa i c r Hp D) as V. destruct r as [x|]; [apply ev_alt_first; auto|]. destruct c; [apply ev_alt_committed; auto|].
        exfalso. cbn in Hd. destruct Hd as [e [r1 [j [E1 [E2 E3]]]]]. injection E1 as <- <-. destruct r0; cbn in *; congruence.
      * match goal with [X : chosen [_] _ _ _ |- _] => inversion X; subst end; [|match goal with [X : chosen [] _ _ _ |- _] => inversion X end].
        apply ev_alt_second.
        -- apply (IHa i false None Hp). match goal with [X : fresh (projT2 (den env a)) i = Done (?r1, _) |- _] => destruct r1; try discriminate; eexists _, _, _; split; [exact X|split; reflexivity] end.
        -- apply (IHb i c r Hp). eapply does_eq; [|exact Hd]. assumption.
    + inversion K as [|? ? K1 K2]; subst. inversion K2 as [|? ? K3 _]; subst.
      assert (F : fails (fresh (or_ (projT2 (den env a)) (projT2 (den env b)))) i false) by (apply (@C06_or C _ _ _ (projT2 (den env a)) (projT2 (den env b))); auto).
      destruct (does_det _ _ _ _ false None H F) as [-> ->]. apply ev_alt_second; [apply (IHa i false None Hp K1)|apply (IHb i false None Hp K3)].
  - pose proof (@C28_tidy_history_free _ _ _ _ _ (den_tidy env a)) as HF.
    pose proof (@C05_map C _ _ _ (many (projT2 (den env a))) Items i) as [M1 M2].
    destruct r as [[x l]|]; cbn [does] in H.
    + destruct H as [i' [H <-]]. apply M1 in H. destruct H as [xs [H ->]]. apply (@C11_many_succeeds _ _ _ _ HF) in H. destruct H as [H1 [H2 _]].
      apply (reps_ev a i c xs i' (den_lib env a EL) IHa H1 Hp). exact H2.
    + destruct H as [e H]. apply M2 in H. apply (@C11_many_fails _ _ _ _ HF) in H. destruct H as [-> [c' [xs [i' [H1 [H2 _]]]]]].
      apply (reps_ev a i c' xs i' (den_lib env a EL) IHa H1 Hp). exists e. exact H2.
  - pose proof (den_lib env a EL) as L. assert (LF : lib (parser_fn0 (projT2 (den env a)))) by (constructor; auto).
    destruct r as [[x l]|]; cbn [does] in H.
    + destruct H as [i' [H Hr]]. apply (@C09_attempt_success _ _ _ _ LF) in H. apply macro_ok in H. apply ev_try. apply (IHa i c (Some (x, l)) Hp). exists i'. auto.
    + apply (@C09_attempt_failure_complete _ _ _ _ LF) in H; auto. destruct H as [-> [c0 H]]. apply macro_err in H. eapply ev_try_no. apply (IHa i c0 None Hp H).
  - pose proof (@C10_not_followed_by C _ _ (parser_fn0 (projT2 (den env a)))) as [N1 [N2 _]].
    pose proof (@C05_map C _ _ _ (not_followed_by (parser_fn0 (projT2 (den env a)))) (fun _ => @Leaf C) i) as [M1 M2].
    destruct r as [[x l]|]; cbn [does] in H.
    + destruct H as [i' [H <-]]. apply M1 in H. destruct H as [u [H ->]]. apply N1 in H. destruct H as [-> [-> [c0 H]]]. apply macro_err in H.
      eapply ev_not. apply (IHa i c0 None Hp H).
    + destruct H as [e H]. apply M2 in H. assert (H' : fails (fresh (not_followed_by (parser_fn0 (projT2 (den env a))))) i c) by (exists e; auto).
      apply N2 in H'. destruct H' as [-> [c0 [x [i0 H']]]]. apply macro_ok in H'. eapply ev_not_no. apply (IHa i c0 (Some (x, rest i0)) Hp). exists i0. auto.
  - pose proof (@C10_look_ahead C _ _ (projT2 (den env a)) (den_lib env a EL)) as [N1 [N2 _]].
    destruct r as [[x l]|]; cbn [does] in H.
    + destruct H as [i' [H <-]]. apply N1 in H. destruct H as [-> [-> [c0 [i0 H]]]]. eapply ev_look. apply (IHa i c0 (Some (x, rest i0)) Hp). exists i0. auto.
    + destruct H as [e H]. apply N2 in H. apply ev_look_no. apply (IHa i c None Hp). exists e. auto.
  - apply ev_call. apply (EE n i c r Hp H).
Qed.
End Sound.

Theorem grammar_sound : forall k g i c r, ipart i = false -> does (fresh (grammar_parser G by_fn k g)) i c r -> ev g (rest i) c r.
Proof.
  induction k as [|k IH]; intros g; apply (sound _ (rules_lib _)); intros n i c r Hp H.
  - cbn [GrammarSpec.rules] in H. exfalso. destruct r as [[x l]|]; cbn [does] in H; [destruct H as [i' [H _]]|destruct H as [e [r0 [j [H _]]]]];
      unfold succeeds in H; rewrite fresh_fn in H; discriminate.
  - apply rules_does in H. exact (IH (G n) i c r Hp H).
Qed.

Lemma many_reps_length k a i c xs i' : reps (succeeds (fresh (grammar_parser G by_fn k a))) i c xs i' -> ipart i = false ->
  (exists c r, ev (GMany a) (rest i) c r) -> length xs + length (rest i') <= length (rest i).
Proof.
  intros R. induction R as [i|i c1 x i1 c2 xs i' H1 R IHR]; intros Hp [c [r Hm]]; [cbn; lia|].
  assert (Q : ev a (rest i) c1 (Some (x, rest i1))) by (apply (grammar_sound k a i c1 (Some (x, rest i1)) Hp); exists i1; auto).
  assert (Hp1 : ipart i1 = false) by (exact (still _ _ _ _ _ (den_lib _ _ (rules_lib k)) H1 Hp)).
  assert (Hs : length (rest i1) < length (rest i)) by (apply (ev_shorter _ _ _ _ _ _ Q); intros E0; rewrite E0 in Q; exact (ev_many_consumes _ _ _ _ _ Hm _ _ Q)).
  assert (Hm1 : exists c r, ev (GMany a) (rest i1) c r).
  { inversion Hm; subst; try (match goal with [X : ev a (rest i) _ None |- _] => destruct (ev_det _ _ _ _ _ Q _ _ X); discriminate end);
      match goal with [X : ev a (rest i) _ (Some _), Y : ev (GMany a) _ _ _ |- _] => destruct (ev_det _ _ _ _ _ Q _ _ X) as [_ E0]; injection E0 as -> ->; eauto end. }
  specialize (IHR Hp1 Hm1). cbn [length]. lia.
Qed.

Definition enough (g : gram) (l : list T) (c : bool) (r : option (tree * list T)) (k0 : nat) : Prop :=
  forall k, k0 <= k -> forall i, rest i = l -> ipart i = false -> length l < fuel C -> does (fresh (grammar_parser G by_fn k g)) i c r.
Lemma does_iff {S S2} (p : parser C S tree) (q : parser C S2 tree) i c r : fresh p i = fresh q i -> does (fresh p) i c r -> does (fresh q) i c r.
Proof. unfold does, succeeds, fails, fails_with. intros ->. auto. Qed.
Lemma grammar_complete : forall g l c r, ev g l c r -> exists k0, enough g l c r k0.
Proof.
  induction 1.
  - exists 0. intros k _ i Hi Hp Hf. change (does (fresh (map (satisfy f) Tok)) i true (Some (Tok t, l))).
    destruct (@C02_satisfy C f true i tt) as [H1 _]. destruct (H1 t l t Hi (conj eq_refl H)) as [i' [K1 [K2 _]]].
    exists i'. split; [|rewrite Hi in K2; cbn in K2; congruence]. apply (proj1 (@C05_map C _ _ _ (satisfy f) Tok i)). exists t. split; auto.
    unfold succeeds, fresh. change (p_init (satisfy f)) with tt. rewrite K1. reflexivity.
  - exists 0. intros k _ i Hi Hp Hf. change (does (fresh (map (satisfy f) Tok)) i false None).
    destruct (@C02_satisfy C f true i tt) as [_ [H2 _]]. destruct (H2 t l Hi) as [i' K]; [intros r0 [_ E0]; congruence|].
    eexists. apply (proj2 (@C05_map C _ _ _ (satisfy f) Tok i)). unfold fails_with, fresh. change (p_init (satisfy f)) with tt. rewrite K.
    eexists _, _. split; [reflexivity|split; reflexivity].
  - exists 0. intros k _ i Hi Hp Hf. change (does (fresh (map (satisfy f) Tok)) i false None).
    destruct (@C02_satisfy C f true i tt) as [_ [_ [H3 _]]]. specialize (H3 Hi Hp).
    eexists. apply (proj2 (@C05_map C _ _ _ (satisfy f) Tok i)). unfold fails_with, fresh. change (p_init (satisfy f)) with tt. rewrite H3.
    eexists _, _. split; [reflexivity|split; reflexivity].
  - exists 0. intros k _ i Hi Hp Hf. exists i. split; [reflexivity|auto].
  - (* seq *) destruct IHev1 as [k1 K1], IHev2 as [k2 K2]. exists (max k1 k2). intros k Hk i Hi Hp Hf.
    destruct (K1 k ltac:(lia) i Hi Hp Hf) as [i1 [Q1 R1]].
    pose proof (still _ _ _ _ _ (den_lib _ _ (rules_lib k)) Q1 Hp) as Hp1.
    destruct (K2 k ltac:(lia) i1 R1 Hp1) as [i2 [Q2 R2]]; [pose proof (ev_le _ _ _ _ _ H); lia|].
    exists i2. split; auto. apply (proj1 (@C05_map C _ _ _ (pair2 (grammar_parser G by_fn k a) (grammar_parser G by_fn k b)) (fun x => Both (fst x) (snd x)) i)).
    exists (x, y). split; auto. apply (@C05_pair C _ _ _ _ (grammar_parser G by_fn k a) (grammar_parser G by_fn k b)). exists c1, x, i1, c2, y. auto.
  - destruct IHev as [k1 K1]. exists k1. intros k Hk i Hi Hp Hf. pose proof (K1 k Hk i Hi Hp Hf) as Q1. cbn [does] in *.
    assert (F : fails (fresh (pair2 (grammar_parser G by_fn k a) (grammar_parser G by_fn k b))) i c) by (apply (@C05_pair C _ _ _ _ (grammar_parser G by_fn k a) (grammar_parser G by_fn k b)); left; exact Q1).
    destruct F as [e F]. exists e. apply (proj2 (@C05_map C _ _ _ (pair2 (grammar_parser G by_fn k a) (grammar_parser G by_fn k b)) (fun x => Both (fst x) (snd x)) i)). exact F.
  - destruct IHev1 as [k1 K1], IHev2 as [k2 K2]. exists (max k1 k2). intros k Hk i Hi Hp Hf.
    destruct (K1 k ltac:(lia) i Hi Hp Hf) as [i1 [Q1 R1]].
    pose proof (still _ _ _ _ _ (den_lib _ _ (rules_lib k)) Q1 Hp) as Hp1.
    assert (Q2 : does (fresh (grammar_parser G by_fn k b)) i1 c2 None) by (apply (K2 k); auto; [lia|pose proof (ev_le _ _ _ _ _ H); lia]).
    assert (F : fails (fresh (pair2 (grammar_parser G by_fn k a) (grammar_parser G by_fn k b))) i (c1 || c2)).
    { apply (@C05_pair C _ _ _ _ (grammar_parser G by_fn k a) (grammar_parser G by_fn k b)). right. exists c1, x, i1, c2. auto. }
    destruct F as [e F]. exists e. apply (proj2 (@C05_map C _ _ _ (pair2 (grammar_parser G by_fn k a) (grammar_parser G by_fn k b)) (fun x => Both (fst x) (snd x)) i)). exact F.
  - (* alt *) destruct IHev as [k1 K1]. exists k1. intros k Hk i Hi Hp Hf. pose proof (K1 k Hk i Hi Hp Hf) as Q1. destruct x as [x l1].
    destruct Q1 as [i' [Q1 R1]]. exists i'. split; auto. apply (@C06_or C _ _ _ (grammar_parser G by_fn k a) (grammar_parser G by_fn k b)). apply chosen_here; auto. destruct c; reflexivity.
  - destruct IHev as [k1 K1]. exists k1. intros k Hk i Hi Hp Hf. pose proof (K1 k Hk i Hi Hp Hf) as Q1. destruct Q1 as [e [r0 [j [Q1 [Q2 Q3]]]]].
    exists e, r0, j. split; auto. apply (@C06_or C _ _ _ (grammar_parser G by_fn k a) (grammar_parser G by_fn k b)). apply chosen_here; auto. destruct r0; auto; discriminate.
  - destruct IHev1 as [k1 K1], IHev2 as [k2 K2]. exists (max k1 k2). intros k Hk i Hi Hp Hf.
    pose proof (K1 k ltac:(lia) i Hi Hp Hf) as Q1. pose proof (K2 k ltac:(lia) i Hi Hp Hf) as Q2.
    pose proof (@C06_or C _ _ _ (grammar_parser G by_fn k a) (grammar_parser G by_fn k b)) as [O1 [O2 _]].
    assert (Lt : forall r0 j, fresh (grammar_parser G by_fn k b) i = Done (r0, j) -> backtracks r0 = false -> fresh (or_ (grammar_parser G by_fn k a) (grammar_parser G by_fn k b)) i = Done (r0, j)).
    { intros r0 j Hb Hr. apply O1. destruct Q1 as [e1 [r1 [j1 [Q1 [Q1a Q1b]]]]]. eapply chosen_later; [exact Q1|destruct r1; auto; discriminate|]. apply chosen_here; auto. }
    destruct r as [[x l1]|].
    + destruct Q2 as [i' [Q2 R2]]. exists i'. split; auto. apply Lt; auto. destruct c; reflexivity.
    + destruct c.
      * destruct Q2 as [e [r0 [j [Q2 [Q2a Q2b]]]]]. exists e, r0, j. split; auto. apply Lt; auto. destruct r0; auto; discriminate.
      * apply O2. constructor; [exact Q1|constructor; [exact Q2|constructor]].
  - (* many *) destruct IHev as [k1 K1]. exists k1. intros k Hk i Hi Hp Hf. pose proof (K1 k Hk i Hi Hp Hf) as Q1.
    pose proof (@C28_tidy_history_free _ _ _ _ _ (den_tidy (rules k) a)) as HF.
    exists i. split; auto. apply (proj1 (@C05_map C _ _ _ (many (grammar_parser G by_fn k a)) Items i)). exists []. split; auto.
    apply (@C11_many_succeeds _ _ _ _ HF). split; [constructor|]. split; [exact Q1|cbn; lia].
  - destruct IHev as [k1 K1]. exists k1. intros k Hk i Hi Hp Hf. pose proof (K1 k Hk i Hi Hp Hf) as [e Q1].
    pose proof (@C28_tidy_history_free _ _ _ _ _ (den_tidy (rules k) a)) as HF.
    exists e. apply (proj2 (@C05_map C _ _ _ (many (grammar_parser G by_fn k a)) Items i)). apply (@C11_many_fails _ _ _ _ HF). split; auto.
    exists false, [], i. split; [constructor|]. split; [exact Q1|cbn; lia].
  - destruct IHev1 as [k1 K1], IHev2 as [k2 K2]. exists (max k1 k2). intros k Hk i Hi Hp Hf.
    destruct (K1 k ltac:(lia) i Hi Hp Hf) as [i1 [Q1 R1]]. pose proof (still _ _ _ _ _ (den_lib _ _ (rules_lib k)) Q1 Hp) as Hp1.
    destruct (K2 k ltac:(lia) i1 R1 Hp1) as [i2 [Q2 R2]]; [pose proof (ev_le _ _ _ _ _ H); lia|].
    pose proof (@C28_tidy_history_free _ _ _ _ _ (den_tidy (rules k) a)) as HF.
    apply (proj1 (@C05_map C _ _ _ (many (grammar_parser G by_fn k a)) Items i1)) in Q2. destruct Q2 as [xs' [Q2 E0]]. injection E0 as <-.
    apply (@C11_many_succeeds _ _ _ _ HF) in Q2. destruct Q2 as [Q2 [Q3 _]].
    exists i2. split; auto. apply (proj1 (@C05_map C _ _ _ (many (grammar_parser G by_fn k a)) Items i)). exists (x :: xs). split; auto.
    assert (RR : reps (succeeds (fresh (grammar_parser G by_fn k a))) i (c1 || c2) (x :: xs) i2) by (econstructor; eauto).
    apply (@C11_many_succeeds _ _ _ _ HF). split; [exact RR|]. split; [exact Q3|].
    apply many_reps_length in RR; auto; [rewrite Hi in RR; lia|]. rewrite Hi. eexists _, _. eapply ev_many_more; eauto.
  - destruct IHev1 as [k1 K1], IHev2 as [k2 K2]. exists (max k1 k2). intros k Hk i Hi Hp Hf.
    destruct (K1 k ltac:(lia) i Hi Hp Hf) as [i1 [Q1 R1]]. pose proof (still _ _ _ _ _ (den_lib _ _ (rules_lib k)) Q1 Hp) as Hp1.
    assert (Q2 : does (fresh (grammar_parser G by_fn k (GMany a))) i1 true None) by (apply (K2 k); auto; [lia|pose proof (ev_le _ _ _ _ _ H); lia]).
    pose proof (@C28_tidy_history_free _ _ _ _ _ (den_tidy (rules k) a)) as HF. destruct Q2 as [e Q2].
    apply (proj2 (@C05_map C _ _ _ (many (grammar_parser G by_fn k a)) Items i1)) in Q2.
    apply (@C11_many_fails _ _ _ _ HF) in Q2. destruct Q2 as [_ [c' [xs [i2 [Q2 [Q3 _]]]]]].
    exists e. apply (proj2 (@C05_map C _ _ _ (many (grammar_parser G by_fn k a)) Items i)). apply (@C11_many_fails _ _ _ _ HF). split; auto.
    assert (RR : reps (succeeds (fresh (grammar_parser G by_fn k a))) i (c1 || c') (x :: xs) i2) by (econstructor; eauto).
    exists (c1 || c'), (x :: xs), i2. split; [exact RR|]. split; [exact Q3|].
    apply many_reps_length in RR; auto; [rewrite Hi in RR; lia|]. rewrite Hi. eexists _, _. eapply ev_many_fails; eauto.
  - (* try *) destruct IHev as [k1 K1]. exists k1. intros k Hk i Hi Hp Hf. pose proof (K1 k Hk i Hi Hp Hf) as Q1. destruct x as [x l1]. destruct Q1 as [i' [Q1 R1]].
    exists i'. split; auto. apply C09_attempt_success; [apply lib_parser_fn0, den_lib, rules_lib|]. apply call_macro. exact Q1.
  - destruct IHev as [k1 K1]. exists k1. intros k Hk i Hi Hp Hf. pose proof (K1 k Hk i Hi Hp Hf) as Q1.
    apply C09_attempt_failure_complete; [apply lib_parser_fn0, den_lib, rules_lib|exact Hp|]. split; auto. exists c. apply call_macro. exact Q1.
  - destruct IHev as [k1 K1]. exists k1. intros k Hk i Hi Hp Hf. pose proof (K1 k Hk i Hi Hp Hf) as Q1.
    exists i. split; auto. apply (proj1 (@C05_map C _ _ _ (not_followed_by (parser_fn0 (grammar_parser G by_fn k a))) (fun _ => @Leaf C) i)). exists tt. split; auto.
    apply C10_not_followed_by. split; auto. split; auto. exists c. apply call_macro. exact Q1.
  - destruct IHev as [k1 K1]. exists k1. intros k Hk i Hi Hp Hf. pose proof (K1 k Hk i Hi Hp Hf) as Q1. destruct x as [x l1]. destruct Q1 as [i' [Q1 R1]].
    assert (F : fails (fresh (not_followed_by (parser_fn0 (grammar_parser G by_fn k a)))) i false).
    { apply C10_not_followed_by. split; auto. exists c, x, i'. apply call_macro. exact Q1. }
    destruct F as [e F]. exists e. apply (proj2 (@C05_map C _ _ _ (not_followed_by (parser_fn0 (grammar_parser G by_fn k a))) (fun _ => @Leaf C) i)). exact F.
  - destruct IHev as [k1 K1]. exists k1. intros k Hk i Hi Hp Hf. pose proof (K1 k Hk i Hi Hp Hf) as Q1. destruct Q1 as [i' [Q1 R1]].
    exists i. split; auto. apply C10_look_ahead; [apply den_lib, rules_lib|]. split; auto. split; auto. exists c, i'. exact Q1.
  - destruct IHev as [k1 K1]. exists k1. intros k Hk i Hi Hp Hf. pose proof (K1 k Hk i Hi Hp Hf) as [e Q1].
    exists e. apply C10_look_ahead; [apply den_lib, rules_lib|exact Q1].
  - destruct IHev as [k1 K1]. exists (Datatypes.S k1). intros k Hk i Hi Hp Hf. destruct k as [|k]; [lia|].
    change (does (fresh (rules (Datatypes.S k) n)) i c r). apply rules_does. apply (K1 k); auto. lia.
Qed.
End G.

(** * Through [parse] *)
Lemma parse_ok {S A} (p : parser C S A) i a i' : lib p -> (parse p i = Done (inl a, i') <-> exists c, succeeds (fresh p) i c a i').
Proof.
  intros L. pose proof (lib_agree _ _ _ L) as [_ _ HS]. specialize (HS i). unfold parse, succeeds.
  destruct (fresh p i) as [[r j]| |], (p_stream p i) as [[r2 j2]| |]; try destruct HS; cbn [omap fst snd].
  2,3: split; [discriminate|intros [c K]; discriminate].
  destruct H0 as [H1 H2]. unfold shape in H. injection H as Hc Hv. split.
  - intros Q. injection Q as Q1 Q2. subst j2.
    assert (V : value_of r2 = Some a) by (destruct r2; cbn in *; congruence). rewrite V in Hv.
    assert (O : is_ok r = true) by (destruct r; cbn in *; congruence). destruct (H1 O) as [-> ->]. exists (committed r). destruct r; cbn in *; congruence.
  - intros [c Q]. injection Q as -> ->. destruct (H1 (okr_is_ok _ _)) as [-> ->]. destruct c; reflexivity.
Qed.
Lemma parse_err {S A} (p : parser C S A) i : lib p -> ((exists e i', parse p i = Done (inr e, i')) <-> exists c, fails (fresh p) i c).
Proof.
  intros L. pose proof (lib_agree _ _ _ L) as [_ _ HS]. specialize (HS i). unfold parse, fails, fails_with.
  destruct (fresh p i) as [[r j]| |], (p_stream p i) as [[r2 j2]| |]; try destruct HS; cbn [omap fst snd].
  2,3: split; [intros [e [i' K]]; discriminate|intros [c [e [r [j [K _]]]]]; discriminate].
  destruct H0 as [H1 H2]. unfold shape in H. injection H as Hc Hv. split.
  - intros [e [i' Q]]. injection Q as Q1 Q2. exists (committed r).
    assert (V : value_of r2 = None) by (destruct r2; cbn in *; congruence). rewrite V in Hv.
    destruct r; cbn in Hv; try discriminate; eexists _, _, _; (split; [reflexivity|split; reflexivity]).
  - intros [c [e [r0 [i' [Q [Q1 Q2]]]]]]. injection Q as <- <-.
    assert (V : value_of r2 = None) by (destruct r; cbn in *; congruence).
    destruct r2; cbn in V; try discriminate; eexists _, _; reflexivity.
Qed.

Section Whole.
Variable G : nat -> gram.
Variable by_fn : nat -> bool.
Lemma grammar_lib k g : lib (grammar_parser G by_fn k g).
Proof. apply den_lib, rules_lib. Qed.
Lemma complete_iff g i c r : ipart i = false -> length (rest i) < fuel C -> ev G g (rest i) c r ->
  exists k0, forall k, k0 <= k -> does (fresh (grammar_parser G by_fn k g)) i c r.
Proof. intros Hp Hf H. destruct (grammar_complete G by_fn g _ _ _ H) as [k0 K]. exists k0. intros k Hk. apply (K k Hk i eq_refl Hp Hf). Qed.
Lemma total_returns nu rank g i : well_founded_grammar G nu rank -> loops_consume nu g -> ipart i = false -> length (rest i) < fuel C ->
  exists k0 c r, forall k, k0 <= k -> does (fresh (grammar_parser G by_fn k g)) i c r.
Proof.
  intros WF HL Hp Hf. destruct (total G nu rank WF g (rest i) HL) as [c [r H]]. destruct (complete_iff g i c r Hp Hf H) as [k0 K]. exists k0, c, r. exact K.
Qed.
Lemma ll1_loops nu fi fo (g : gram) : forall fol, ll1 nu fi fo fol g -> loops_consume nu g.
Proof. induction g; cbn; intros fol H; intuition eauto. Qed.
Lemma ll1_wf nu fi fo rank : ll1_grammar G nu fi fo rank -> well_founded_grammar G nu rank.
Proof. intros H n. destruct (H n) as [H1 [H2 [H3 H4]]]. split; [congruence|]. split; auto. eapply ll1_loops; eauto. Qed.

Lemma whole_ok k g i t : lawful C -> ipart i = false ->
  ((exists i', parse (skip (grammar_parser G by_fn k g) eof) i = Done (inl t, i')) <-> exists c, does (fresh (grammar_parser G by_fn k g)) i c (Some (t, []))).
Proof.
  intros LW Hp. assert (L : lib (skip (grammar_parser G by_fn k g) eof)) by (constructor; [apply grammar_lib|constructor]).
  pose proof (@C05_skip C _ _ _ _ (grammar_parser G by_fn k g) eof) as [S1 _]. split.
  - intros [i' H]. apply (parse_ok _ _ _ _ L) in H. destruct H as [c H]. apply S1 in H. destruct H as [c1 [a [i1 [c2 [u [H1 [H2 [-> ->]]]]]]]].
    exists c1, i1. split; auto. destruct (@C02_eof C LW true i1 tt) as [E1 E2]. destruct (rest i1) as [|y l] eqn:Er; auto. exfalso.
    unfold succeeds, fresh in H2. change (p_init eof) with tt in H2. rewrite E2 in H2 by discriminate. cbn in H2. destruct c2; discriminate.
  - intros [c [i1 [H1 H2]]]. exists i1. apply (parse_ok _ _ _ _ L). exists (c || false). apply S1. exists c, t, i1, false, tt. split; auto. split; auto.
    destruct (@C02_eof C LW true i1 tt) as [E1 _]. unfold succeeds, fresh. change (p_init eof) with tt. rewrite E1; auto.
Qed.
Lemma whole_returns k g i c r : lawful C -> does (fresh (grammar_parser G by_fn k g)) i c r ->
  exists x, parse (skip (grammar_parser G by_fn k g) eof) i = Done x.
Proof.
  intros LW K. assert (L : lib (skip (grammar_parser G by_fn k g) eof)) by (constructor; [apply grammar_lib|constructor]).
  pose proof (@C05_skip C _ _ _ _ (grammar_parser G by_fn k g) eof) as [S1 S2]. destruct r as [[t l]|].
  - destruct K as [i1 [K1 K2]]. destruct (@C02_eof C LW true i1 tt) as [E1 E2]. destruct l as [|y l].
    + assert (Q : parse (skip (grammar_parser G by_fn k g) eof) i = Done (inl t, i1)); [|eauto].
      apply (parse_ok _ _ _ _ L). exists (c || false). apply S1. exists c, t, i1, false, tt. split; auto. split; auto.
      unfold succeeds, fresh. change (p_init eof) with tt. rewrite E1; auto.
    + assert (Q : exists c, fails (fresh (skip (grammar_parser G by_fn k g) eof)) i c).
      { exists (c || false). apply S2. right. exists c, t, i1, false. split; auto. split; auto.
        eexists. unfold fails_with, fresh. change (p_init eof) with tt. rewrite E2 by congruence. eexists _, _. split; [reflexivity|split; reflexivity]. }
      apply (parse_err _ _ L) in Q. destruct Q as [e [i' Q]]. eauto.
  - assert (Q : exists c, fails (fresh (skip (grammar_parser G by_fn k g) eof)) i c) by (exists c; apply S2; left; exact K).
    apply (parse_err _ _ L) in Q. destruct Q as [e [i' Q]]. eauto.
Qed.
Lemma whole_ll1 nu fi fo rank fol g i : lawful C -> ll1_grammar G nu fi fo rank -> ll1 nu fi fo fol g -> ipart i = false -> length (rest i) < fuel C ->
  exists k0, forall k, k0 <= k ->
    (forall t, (exists i', parse (skip (grammar_parser G by_fn k g) eof) i = Done (inl t, i')) <-> derives G g (rest i) t) /\
    exists x, parse (skip (grammar_parser G by_fn k g) eof) i = Done x.
Proof.
  intros LW LL HL Hp Hf. destruct (total_returns nu rank g i (ll1_wf _ _ _ _ LL) (ll1_loops _ _ _ _ _ HL) Hp Hf) as [k0 [c [r K]]].
  exists k0. intros k Hk. specialize (K k Hk). split.
  - intros t. rewrite whole_ok by auto. split.
    + intros [c1 H]. apply grammar_sound in H; auto. destruct (ll1_exact G nu fi fo rank LL g fol (rest i) t [] HL I) as [X _].
      destruct (X c1 H) as [w [E0 D]]. rewrite app_nil_r in E0. subst w. exact D.
    + intros D. destruct (ll1_exact G nu fi fo rank LL g fol (rest i) t [] HL I) as [_ X]. specialize (X (rest i) (eq_sym (app_nil_r _)) D).
      pose proof (grammar_sound G by_fn k g i c r Hp K) as K'. destruct (ev_det _ _ _ _ _ K' _ _ X) as [-> ->]. exists (some (rest i)). exact K.
  - apply (whole_returns k g i c r); auto.
Qed.
End Whole.
End Link.

