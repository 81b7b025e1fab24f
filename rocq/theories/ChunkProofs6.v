(** Proofs for C29: repetition. *)
From Coq Require Import String List Bool Arith NArith Lia.
Import ListNotations.
From Verif Require Import Base Parser Token Combinator Sequence Choice Repeat RangeP Spec SeqSpec ChoiceSpec TidySpec RepeatSpec AgreeSpec.
From Verif Require Import ResultProofs SeqProofs CombProofs ChoiceProofs CombProofs2 RepeatProofs ChunkSpec ChunkProofs ChunkProofs2 ChunkProofs3 ChunkProofs4.
Unset Implicit Arguments.

Section RepeatChunk.
Context {C : Cfg}.
Notation T := (tok C).
Notation E := (Err C).
Notation nonempty := consumed_some.

(** The elements [vs] one after the other on [w], whatever follows [tail]. *)
Inductive chain {A} (f : bool) (b : @beh C A) : Pos C -> list T -> list T -> list A -> Prop :=
| chain_nil : forall pos tail, chain f b pos [] tail []
| chain_cons : forall pos a w tail v vs, always_ok f b pos a (w ++ tail) v -> chain f b (pos_after pos a) w tail vs ->
    chain f b pos (a ++ w) tail (v :: vs).

Lemma chain_ext {A} f (b : @beh C A) pos w tail vs x : chain true b pos w tail vs -> chain f b pos w (tail ++ x) vs.
Proof.
  intros H. induction H as [|pos a w tail v vs H1 H2 IH]; constructor; auto. rewrite app_assoc. apply always_ok_ext. exact H1.
Qed.
Lemma chain_app {A} f (b : @beh C A) pos w w' tail vs vs' : chain f b pos w (w' ++ tail) vs -> chain f b (pos_after pos w) w' tail vs' ->
  chain f b pos (w ++ w') tail (vs ++ vs').
Proof.
  intros H. remember (w' ++ tail) as z. revert Heqz. induction H as [|pos a w z v vs H1 H2 IH]; simpl; intros -> H; auto.
  rewrite <- app_assoc. constructor.
  - rewrite <- app_assoc. exact H1.
  - apply IH; auto. rewrite pos_after_app in H. exact H.
Qed.
Lemma chain_one {A} f (b : @beh C A) pos w tail v : always_ok f b pos w tail v -> chain f b pos w tail [v].
Proof. intros H. rewrite <- (app_nil_r w). constructor; [exact H|constructor]. Qed.

Lemma chain_det {A} f (b : @beh C A) pos w tail vs c0 : chain f b pos w tail vs -> always_err f b (pos_after pos w) tail c0 ->
  forall m, exts f m -> forall c l i' c1, reps (succeeds b) (Inp (w ++ tail ++ m) pos false) c l i' -> fails b i' c1 ->
  l = vs /\ c = nonempty w /\ i' = Inp (tail ++ m) (pos_after pos w) false /\ c1 = c0.
Proof.
  intros H. induction H as [pos tail|pos a w tail v vs H1 H2 IH]; intros HE m Hm c l i' c1 HR HF.
  - simpl in *. destruct (fails_inv _ _ _ HF) as [r [j [F1 [F2 [F3 F4]]]]]. inversion HR as [i0 Q|i0 c2 v i1 c' l' i2 Q1 Q2]; subst.
    + destruct (HE m Hm _ _ F1) as [_ K]. auto.
    + destruct (HE m Hm _ _ Q1) as [K _]. rewrite okr_is_ok in K. discriminate.
  - rewrite <- app_assoc in HR. inversion HR as [i0 Q|i0 c2 v2 i1 c' l' i2 Q1 Q2]; subst.
    + destruct (fails_inv _ _ _ HF) as [r [j [F1 [F2 [F3 F4]]]]]. rewrite (app_assoc w) in F1. destruct (H1 m Hm _ _ F1) as [K _]. subst r.
      rewrite okr_is_ok in F2. discriminate.
    + unfold succeeds in Q1. rewrite (app_assoc w) in Q1. destruct (H1 m Hm _ _ Q1) as [K1 K2]. apply okr_inj in K1. destruct K1 as [-> ->]. subst i1.
      rewrite <- app_assoc in Q2. rewrite pos_after_app in HE. destruct (IH HE m Hm _ _ _ _ Q2 HF) as [K3 [K4 [K5 K6]]]. subst.
      rewrite nonempty_app, pos_after_app. auto.
Qed.

Section Iter.
Context {S A : Type} (a n h : bool) (Cln : bool -> S -> Prop) (Res : bool -> Pos C -> list T -> list T -> S -> Prop) (p : parser C S A).
Hypothesis H : chunk_by true a n h Cln Res p.
Notation b := (fresh p).

Definition iout (m : nat) (f cb : bool) (pos : Pos C) (l r : list T) (out : list A * iter_state * bool * input C * S) : Prop :=
  match out with (els, is, c', i', s') =>
    match is with
    | ISOk => False
    | ISPeek _ => exists r1, r = r1 ++ rest i' /\ i' = Inp (rest i') (pos_after (pos_after pos l) r1) f /\
        chain f b pos (l ++ r1) (rest i') els /\ always_err f b (pos_after pos (l ++ r1)) (rest i') false /\ Cln f s' /\
        (l = [] -> c' = cb || nonempty r1) /\ (f = true -> r <> [])
    | ISCommit e =>
        (f = true /\ e_is_eoi C e = true /\ exists r1, r = r1 ++ rest i' /\ i' = Inp (rest i') (pos_after (pos_after pos l) r1) f /\
           exists w1 l2, l ++ r1 = w1 ++ l2 /\ m <= length w1 /\ chain true b pos w1 (l2 ++ rest i') els /\ forall g, Res g (pos_after pos w1) l2 (rest i') s') \/
        ((f = true -> e_is_eoi C e = false /\ (h = true -> r <> [])) /\
         exists w1 w2, l ++ r = w1 ++ w2 /\ chain f b pos w1 w2 els /\ always_err f b (pos_after pos w1) w2 true)
    end
  end.

Lemma iout_shift m f cb c pos l0 q rr w1 l2 els0 els is c' i' s' :
  m <= length w1 -> l0 ++ q = w1 ++ l2 -> (l0 = [] -> l2 = [] /\ c = cb || nonempty q) -> chain f b pos w1 (l2 ++ rr) els0 ->
  iout 0 f c (pos_after pos w1) l2 rr (els, is, c', i', s') -> iout m f cb pos l0 (q ++ rr) (els0 ++ els, is, c', i', s').
Proof.
  intros HM HL HC HA HO. unfold iout in *. destruct is as [|e|e]; [exact HO| |].
  - destruct HO as [r1 [O1 [O2 [O3 [O4 [O5 [O6 O7]]]]]]]. exists (q ++ r1). split; [rewrite O1, app_assoc; reflexivity|].
    split; [rewrite O2 at 1; f_equal; rewrite <- !pos_after_app; f_equal; rewrite !app_assoc, HL; reflexivity|].
    rewrite app_assoc, HL, <- app_assoc.
    split; [apply chain_app; [rewrite <- app_assoc, <- O1; exact HA|exact O3]|]. split; [rewrite pos_after_app; exact O4|]. split; [exact O5|].
    split; [intros Hl; destruct (HC Hl) as [K1 K2]; rewrite (O6 K1), K2, nonempty_app, orb_assoc; reflexivity|].
    intros Hf Hn. apply app_eq_nil in Hn. apply (O7 Hf). apply Hn.
  - destruct HO as [[O1 [O2 [r1 [O3 [O4 [w2 [l3 [O5 [O5' [O6 O7]]]]]]]]]]|[O1 [w2 [w3 [O2 [O3 O4]]]]]].
    + left. split; [exact O1|]. split; [exact O2|]. exists (q ++ r1). split; [rewrite O3, app_assoc; reflexivity|].
      split; [rewrite O4 at 1; f_equal; rewrite <- !pos_after_app; f_equal; rewrite !app_assoc, HL; reflexivity|].
      exists (w1 ++ w2), l3. split; [rewrite app_assoc, HL, <- !app_assoc; f_equal; exact O5|].
      split; [rewrite app_length; lia|]. split; [|intros g; rewrite pos_after_app; apply O7]. subst f.
      apply chain_app; [|exact O6]. rewrite app_assoc, <- O5, <- app_assoc, <- O3. exact HA.
    + right. split.
      * intros Hf. destruct (O1 Hf) as [K1 K2]. split; [exact K1|]. intros Hh Hn. apply app_eq_nil in Hn. apply (K2 Hh). apply Hn.
      * exists (w1 ++ w2), w3. split; [rewrite app_assoc, HL, <- !app_assoc; f_equal; exact O2|]. split; [|rewrite pos_after_app; exact O4].
        apply chain_app; [|exact O3]. rewrite <- O2. exact HA.
Qed.

Lemma iter_all_out f : forall fuel first cb pos l k r' s, started Cln Res f first pos l k s -> forall out,
  iter_all fuel p first cb (Inp (k ++ r') (pos_after pos l) f) s = Done out -> iout 0 f cb pos l (k ++ r') out.
Proof.
  induction fuel as [|fuel IH]; intros first cb pos l k r' s St out E0; [discriminate|]. simpl in E0.
  destruct (p_run p first (Inp (k ++ r') (pos_after pos l) f) s) as [[[r i1] s1]| |] eqn:E1; try discriminate.
  pose proof (cb_run H _ _ _ _ _ _ _ St _ E1) as F. simpl in E0. unfold fits in F. destruct r as [v|v|e|e].
  - destruct F as [[r1 [F1 [F2 [F3 F4]]]] [F5 F6]]. destruct (iter_all fuel p true true i1 s1) as [[[[[els is] c'] i'] s']| |] eqn:E2; try discriminate.
    inversion E0; subst out. rewrite F1. apply (iout_shift 0 f cb true pos l r1 (rest i1) (l ++ r1) [] [v]).
    + apply Nat.le_0_l.
    + rewrite app_nil_r. reflexivity.
    + intros Hl. split; [reflexivity|]. rewrite <- (F4 Hl). simpl. rewrite orb_true_r. reflexivity.
    + apply chain_one. exact F3.
    + rewrite F2, <- pos_after_app in E2. apply (IH true true (pos_after pos (l ++ r1)) [] [] (rest i1) s1); [|exact E2]. simpl. auto.
  - destruct F as [[r1 [F1 [F2 [F3 F4]]]] [F5 F6]]. destruct (iter_all fuel p true cb i1 s1) as [[[[[els is] c'] i'] s']| |] eqn:E2; try discriminate.
    inversion E0; subst out. rewrite F1. apply (iout_shift 0 f cb cb pos l r1 (rest i1) (l ++ r1) [] [v]).
    + apply Nat.le_0_l.
    + rewrite app_nil_r. reflexivity.
    + intros Hl. split; [reflexivity|]. rewrite <- (F4 Hl). simpl. rewrite orb_false_r. reflexivity.
    + apply chain_one. exact F3.
    + rewrite F2, <- pos_after_app in E2. apply (IH true cb (pos_after pos (l ++ r1)) [] [] (rest i1) s1); [|exact E2]. simpl. auto.
  - inversion E0; subst out. unfold iout. destruct F as [[F1 [F2 [r1 [F3 [F4 [F5 F6]]]]]]|[F1 F2]].
    + left. split; [exact F1|]. split; [exact F2|]. exists r1. split; [exact F3|]. split; [exact F4|]. exists [], (l ++ r1). split; [reflexivity|].
      split; [apply Nat.le_0_l|]. split; [constructor|]. exact F6.
    + right. split; [exact F1|]. exists [], (l ++ k ++ r'). split; [reflexivity|]. split; [constructor|]. exact F2.
  - inversion E0; subst out. unfold iout. destruct F as [F1 [F2 [F3 [F4 F5]]]]. destruct F3 as [F3|F3]; [|discriminate]. subst l. simpl in *.
    exists []. simpl. split; [reflexivity|]. split; [reflexivity|]. split; [constructor|]. split; [exact F5|]. split; [apply F4; reflexivity|].
    split; [intros _; rewrite orb_false_r; reflexivity|]. intros Hf. apply F2. exact Hf.
Qed.

Hypothesis HF : history_free false p.

Lemma many_always_ok f pos w tail vs : chain f b pos w tail vs -> always_err f b (pos_after pos w) tail false ->
  always_ok f (fresh (many p)) pos w tail vs.
Proof.
  intros HC HE m Hm r i' Q. destruct (value_of r) as [l|] eqn:V.
  - pose proof (okr_value _ _ V) as O. rewrite O in Q. apply (many_ok p HF) in Q. destruct Q as [Q1 [Q2 _]].
    destruct (chain_det _ _ _ _ _ _ _ HC HE m Hm _ _ _ _ Q1 Q2) as [K1 [K2 [K3 _]]]. subst. rewrite <- K2. auto.
  - assert (Hn : is_ok r = false) by (rewrite value_ok, V; reflexivity). destruct (fails_done _ _ _ _ Q Hn) as [e Fe]. apply (many_fails p HF) in Fe.
    destruct Fe as [_ [c' [l [i2 [Q1 [Q2 _]]]]]]. assert (Q3 : fails b i2 true) by (exists e; exact Q2).
    destruct (chain_det _ _ _ _ _ _ _ HC HE m Hm _ _ _ _ Q1 Q3) as [_ [_ [_ K]]]. discriminate.
Qed.
Lemma many_always_err f pos w tail vs : chain f b pos w tail vs -> always_err f b (pos_after pos w) tail true ->
  always_err f (fresh (many p)) pos (w ++ tail) true.
Proof.
  intros HC HE m Hm r i' Q. rewrite <- app_assoc in Q. destruct (value_of r) as [l|] eqn:V.
  - pose proof (okr_value _ _ V) as O. rewrite O in Q. apply (many_ok p HF) in Q. destruct Q as [Q1 [Q2 _]].
    destruct (chain_det _ _ _ _ _ _ _ HC HE m Hm _ _ _ _ Q1 Q2) as [_ [_ [_ K]]]. discriminate.
  - assert (Hn : is_ok r = false) by (rewrite value_ok, V; reflexivity). split; [exact Hn|].
    destruct (fails_done _ _ _ _ Q Hn) as [e Fe]. apply (many_fails p HF) in Fe. apply Fe.
Qed.

Definition mcln (f : bool) (st : list A * S) : Prop := fst st = [] /\ Cln f (snd st).
Definition mres (f : bool) (pos : Pos C) (l k : list T) (st : list A * S) : Prop :=
  exists w1 l2, l = w1 ++ l2 /\ chain true b pos w1 (l2 ++ k) (fst st) /\ Res f (pos_after pos w1) l2 k (snd st).

Lemma chunk_many : chunk_by true false true h mcln mres (many p).
Proof.
  constructor; simpl; auto; try apply (cb_adderr H).
  - intros f. split; [reflexivity|apply (cb_init H)].
  - intros s [K1 K2]. split; [exact K1|apply (cb_cln H); exact K2].
  - intros f pos s [K1 K2]. exists [], []. rewrite K1. split; [reflexivity|]. split; [constructor|]. apply (cb_res H). exact K2.
  - discriminate.
  - intros f first pos l k r' [els0 s] St out E0. simpl in E0.
    destruct (iter_all (fuel C) p first false (Inp (k ++ r') (pos_after pos l) f) s) as [[[[[els is] c'] i'] s']| |] eqn:E1; try discriminate.
    assert (IO : iout 0 f false pos l (k ++ r') (els0 ++ els, is, c', i', s')).
    { destruct first; simpl in St.
      - destruct St as [K1 [K2 [K3 K4]]]. simpl in K3, K4. subst. change ([] ++ els) with els. apply (iter_all_out f (fuel C) true false pos [] [] r' s); [simpl; auto|exact E1].
      - destruct St as [w1 [l2 [K1 [K2 K3]]]]. simpl in K2, K3. subst l. change (k ++ r') with ([] ++ k ++ r').
        apply (iout_shift 0 f false false pos (w1 ++ l2) [] (k ++ r') w1 l2 els0).
        + apply Nat.le_0_l.
        + rewrite app_nil_r. reflexivity.
        + intros Hl. apply app_eq_nil in Hl. split; [apply Hl|reflexivity].
        + rewrite app_assoc. apply chain_ext. exact K2.
        + rewrite pos_after_app in E1. apply (iter_all_out f (fuel C) false false (pos_after pos w1) l2 k r' s); [exact K3|exact E1]. }
    simpl in E0. unfold iout in IO. destruct is as [|e|e]; [destruct IO| |].
    + destruct IO as [r1 [O1 [O2 [O3 [O4 [O5 [O6 O7]]]]]]]. simpl in E0.
      assert (Fin : (exists r1, k ++ r' = r1 ++ rest i' /\ i' = Inp (rest i') (pos_after (pos_after pos l) r1) f /\
           always_ok f (fresh (many p)) pos (l ++ r1) (rest i') (els0 ++ els) /\ (l = [] -> c' = nonempty r1)) /\
        mcln f ([], s') /\ (h = true -> f = true -> k ++ r' <> [])).
      { split; [|split; [split; [reflexivity|exact O5]|intros _; exact O7]]. exists r1. split; [exact O1|]. split; [exact O2|]. split; [|exact O6].
        apply many_always_ok; assumption. }
      unfold fits. destruct c'; inversion E0; subst out; exact Fin.
    + inversion E0; subst out. unfold fits. destruct IO as [[O1 [O2 [r1 [O3 [O4 [w2 [l3 [O5 [O5' [O6 O7]]]]]]]]]]|[O1 [w2 [w3 [O2 [O3 O4]]]]]].
      * left. split; [exact O1|]. split; [exact O2|]. exists r1. split; [exact O3|]. split; [exact O4|]. split; [discriminate|]. intros g. exists w2, l3.
        simpl. split; [exact O5|]. split; [exact O6|apply O7].
      * right. split; [exact O1|]. rewrite O2. apply (many_always_err _ _ _ _ _ O3 O4).
Qed.

(** * many1 *)
Lemma many1_always_ok f pos w tail vs : vs <> [] -> chain f b pos w tail vs -> always_err f b (pos_after pos w) tail false ->
  always_ok f (fresh (many1 p)) pos w tail vs.
Proof.
  intros HV HC HE m Hm r i' Q. destruct (value_of r) as [l|] eqn:V.
  - pose proof (okr_value _ _ V) as O. rewrite O in Q. apply (many1_ok p HF) in Q. destruct Q as [_ [Q1 [Q2 _]]].
    destruct (chain_det _ _ _ _ _ _ _ HC HE m Hm _ _ _ _ Q1 Q2) as [K1 [K2 [K3 _]]]. subst. rewrite <- K2. auto.
  - assert (Hn : is_ok r = false) by (rewrite value_ok, V; reflexivity). destruct (fails_done _ _ _ _ Q Hn) as [e Fe]. apply (many1_fails p HF) in Fe.
    destruct Fe as [Fe|[_ [c' [l [i2 [_ [Q1 [Q2 _]]]]]]]].
    + inversion HC as [|? a0 w0 ? v vs0 HC1 HC2]; subst; [congruence|]. assert (Fe' : fails b (Inp ((a0 ++ w0) ++ tail ++ m) pos false) (committed r)) by (exists e; exact Fe).
      destruct (fails_inv _ _ _ Fe') as [r3 [i3 [F1 [F2 _]]]]. rewrite <- app_assoc, (app_assoc w0) in F1. destruct (HC1 m Hm _ _ F1) as [K _]. subst r3.
      rewrite okr_is_ok in F2. discriminate.
    + assert (Q3 : fails b i2 true) by (exists e; exact Q2).
      destruct (chain_det _ _ _ _ _ _ _ HC HE m Hm _ _ _ _ Q1 Q3) as [_ [_ [_ K]]]. discriminate.
Qed.
Lemma many1_always_err f pos w tail vs : vs <> [] -> chain f b pos w tail vs -> always_err f b (pos_after pos w) tail true ->
  always_err f (fresh (many1 p)) pos (w ++ tail) true.
Proof.
  intros HV HC HE m Hm r i' Q. rewrite <- app_assoc in Q. destruct (value_of r) as [l|] eqn:V.
  - pose proof (okr_value _ _ V) as O. rewrite O in Q. apply (many1_ok p HF) in Q. destruct Q as [_ [Q1 [Q2 _]]].
    destruct (chain_det _ _ _ _ _ _ _ HC HE m Hm _ _ _ _ Q1 Q2) as [_ [_ [_ K]]]. discriminate.
  - assert (Hn : is_ok r = false) by (rewrite value_ok, V; reflexivity). split; [exact Hn|].
    destruct (fails_done _ _ _ _ Q Hn) as [e Fe]. apply (many1_fails p HF) in Fe. destruct Fe as [Fe|Fe]; [|apply Fe].
    inversion HC as [|? a0 w0 ? v vs0 HC1 HC2]; subst; [congruence|]. assert (Fe' : fails b (Inp ((a0 ++ w0) ++ tail ++ m) pos false) (committed r)) by (exists e; exact Fe).
    destruct (fails_inv _ _ _ Fe') as [r3 [i3 [F1 [F2 _]]]]. rewrite <- app_assoc, (app_assoc w0) in F1. destruct (HC1 m Hm _ _ F1) as [K _]. subst r3.
    rewrite okr_is_ok in F2. discriminate.
Qed.
Lemma many1_always_err0 f pos w c : always_err f b pos w c -> always_err f (fresh (many1 p)) pos w c.
Proof.
  intros HE m Hm r i' Q. destruct (value_of r) as [l|] eqn:V.
  - pose proof (okr_value _ _ V) as O. rewrite O in Q. apply (many1_ok p HF) in Q. destruct Q as [Q0 [Q1 _]].
    inversion Q1 as [i0 Z|i0 c2 v2 i1 c' l' i2 Z1 Z2]; subst; [congruence|]. destruct (HE m Hm _ _ Z1) as [K _]. rewrite okr_is_ok in K. discriminate.
  - assert (Hn : is_ok r = false) by (rewrite value_ok, V; reflexivity). split; [exact Hn|].
    destruct (fails_done _ _ _ _ Q Hn) as [e Fe]. apply (many1_fails p HF) in Fe. destruct Fe as [Fe|[_ [c' [l [i2 [Q0 [Q1 _]]]]]]].
    + assert (Fe' : fails b (Inp (w ++ m) pos false) (committed r)) by (exists e; exact Fe). destruct (fails_inv _ _ _ Fe') as [r3 [i3 [F1 [F2 [F3 _]]]]].
      destruct (HE m Hm _ _ F1) as [_ K]. congruence.
    + inversion Q1 as [i0 Z|i0 c2 v2 i1 c3 l' i3 Z1 Z2]; subst; [congruence|]. destruct (HE m Hm _ _ Z1) as [K _]. rewrite okr_is_ok in K. discriminate.
Qed.

Definition m1cln (f : bool) (st : bool * bool * list A * S) : Prop :=
  match st with (one, _, els, s) => one = false /\ els = [] /\ Cln f s end.
Definition m1res (f : bool) (pos : Pos C) (l k : list T) (st : bool * bool * list A * S) : Prop :=
  match st with (one, cst, els, s) =>
    (one = false /\ els = [] /\ Res f pos l k s) \/
    (one = true /\ els <> [] /\ exists w1 l2, l = w1 ++ l2 /\ (cst = true -> w1 <> []) /\ chain true b pos w1 (l2 ++ k) els /\
       Res f (pos_after pos w1) l2 k s)
  end.

Lemma many1_go f first c pos l0 q rr w1 l2 k r' els0 s out :
  rr = k ++ r' -> l0 ++ q = w1 ++ l2 -> (c = true -> w1 <> []) -> (l0 = [] -> l2 = [] /\ c = nonempty q) -> chain f b pos w1 (l2 ++ rr) els0 -> els0 <> [] ->
  started Cln Res f first (pos_after pos w1) l2 k s ->
  many1_iter p first c (Inp rr (pos_after (pos_after pos w1) l2) f) els0 s = Done out ->
  fits true false n h f m1cln m1res (fresh (many1 p)) pos l0 (q ++ rr) out.
Proof.
  intros HRR HL HCW HC HA HV St E0. subst rr. unfold many1_iter in E0.
  destruct (iter_all (fuel C) p first c (Inp (k ++ r') (pos_after (pos_after pos w1) l2) f) s) as [[[[[els is] c'] i'] s']| |] eqn:E1; try discriminate.
  pose proof (iter_all_out f _ _ _ _ _ _ _ _ St _ E1) as IO. apply (iout_shift (length w1) f false c pos l0 q (k ++ r') w1 l2 els0) in IO; auto.
  assert (HV' : els0 ++ els <> []) by (intros Hn; apply app_eq_nil in Hn; apply HV; apply Hn).
  simpl in E0. unfold iout in IO. destruct is as [|e|e]; [destruct IO| |].
  - destruct IO as [r1 [O1 [O2 [O3 [O4 [O5 [O6 O7]]]]]]]. simpl in E0.
    assert (Fin : (exists r1, q ++ k ++ r' = r1 ++ rest i' /\ i' = Inp (rest i') (pos_after (pos_after pos l0) r1) f /\
         always_ok f (fresh (many1 p)) pos (l0 ++ r1) (rest i') (els0 ++ els) /\ (l0 = [] -> c' = nonempty r1)) /\
      m1cln f (false, c, [], s') /\ (h = true -> f = true -> q ++ k ++ r' <> [])).
    { split; [|split; [simpl; auto|intros _; exact O7]]. exists r1. split; [exact O1|]. split; [exact O2|]. split; [|exact O6].
      apply many1_always_ok; assumption. }
    unfold fits. destruct c'; inversion E0; subst out; exact Fin.
  - inversion E0; subst out. unfold fits. destruct IO as [[O1 [O2 [r1 [O3 [O4 [w2 [l3 [O5 [O5' [O6 O7]]]]]]]]]]|[O1 [w2 [w3 [O2 [O3 O4]]]]]].
    + left. split; [exact O1|]. split; [exact O2|]. exists r1. split; [exact O3|]. split; [exact O4|]. split; [discriminate|]. intros g. simpl. right.
      split; [reflexivity|]. split; [exact HV'|]. exists w2, l3. split; [exact O5|]. split; [|split; [exact O6|apply O7]].
      intros Hc Hn. subst w2. apply (HCW Hc). destruct w1; [reflexivity|simpl in O5'; lia].
    + right. split; [exact O1|]. rewrite O2. apply (many1_always_err _ _ _ _ _ HV' O3 O4).
Qed.

Lemma chunk_many1 : chunk_by true false n h m1cln m1res (many1 p).
Proof.
  constructor; simpl; auto; try apply (cb_adderr H).
  - intros f. repeat split. apply (cb_init H).
  - intros [[[one cst] els] s] [K1 [K2 K3]]. repeat split; auto. apply (cb_cln H); exact K3.
  - intros f pos [[[one cst] els] s] [K1 [K2 K3]]. left. repeat split; auto. apply (cb_res H). exact K3.
  - discriminate.
  - intros f first pos l k r' [[[one cst] els0] s] St out E0.
    assert (Hcase : (one = false /\ els0 = [] /\ started Cln Res f first pos l k s) \/
      (first = false /\ one = true /\ els0 <> [] /\ exists w1 l2, l = w1 ++ l2 /\ (cst = true -> w1 <> []) /\ chain true b pos w1 (l2 ++ k) els0 /\
       Res f (pos_after pos w1) l2 k s)).
    { destruct first; simpl in St.
      - destruct St as [K1 [K2 [K3 [K4 K5]]]]. left. simpl. auto 10.
      - destruct St as [[K1 [K2 K3]]|K]; [left; simpl; auto|right; split; [reflexivity|exact K]]. }
    destruct Hcase as [[K1 [K2 K3]]|[K1 [K2 [K3 [w1 [l2 [K4 [K5 [K6 K7]]]]]]]]].
    + subst one els0. simpl in E0. rewrite ?orb_true_r, ?andb_false_r in E0.
      destruct (p_run p first (Inp (k ++ r') (pos_after pos l) f) s) as [[[r i1] s1]| |] eqn:E1; try discriminate.
      pose proof (cb_run H _ _ _ _ _ _ _ K3 _ E1) as F. unfold fits in F. simpl in E0. destruct r as [v|v|e|e].
      * destruct F as [[r1 [F1 [F2 [F3 F4]]]] [F5 F6]]. rewrite F1. rewrite F2, <- pos_after_app in E0.
        apply (many1_go f true true pos l r1 (rest i1) (l ++ r1) [] [] (rest i1) [v] s1); auto.
        -- rewrite app_nil_r. reflexivity.
        -- intros _ Hn. apply app_eq_nil in Hn. destruct Hn as [Hn1 Hn2]. specialize (F4 Hn1). rewrite Hn2 in F4. discriminate.
        -- apply chain_one. exact F3.
        -- discriminate.
        -- simpl. auto.
      * destruct F as [[r1 [F1 [F2 [F3 F4]]]] [F5 F6]]. rewrite F1. rewrite F2, <- pos_after_app in E0.
        apply (many1_go f true false pos l r1 (rest i1) (l ++ r1) [] [] (rest i1) [v] s1); auto.
        -- rewrite app_nil_r. reflexivity.
        -- discriminate.
        -- apply chain_one. exact F3.
        -- discriminate.
        -- simpl. auto.
      * inversion E0; subst out. unfold fits. destruct F as [[F1 [F2 [r1 [F3 [F4 [F5 F6]]]]]]|[F1 F2]].
        -- left. split; [exact F1|]. split; [exact F2|]. exists r1. split; [exact F3|]. split; [exact F4|]. split; [discriminate|]. intros g. left. auto.
        -- right. split; [exact F1|]. apply many1_always_err0. exact F2.
      * inversion E0; subst out. unfold fits. destruct F as [F1 [F2 [F3 [F4 F5]]]]. split; [exact F1|]. split; [exact F2|]. split; [exact F3|].
        split; [intros Hl; simpl; auto|]. apply many1_always_err0. exact F5.
    + subst first one l. simpl in E0. change (k ++ r') with ([] ++ k ++ r'). rewrite pos_after_app in E0.
      apply (many1_go f false cst pos (w1 ++ l2) [] (k ++ r') w1 l2 k r' els0 s); auto.
      * rewrite app_nil_r. reflexivity.
      * intros Hl. apply app_eq_nil in Hl. destruct Hl as [Hl1 Hl2]. split; [exact Hl2|]. destruct cst; [|reflexivity]. destruct (K5 eq_refl Hl1).
      * rewrite app_assoc. apply chain_ext. exact K6.
Qed.
End Iter.
End RepeatChunk.
