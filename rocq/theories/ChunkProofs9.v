(** Proofs for C29: counted repetition. *)
From Coq Require Import String List Bool Arith NArith Lia.
Import ListNotations.
From Verif Require Import Base Parser Token Combinator Sequence Choice Repeat RangeP Spec SeqSpec ChoiceSpec TidySpec RepeatSpec AgreeSpec.
From Verif Require Import ResultProofs SeqProofs CombProofs ChoiceProofs CombProofs2 RepeatProofs RepeatProofs2 RepeatProofs3 ChunkSpec ChunkProofs ChunkProofs2 ChunkProofs3 ChunkProofs4 ChunkProofs6.
Unset Implicit Arguments.

Section CountChunk.
Context {C : Cfg}.
Notation T := (tok C).
Notation E := (Err C).
Notation nonempty := consumed_some.
Variable EL : eoi_laws C.

Lemma chain_cases {A} f (b : @beh C A) pos w tail vs : chain f b pos w tail vs ->
  forall m, exts f m -> forall c l i', reps (succeeds b) (Inp (w ++ tail ++ m) pos false) c l i' ->
  (length l < length vs /\ forall c1, ~ fails b i' c1) \/
  (l = vs /\ c = nonempty w /\ i' = Inp (tail ++ m) (pos_after pos w) false) \/
  (length vs < length l /\ exists r j, b (Inp (tail ++ m) (pos_after pos w) false) = Done (r, j) /\ is_ok r = true).
Proof.
  intros H. induction H as [pos tail|pos a w tail v vs H1 H2 IH]; intros m Hm c l i' HR.
  - inversion HR as [i0 Q|i0 c2 v i1 c' l' i2 Q1 Q2]; subst; [right; left; auto|]. right. right. split; [cbn; lia|]. exists (okr c2 v), i1. split; [exact Q1|apply okr_is_ok].
  - rewrite <- app_assoc in HR. inversion HR as [i0 Q|i0 c2 v2 i1 c' l' i2 Q1 Q2]; subst.
    + left. split; [cbn; lia|]. intros c1 HF. destruct (fails_inv _ _ _ HF) as [r [j [F1 [F2 _]]]]. rewrite (app_assoc w) in F1. destruct (H1 m Hm _ _ F1) as [K _]. subst r.
      rewrite okr_is_ok in F2. discriminate.
    + unfold succeeds in Q1. rewrite (app_assoc w) in Q1. destruct (H1 m Hm _ _ Q1) as [K1 K2]. apply okr_inj in K1. destruct K1 as [-> ->]. subst i1.
      rewrite <- app_assoc in Q2. destruct (IH m Hm _ _ _ Q2) as [[K3 K4]|[[K3 [K4 K5]]|[K3 K4]]].
      * left. split; [cbn; lia|exact K4].
      * right. left. subst. rewrite nonempty_app, pos_after_app. auto.
      * right. right. split; [cbn; lia|]. rewrite pos_after_app. exact K4.
Qed.

Section Iter.
Context {S A : Type} (a n h : bool) (Cln : bool -> S -> Prop) (Res : bool -> Pos C -> list T -> list T -> S -> Prop) (p : parser C S A).
Hypothesis H : chunk_by true a n h Cln Res p.
Notation b := (fresh p).

Definition tkout (kk : nat) (f cb : bool) (pos : Pos C) (l r : list T) (out : list A * iter_state * bool * input C * S) : Prop :=
  match out with (els, is, c', i', s') =>
    match is with
    | ISOk => length els = kk /\ exists r1, r = r1 ++ rest i' /\ i' = Inp (rest i') (pos_after (pos_after pos l) r1) f /\
        chain f b pos (l ++ r1) (rest i') els /\ Cln f s' /\ (l = [] -> c' = cb || nonempty r1)
    | ISPeek e => length els < kk /\ exists r1, r = r1 ++ rest i' /\ i' = Inp (rest i') (pos_after (pos_after pos l) r1) f /\
        chain f b pos (l ++ r1) (rest i') els /\ always_err f b (pos_after pos (l ++ r1)) (rest i') false /\ Cln f s' /\
        (l = [] -> c' = cb || nonempty r1) /\ (f = true -> r <> [] /\ e_is_eoi C e = false)
    | ISCommit e => length els < kk /\ (
        (f = true /\ e_is_eoi C e = true /\ exists r1, r = r1 ++ rest i' /\ i' = Inp (rest i') (pos_after (pos_after pos l) r1) f /\
           exists w1 l2, l ++ r1 = w1 ++ l2 /\ chain true b pos w1 (l2 ++ rest i') els /\ forall g, Res g (pos_after pos w1) l2 (rest i') s') \/
        ((f = true -> e_is_eoi C e = false /\ (h = true -> r <> [])) /\
         exists w1 w2, l ++ r = w1 ++ w2 /\ chain f b pos w1 w2 els /\ always_err f b (pos_after pos w1) w2 true))
    end
  end.

Lemma tkout_shift kk f cb c pos l0 q rr w1 l2 els0 els is c' i' s' :
  l0 ++ q = w1 ++ l2 -> (l0 = [] -> l2 = [] /\ c = cb || nonempty q) -> chain f b pos w1 (l2 ++ rr) els0 ->
  tkout kk f c (pos_after pos w1) l2 rr (els, is, c', i', s') -> tkout (length els0 + kk) f cb pos l0 (q ++ rr) (els0 ++ els, is, c', i', s').
Proof.
  intros HL HC HA HO. unfold tkout in *. destruct is as [|e|e].
  - destruct HO as [O0 [r1 [O1 [O2 [O3 [O5 O6]]]]]]. split; [rewrite app_length; lia|]. exists (q ++ r1). split; [rewrite O1, app_assoc; reflexivity|].
    split; [rewrite O2 at 1; f_equal; rewrite <- !pos_after_app; f_equal; rewrite !app_assoc, HL; reflexivity|].
    rewrite app_assoc, HL, <- app_assoc.
    split; [apply chain_app; [rewrite <- app_assoc, <- O1; exact HA|exact O3]|]. split; [exact O5|].
    intros Hl; destruct (HC Hl) as [K1 K2]; rewrite (O6 K1), K2, nonempty_app, orb_assoc; reflexivity.
  - destruct HO as [O0 [r1 [O1 [O2 [O3 [O4 [O5 [O6 O7]]]]]]]]. split; [rewrite app_length; lia|]. exists (q ++ r1). split; [rewrite O1, app_assoc; reflexivity|].
    split; [rewrite O2 at 1; f_equal; rewrite <- !pos_after_app; f_equal; rewrite !app_assoc, HL; reflexivity|].
    rewrite app_assoc, HL, <- app_assoc.
    split; [apply chain_app; [rewrite <- app_assoc, <- O1; exact HA|exact O3]|]. split; [rewrite pos_after_app; exact O4|]. split; [exact O5|].
    split; [intros Hl; destruct (HC Hl) as [K1 K2]; rewrite (O6 K1), K2, nonempty_app, orb_assoc; reflexivity|].
    intros Hf. destruct (O7 Hf) as [K1 K2]. split; [|exact K2]. intros Hn. apply app_eq_nil in Hn. apply K1. apply Hn.
  - destruct HO as [O0 HO]. split; [rewrite app_length; lia|]. destruct HO as [[O1 [O2 [r1 [O3 [O4 [w2 [l3 [O5 [O6 O7]]]]]]]]]|[O1 [w2 [w3 [O2 [O3 O4]]]]]].
    + left. split; [exact O1|]. split; [exact O2|]. exists (q ++ r1). split; [rewrite O3, app_assoc; reflexivity|].
      split; [rewrite O4 at 1; f_equal; rewrite <- !pos_after_app; f_equal; rewrite !app_assoc, HL; reflexivity|].
      exists (w1 ++ w2), l3. split; [rewrite app_assoc, HL, <- !app_assoc; f_equal; exact O5|].
      split; [|intros g; rewrite pos_after_app; apply O7]. subst f.
      apply chain_app; [|exact O6]. rewrite app_assoc, <- O5, <- app_assoc, <- O3. exact HA.
    + right. split.
      * intros Hf. destruct (O1 Hf) as [K1 K2]. split; [exact K1|]. intros Hh Hn. apply app_eq_nil in Hn. apply (K2 Hh). apply Hn.
      * exists (w1 ++ w2), w3. split; [rewrite app_assoc, HL, <- !app_assoc; f_equal; exact O2|]. split; [|rewrite pos_after_app; exact O4].
        apply chain_app; [|exact O3]. rewrite <- O2. exact HA.
Qed.

Lemma iter_take_out f : forall kk first cb pos l k r' s, started Cln Res f first pos l k s -> (kk = 0 -> l = [] /\ Cln f s) -> forall out,
  iter_take kk p first cb (Inp (k ++ r') (pos_after pos l) f) s = Done out ->
  tkout kk f cb pos l (k ++ r') out /\ (kk <> 0 -> h = true -> f = true -> k ++ r' = [] -> match out with (_, is, _, _, _) => exists e, is = ISCommit e end).
Proof.
  induction kk as [|kk IH]; intros first cb pos l k r' s St HK out E0.
  - simpl in E0. inversion E0; subst. destruct (HK eq_refl) as [-> HC]. split; [|congruence]. unfold tkout. split; [reflexivity|]. exists []. cbn [app rest].
    split; [reflexivity|]. split; [reflexivity|]. split; [constructor|]. split; [exact HC|]. intros _. rewrite orb_false_r. reflexivity.
  - simpl in E0.
    destruct (p_run p first (Inp (k ++ r') (pos_after pos l) f) s) as [[[r i1] s1]| |] eqn:E1; try discriminate.
    pose proof (cb_run H _ _ _ _ _ _ _ St _ E1) as F. simpl in E0. unfold fits in F. destruct r as [v|v|e|e].
    + destruct F as [[r1 [F1 [F2 [F3 F4]]]] [F5 F6]]. destruct (iter_take kk p true true i1 s1) as [[[[[els is] c'] i'] s']| |] eqn:E2; try discriminate.
      inversion E0; subst out. split; [|intros _ Hh Hf Hn; exfalso; exact (F6 Hh Hf Hn)].
      rewrite F1. apply (tkout_shift kk f cb true pos l r1 (rest i1) (l ++ r1) [] [v]).
      * rewrite app_nil_r. reflexivity.
      * intros Hl. split; [reflexivity|]. rewrite <- (F4 Hl). simpl. rewrite orb_true_r. reflexivity.
      * apply chain_one. exact F3.
      * rewrite F2, <- pos_after_app in E2. apply (IH true true (pos_after pos (l ++ r1)) [] [] (rest i1) s1); [simpl; auto|auto|exact E2].
    + destruct F as [[r1 [F1 [F2 [F3 F4]]]] [F5 F6]]. destruct (iter_take kk p true cb i1 s1) as [[[[[els is] c'] i'] s']| |] eqn:E2; try discriminate.
      inversion E0; subst out. split; [|intros _ Hh Hf Hn; exfalso; exact (F6 Hh Hf Hn)].
      rewrite F1. apply (tkout_shift kk f cb cb pos l r1 (rest i1) (l ++ r1) [] [v]).
      * rewrite app_nil_r. reflexivity.
      * intros Hl. split; [reflexivity|]. rewrite <- (F4 Hl). simpl. rewrite orb_false_r. reflexivity.
      * apply chain_one. exact F3.
      * rewrite F2, <- pos_after_app in E2. apply (IH true cb (pos_after pos (l ++ r1)) [] [] (rest i1) s1); [simpl; auto|auto|exact E2].
    + inversion E0; subst out. split; [|eauto]. unfold tkout. split; [cbn; lia|]. destruct F as [[F1 [F2 [r1 [F3 [F4 [F5 F6]]]]]]|[F1 F2]].
      * left. split; [exact F1|]. split; [exact F2|]. exists r1. split; [exact F3|]. split; [exact F4|]. exists [], (l ++ r1). split; [reflexivity|].
        split; [constructor|]. exact F6.
      * right. split; [exact F1|]. exists [], (l ++ k ++ r'). split; [reflexivity|]. split; [constructor|]. exact F2.
    + inversion E0; subst out. destruct F as [F1 [F2 [F3 [F4 F5]]]]. destruct F3 as [F3|F3]; [|discriminate]. subst l. simpl in *.
      split; [|intros _ _ Hf Hn; exfalso; exact (proj2 (F2 Hf) Hn)]. split; [lia|].
      exists []. simpl. split; [reflexivity|]. split; [reflexivity|]. split; [constructor|]. split; [exact F5|]. split; [apply F4; reflexivity|].
      split; [intros _; rewrite orb_false_r; reflexivity|]. intros Hf. destruct (F2 Hf). auto.
Qed.

Hypothesis HF : history_free false p.
Variables mn mx : nat.
Hypothesis Hmm : mn <= mx.
Notation cmm := (count_min_max mn mx p).

Lemma cmm_always_ok f pos w tail vs : chain f b pos w tail vs -> mn <= length vs <= mx ->
  length vs = mx \/ always_err f b (pos_after pos w) tail false -> always_ok f (fresh cmm) pos w tail vs.
Proof.
  intros HC HN HE m Hm r i' Q. destruct (value_of r) as [l|] eqn:V.
  - pose proof (okr_value _ _ V) as O. rewrite O in Q. apply (cmm_ok p HF mn mx _ _ _ _ Hmm) in Q. destruct Q as [Q1 [Q2 Q3]].
    destruct (chain_cases _ _ _ _ _ _ HC m Hm _ _ _ Q1) as [[K1 K2]|[[K1 [K2 K3]]|[K1 [r2 [j [K2 K3]]]]]].
    + destruct Q3 as [Q3|Q3]; [lia|]. exfalso. eapply K2. exact Q3.
    + subst. rewrite <- K2. auto.
    + destruct HE as [HE|HE]; [lia|]. destruct (HE m Hm _ _ K2). congruence.
  - assert (Hn : is_ok r = false) by (rewrite value_ok, V; reflexivity). exfalso. pose proof (fails_done _ _ _ _ Q Hn) as Fe. apply (cmm_fails p HF mn mx _ _ Hmm) in Fe.
    destruct Fe as [c' [l [j [Q1 Q2]]]]. destruct (chain_cases _ _ _ _ _ _ HC m Hm _ _ _ Q1) as [[K1 K2]|[[K1 [K2 K3]]|[K1 [r2 [j2 [K2 K3]]]]]].
    + destruct Q2 as [[_ [Q2 _]]|[_ [Q2 _]]]; exact (K2 _ Q2).
    + subst. destruct Q2 as [[Q0 [Q2 _]]|[Q0 [Q2 _]]].
      * destruct HE as [HE|HE]; [lia|]. destruct (fails_inv _ _ _ Q2) as [r3 [j3 [F1 [F2 [F3 _]]]]]. destruct (HE m Hm _ _ F1). congruence.
      * lia.
    + destruct HE as [HE|HE]; [lia|]. destruct (HE m Hm _ _ K2). congruence.
Qed.
Lemma cmm_always_err f pos w tail vs c : chain f b pos w tail vs -> always_err f b (pos_after pos w) tail c ->
  (if c then length vs < mx else length vs < mn) -> always_err f (fresh cmm) pos (w ++ tail) (c || nonempty w).
Proof.
  intros HC HE HN m Hm r i' Q. rewrite <- app_assoc in Q. assert (HX : length vs < mx) by (destruct c; lia). destruct (value_of r) as [l|] eqn:V.
  - exfalso. pose proof (okr_value _ _ V) as O. rewrite O in Q. apply (cmm_ok p HF mn mx _ _ _ _ Hmm) in Q. destruct Q as [Q1 [Q2 Q3]].
    destruct (chain_cases _ _ _ _ _ _ HC m Hm _ _ _ Q1) as [[K1 K2]|[[K1 [K2 K3]]|[K1 [r2 [j [K2 K3]]]]]].
    + destruct Q3 as [Q3|Q3]; [lia|]. eapply K2. exact Q3.
    + subst. destruct c; [|lia]. destruct Q3 as [Q3|Q3]; [lia|]. destruct (fails_inv _ _ _ Q3) as [r3 [j3 [F1 [F2 [F3 _]]]]]. destruct (HE m Hm _ _ F1). congruence.
    + destruct (HE m Hm _ _ K2). congruence.
  - assert (Hn : is_ok r = false) by (rewrite value_ok, V; reflexivity). split; [exact Hn|]. pose proof (fails_done _ _ _ _ Q Hn) as Fe. apply (cmm_fails p HF mn mx _ _ Hmm) in Fe.
    destruct Fe as [c' [l [j [Q1 Q2]]]]. destruct (chain_cases _ _ _ _ _ _ HC m Hm _ _ _ Q1) as [[K1 K2]|[[K1 [K2 K3]]|[K1 [r2 [j2 [K2 K3]]]]]].
    + exfalso. destruct Q2 as [[_ [Q2 _]]|[_ [Q2 _]]]; exact (K2 _ Q2).
    + subst. destruct Q2 as [[Q0 [Q2 ->]]|[Q0 [Q2 ->]]]; destruct (fails_inv _ _ _ Q2) as [r3 [j3 [F1 [F2 [F3 _]]]]]; destruct (HE m Hm _ _ F1) as [_ K4]; subst c; rewrite F3; reflexivity.
    + exfalso. destruct (HE m Hm _ _ K2). congruence.
Qed.

Definition ccln (f : bool) (st : nat * list A * S) : Prop := match st with (count, els, s) => count = 0 /\ els = [] /\ Cln f s end.
Definition cres (f : bool) (pos : Pos C) (l k : list T) (st : nat * list A * S) : Prop :=
  match st with (count, els, s) => count = length els /\
    ((l = [] /\ k = [] /\ els = [] /\ Cln f s) \/
     (length els < mx /\ exists w1 l2, l = w1 ++ l2 /\ chain true b pos w1 (l2 ++ k) els /\ Res f (pos_after pos w1) l2 k s))
  end.

Lemma chunk_count_min_max : chunk_by (mn =? 0) false (mn =? 0) (h && negb (mx =? 0)) ccln cres cmm.
Proof.
  constructor; simpl; auto; try apply (cb_adderr H).
  - intros f. split; [reflexivity|]. split; [reflexivity|]. apply (cb_init H).
  - intros [[count els] s] [K1 [K2 K3]]. split; [exact K1|]. split; [exact K2|]. apply (cb_cln H). exact K3.
  - intros f pos [[count els] s] [-> [-> K3]]. split; [reflexivity|]. left. auto.
  - discriminate.
  - apply noneoi_no.
  - intros f first pos l k r' [[count els0] s] St out E0. unfold count_min_max_run in E0.
    assert (IN : count = length els0 /\ length els0 <= mx).
    { destruct first; simpl in St.
      - destruct St as [_ [_ [-> [-> _]]]]. split; [reflexivity|cbn; lia].
      - destruct St as [-> [[_ [_ [-> _]]]|[K _]]]; split; cbn; auto; lia. }
    destruct IN as [-> IN]. rewrite (proj2 (Nat.ltb_ge mx mn) Hmm) in E0. rewrite (proj2 (Nat.ltb_ge mx (length els0)) IN) in E0.
    destruct (iter_take (mx - length els0) p first false (Inp (k ++ r') (pos_after pos l) f) s) as [[[[[els is] c'] i'] s']| |] eqn:E1; try discriminate.
    assert (IO : tkout mx f false pos l (k ++ r') (els0 ++ els, is, c', i', s') /\
      (mx <> 0 -> h = true -> f = true -> k ++ r' = [] -> exists e, is = ISCommit e)).
    { assert (CL : l = [] /\ k = [] /\ els0 = [] /\ Cln f s \/ first = false /\ length els0 < mx /\ exists w1 l2, l = w1 ++ l2 /\ chain true b pos w1 (l2 ++ k) els0 /\ Res f (pos_after pos w1) l2 k s).
      { destruct first; simpl in St; [left; tauto|]. destruct St as [_ [K|K]]; [left; tauto|right; tauto]. }
      destruct CL as [[-> [-> [-> K]]]|[-> [K0 [w1 [l2 [K1 [K2 K3]]]]]]].
      - cbn [length] in E1. rewrite Nat.sub_0_r in E1. cbn [app]. destruct (iter_take_out f mx first false pos [] [] r' s) with (out := (els, is, c', i', s')) as [I1 I2]; auto.
        destruct first; simpl; auto. apply (cb_res H). exact K.
      - subst l. replace mx with (length els0 + (mx - length els0)) at 1 by lia. rewrite pos_after_app in E1.
        destruct (iter_take_out f (mx - length els0) false false (pos_after pos w1) l2 k r' s) with (out := (els, is, c', i', s')) as [I1 I2]; [exact K3|lia|exact E1|].
        split; [|intros _; apply I2; lia]. change (k ++ r') with ([] ++ k ++ r').
        apply (tkout_shift (mx - length els0) f false false pos (w1 ++ l2) [] (k ++ r') w1 l2 els0).
        + rewrite app_nil_r. reflexivity.
        + intros Hl. apply app_eq_nil in Hl. split; [apply Hl|reflexivity].
        + rewrite app_assoc. apply chain_ext. exact K2.
        + exact I1. }
    destruct IO as [IO IH]. simpl in E0. rewrite <- app_length in E0. remember (els0 ++ els) as vs eqn:Hvs. clear Hvs.
    assert (Hung : forall r : list T, r = k ++ r' -> (forall e, is <> ISCommit e) -> h && negb (mx =? 0) = true -> f = true -> r <> []).
    { intros r Hr Hi Hh Hf Hz. apply andb_true_iff in Hh. destruct Hh as [Hh Hx]. destruct IH as [e He]; auto; [destruct mx; [discriminate|congruence]|congruence|]. apply (Hi e). exact He. }
    unfold tkout in IO. destruct is as [|e|e].
    + destruct IO as [O0 [r1 [O1 [O2 [O3 [O5 O6]]]]]]. destruct (length vs <? mn) eqn:Hc; [apply Nat.ltb_lt in Hc; lia|]. simpl in E0.
      assert (Fin : (exists r1, k ++ r' = r1 ++ rest i' /\ i' = Inp (rest i') (pos_after (pos_after pos l) r1) f /\
           always_ok f (fresh cmm) pos (l ++ r1) (rest i') vs /\ (l = [] -> c' = nonempty r1)) /\
        ccln f (0, [], s') /\ (h && negb (mx =? 0) = true -> f = true -> k ++ r' <> [])).
      { split; [|split; [simpl; auto|apply Hung; auto; discriminate]]. exists r1. split; [exact O1|]. split; [exact O2|]. split; [|exact O6].
        apply cmm_always_ok; auto. lia. }
      unfold fits. destruct c'; inversion E0; subst out; exact Fin.
    + destruct IO as [O0 [r1 [O1 [O2 [O3 [O4 [O5 [O6 O7]]]]]]]]. destruct (length vs <? mn) eqn:Hc.
      * apply Nat.ltb_lt in Hc. pose proof (cmm_always_err _ _ _ _ _ false O3 O4 Hc) as AE. cbn [orb] in AE. rewrite <- app_assoc, <- O1 in AE.
        assert (Hz : mn =? 0 = false) by (apply Nat.eqb_neq; lia). rewrite Hz. unfold iter_fail in E0.
        assert (Ne : f = true -> e_is_eoi C (e_merge C e (e_from C (ipos i') (se_message C (IFormat ("expected " ++ nat_str (mn - length vs) ++ " more elements")%string)))) = false).
        { intros Hf. apply (el_merge EL); [apply (O7 Hf)|]. rewrite (el_from EL). apply (el_message EL). }
        destruct c'; inversion E0; subst out.
        -- right. split; [intros Hf; split; [exact (Ne Hf)|intros _; apply (O7 Hf)]|]. replace true with (nonempty (l ++ r1)); [exact AE|].
           rewrite nonempty_app. destruct l; [|reflexivity]. cbn. symmetry. exact (O6 eq_refl).
        -- split; [reflexivity|]. split; [intros Hf; split; [exact (Ne Hf)|apply (O7 Hf)]|]. split; [auto|]. split; [discriminate|].
           replace (nonempty l) with (nonempty (l ++ r1)); [exact AE|]. rewrite nonempty_app. destruct l; [|reflexivity]. cbn. symmetry. exact (O6 eq_refl).
      * apply Nat.ltb_ge in Hc. simpl in E0.
        assert (Fin : (exists r1, k ++ r' = r1 ++ rest i' /\ i' = Inp (rest i') (pos_after (pos_after pos l) r1) f /\
           always_ok f (fresh cmm) pos (l ++ r1) (rest i') vs /\ (l = [] -> c' = nonempty r1)) /\
          ccln f (0, [], s') /\ (h && negb (mx =? 0) = true -> f = true -> k ++ r' <> [])).
        { split; [|split; [simpl; auto|apply Hung; auto; discriminate]]. exists r1. split; [exact O1|]. split; [exact O2|]. split; [|exact O6].
          apply cmm_always_ok; auto. lia. }
        unfold fits. destruct c'; inversion E0; subst out; exact Fin.
    + destruct IO as [O0 IO].
      assert (Fin : forall e', e_is_eoi C e' = e_is_eoi C e -> fits (mn =? 0) false (mn =? 0) (h && negb (mx =? 0)) f ccln cres (fresh cmm) pos l (k ++ r') (CommitErr e', i', (length vs, vs, s'))).
      { intros e' He. unfold fits. rewrite He. destruct IO as [[O1 [O2 [r1 [O3 [O4 [w2 [l3 [O5 [O6 O7]]]]]]]]]|[O1 [w2 [w3 [O2 [O3 O4]]]]]].
        - left. split; [exact O1|]. split; [exact O2|]. exists r1. split; [exact O3|]. split; [exact O4|]. split; [discriminate|]. intros g. simpl. split; [reflexivity|]. right.
          split; [exact O0|]. exists w2, l3. auto.
        - right. split; [intros Hf; destruct (O1 Hf) as [K1 K2]; split; [exact K1|]; intros Hh; apply andb_true_iff in Hh; apply K2; apply Hh|].
          rewrite O2. apply (cmm_always_err _ _ _ _ _ true O3 O4 O0). }
      destruct (length vs <? mn); inversion E0; subst out; apply Fin; [|reflexivity]. rewrite (el_add EL), (el_message EL), orb_false_r. reflexivity.
Qed.
End Iter.
End CountChunk.
