(** Proofs for C29: operands and operators from the left. *)
From Coq Require Import String List Bool Arith NArith Lia.
Import ListNotations.
From Verif Require Import Base Parser Token Combinator Sequence Choice Repeat RangeP Spec SeqSpec ChoiceSpec TidySpec RepeatSpec AgreeSpec.
From Verif Require Import ResultProofs SeqProofs CombProofs ChoiceProofs CombProofs2 RepeatProofs RepeatProofs2 ChunkSpec ChunkProofs ChunkProofs2 ChunkProofs3
  ChunkProofs4 ChunkProofs5 ChunkProofs6.
Unset Implicit Arguments.

Section ChainlChunk.
Context {C : Cfg} (EL : eoi_laws C).
Notation T := (tok C).
Notation E := (Err C).
Notation nonempty := consumed_some.
Context {S1 S2 A : Type} (x1 a1 h1 a2 n2 h2 : bool) (Cln1 : bool -> S1 -> Prop) (Res1 : bool -> Pos C -> list T -> list T -> S1 -> Prop)
  (Cln2 : bool -> S2 -> Prop) (Res2 : bool -> Pos C -> list T -> list T -> S2 -> Prop) (p : parser C S1 A) (op : parser C S2 (A -> A -> A)).
Hypothesis H1 : chunk_by x1 a1 true h1 Cln1 Res1 p.
Hypothesis H2 : chunk_by true a2 n2 h2 Cln2 Res2 op.
Hypothesis Hp : history_free false p.
Hypothesis Ho : history_free false op.
Hypothesis Hst : starts_alike p.
Notation w := (pair2 (by_ref op) (by_ref p)).
Notation b := (fresh w).
Notation bp := (fresh p).
Notation chst := (((option (A -> A -> A) * S2) * (option A * S1)) * N)%type.

Definition vcln (f : bool) (ch : chst) : Prop := qcln Cln2 (q1cln Cln1) f (fst ch).
Definition vres (f : bool) (pos : Pos C) (l k : list T) (ch : chst) : Prop := qres Cln2 Res2 (q1cln Cln1) (q1res Res1) (by_ref op) f pos l k (fst ch).

Lemma chunk_v : chunk_by true false n2 (h2 && h1) vcln vres w.
Proof.
  assert (K : chunk_by (true && true) false (n2 && true) (h2 && h1) vcln vres w).
  { eapply (chunk_tuple EL). eapply tail_cons; eauto using chunk_by_ref, tail_one. }
  rewrite !andb_true_r in K. exact K.
Qed.

Definition lout (f : bool) (c : commit unit) (pos : Pos C) (l r : list T) (v0 : A) (out : PR A E * input C * chainl_state S1 S2 A) : Prop :=
  match out with (res, i', (ls, ch')) =>
    match res with
    | CommitOk v | PeekOk v => exists r1 fs, r = r1 ++ rest i' /\ i' = Inp (rest i') (pos_after (pos_after pos l) r1) f /\
        chain f b pos (l ++ r1) (rest i') fs /\ always_err f b (pos_after pos (l ++ r1)) (rest i') false /\ v = foldl_chain v0 fs /\ ls = None /\ vcln f ch' /\
        (l = [] -> committed res = cb c || nonempty r1) /\ (f = true -> r <> [])
    | PeekErr _ => False
    | CommitErr e =>
        (f = true /\ e_is_eoi C e = true /\ exists r1, r = r1 ++ rest i' /\ i' = Inp (rest i') (pos_after (pos_after pos l) r1) f /\
           exists w1 l2 fs c', l ++ r1 = w1 ++ l2 /\ ls = Some (foldl_chain v0 fs, c') /\ (cb c' = true -> cb c = true \/ w1 <> []) /\
             chain true b pos w1 (l2 ++ rest i') fs /\ forall g, vres g (pos_after pos w1) l2 (rest i') ch') \/
        ((f = true -> e_is_eoi C e = false /\ (h2 && h1 = true -> r <> [])) /\
         exists w1 w2 fs, l ++ r = w1 ++ w2 /\ chain f b pos w1 w2 fs /\ always_err f b (pos_after pos w1) w2 true)
    end
  end.

Lemma lout_cons f c c1 pos l r1 rr v0 g v out :
  always_ok f b pos (l ++ r1) rr (g, v) -> (cb c1 = true -> cb c = true \/ l ++ r1 <> []) -> (l = [] -> cb c1 = cb c || nonempty r1) ->
  lout f c1 (pos_after pos (l ++ r1)) [] rr (g v0 v) out -> lout f c pos l (r1 ++ rr) v0 out.
Proof.
  intros HA HW HC HO. destruct out as [[res i'] [ls ch']].
  assert (OKC : forall res0 u, committed res = res0 -> (exists r2 fs, rr = r2 ++ rest i' /\ i' = Inp (rest i') (pos_after (pos_after (pos_after pos (l ++ r1)) []) r2) f /\
        chain f b (pos_after pos (l ++ r1)) ([] ++ r2) (rest i') fs /\ always_err f b (pos_after (pos_after pos (l ++ r1)) ([] ++ r2)) (rest i') false /\
        u = foldl_chain (g v0 v) fs /\ ls = None /\ vcln f ch' /\ ([] = @nil T -> res0 = cb c1 || nonempty r2) /\ (f = true -> rr <> [])) ->
      exists r2 fs, r1 ++ rr = r2 ++ rest i' /\ i' = Inp (rest i') (pos_after (pos_after pos l) r2) f /\
        chain f b pos (l ++ r2) (rest i') fs /\ always_err f b (pos_after pos (l ++ r2)) (rest i') false /\ u = foldl_chain v0 fs /\ ls = None /\ vcln f ch' /\
        (l = [] -> res0 = cb c || nonempty r2) /\ (f = true -> r1 ++ rr <> [])).
  { intros res0 u _ [r2 [fs [O1 [O2 [O3 [O4 [O5 [O6 [O7 [O8 O9]]]]]]]]]]. simpl in O2, O3, O4. exists (r1 ++ r2), ((g, v) :: fs).
    split; [rewrite O1, app_assoc; reflexivity|]. split; [rewrite O2 at 1; f_equal; rewrite <- !pos_after_app; f_equal; rewrite <- app_assoc; reflexivity|]. rewrite app_assoc.
    split; [constructor; [rewrite <- O1; exact HA|exact O3]|]. split; [rewrite pos_after_app; exact O4|]. split; [exact O5|]. split; [exact O6|]. split; [exact O7|].
    split; [intros Hl; rewrite (O8 eq_refl), (HC Hl), nonempty_app, orb_assoc; reflexivity|].
    intros Hf Hn. apply app_eq_nil in Hn. apply (O9 Hf). apply Hn. }
  unfold lout in *. destruct res as [u|u|e|e].
  - apply (OKC true u eq_refl). exact HO.
  - apply (OKC false u eq_refl). exact HO.
  - destruct HO as [[O1 [O2 [r2 [O3 [O4 [w2 [l3 [fs [c' [O5 [O6 [O7 [O8 O9]]]]]]]]]]]]]|[O1 [w2 [w3 [fs [O2 [O3 O4]]]]]]].
    + simpl in O4, O5. left. split; [exact O1|]. split; [exact O2|]. exists (r1 ++ r2). split; [rewrite O3, app_assoc; reflexivity|].
      split; [rewrite O4 at 1; f_equal; rewrite <- !pos_after_app; f_equal; rewrite <- app_assoc; reflexivity|].
      exists ((l ++ r1) ++ w2), l3, ((g, v) :: fs), c'. split; [rewrite O5, <- !app_assoc; reflexivity|]. subst f. split; [exact O6|].
      split; [intros Hc; destruct (O7 Hc) as [K|K]; [destruct (HW K) as [K'|K']; [left; exact K'|right]|right]; intros Hn; apply app_eq_nil in Hn; destruct Hn; congruence|].
      split; [constructor; [rewrite app_assoc, <- O5, <- O3; exact HA|exact O8]|]. intros g'. rewrite pos_after_app. apply O9.
    + simpl in O2. right. split.
      * intros Hf. destruct (O1 Hf) as [K1 K2]. split; [exact K1|]. intros Hh Hn. apply app_eq_nil in Hn. apply (K2 Hh). apply Hn.
      * exists ((l ++ r1) ++ w2), w3, ((g, v) :: fs). split; [rewrite O2, <- !app_assoc; reflexivity|]. split; [|rewrite pos_after_app; exact O4].
        constructor; [rewrite <- O2; exact HA|exact O3].
  - exact HO.
Qed.

Lemma chainl_loop_out f : forall fuel first v0 c pos l k r' ch, started vcln vres f first pos l k ch -> forall out,
  chainl_loop fuel p op first v0 c (Inp (k ++ r') (pos_after pos l) f) ch = Done out -> lout f c pos l (k ++ r') v0 out.
Proof.
  induction fuel as [|fuel IH]; intros first v0 c pos l k r' ch St out E0; [discriminate|]. cbn [chainl_loop] in E0.
  destruct (p_run w first (Inp (k ++ r') (pos_after pos l) f) ch) as [[[r i1] ch1]| |] eqn:E1; try discriminate.
  pose proof (cb_run chunk_v _ _ _ _ _ _ _ St _ E1) as F. cbn [obind] in E0. unfold fits in F. destruct r as [[g v]|[g v]|e|e]; cbn [into_std] in E0.
  - destruct F as [[r1 [F1 [F2 [F3 F4]]]] [F5 F6]].
    assert (HN : l ++ r1 <> []). { intros Hn. apply app_eq_nil in Hn. destruct Hn as [-> ->]. discriminate (F4 eq_refl). }
    rewrite F1. apply (lout_cons f c (commit_merge c (Commit tt)) pos l r1 (rest i1) v0 g v); auto.
    + intros Hl. rewrite cb_merge, <- (F4 Hl). reflexivity.
    + rewrite F2, <- pos_after_app in E0. apply (IH true (g v0 v) (commit_merge c (Commit tt)) (pos_after pos (l ++ r1)) [] [] (rest i1) ch1); [|exact E0]. simpl. auto.
  - destruct F as [[r1 [F1 [F2 [F3 F4]]]] [F5 F6]].
    rewrite F1. apply (lout_cons f c (commit_merge c (Peek tt)) pos l r1 (rest i1) v0 g v); auto.
    + rewrite cb_merge. simpl. rewrite orb_false_r. auto.
    + intros Hl. rewrite cb_merge, <- (F4 Hl). reflexivity.
    + rewrite F2, <- pos_after_app in E0. apply (IH true (g v0 v) (commit_merge c (Peek tt)) (pos_after pos (l ++ r1)) [] [] (rest i1) ch1); [|exact E0]. simpl. auto.
  - simpl in E0. inversion E0; subst out. unfold lout. destruct F as [[F1 [F2 [r1 [F3 [F4 [F5 F6]]]]]]|[F1 F2]].
    + left. split; [exact F1|]. split; [exact F2|]. exists r1. split; [exact F3|]. split; [exact F4|]. exists [], (l ++ r1), [], c. split; [reflexivity|].
      split; [reflexivity|]. split; [auto|]. split; [constructor|]. exact F6.
    + right. split; [exact F1|]. exists [], (l ++ k ++ r'), []. split; [reflexivity|]. split; [constructor|]. exact F2.
  - destruct F as [F1 [F2 [F3 [F4 F5]]]]. destruct F3 as [F3|F3]; [|discriminate]. subst l. simpl in *.
    assert (Fin : exists r1 fs, k ++ r' = r1 ++ k ++ r' /\ Inp (k ++ r') pos f = Inp (k ++ r') (pos_after pos r1) f /\
        chain f b pos r1 (k ++ r') fs /\ always_err f b (pos_after pos r1) (k ++ r') false /\ v0 = foldl_chain v0 fs /\
        @None (A * commit unit) = None /\ vcln f ch1 /\ (@nil T = [] -> cb c = cb c || nonempty r1) /\ (f = true -> k ++ r' <> [])).
    { exists [], []. split; [reflexivity|]. split; [reflexivity|]. split; [constructor|]. split; [exact F5|]. split; [reflexivity|]. split; [reflexivity|].
      split; [apply F4; reflexivity|]. split; [intros _; rewrite orb_false_r; reflexivity|]. intros Hf. apply F2. exact Hf. }
    destruct c as [[]|[]]; inversion E0; subst out; exact Fin.
Qed.

(** * What a run on everything does *)
Lemma chl_ok i c v i' : succeeds (fresh (chainl1 p op)) i c v i' ->
  exists c1 a j c2 fs, succeeds bp i c1 a j /\ reps (succeeds b) j c2 fs i' /\ fails b i' false /\ v = foldl_chain a fs /\ c = c1 || c2.
Proof.
  intros Q. apply (chainl1_ok p op Hp Ho Hst) in Q. destruct Q as [c1 [a [j [c2 [fs [Q1 [Q2 [Q3 [_ [Q4 Q5]]]]]]]]]].
  exists c1, a, j, c2, fs. split; [exact Q1|]. split; [|split; [apply clw_fails; exact Q3|auto]].
  revert Q2. apply reps_mono. intros. apply clw_ok. auto.
Qed.
Lemma chl_fails i c : fails (fresh (chainl1 p op)) i c ->
  fails bp i c \/ (c = true /\ exists c1 a j c2 fs i', succeeds bp i c1 a j /\ reps (succeeds b) j c2 fs i' /\ fails b i' true).
Proof.
  intros Q. apply (chainl1_fails p op Hp Ho Hst) in Q. destruct Q as [Q|[Q0 [c1 [a [j [c2 [fs [i' [Q1 [Q2 [Q3 _]]]]]]]]]]]; [left; exact Q|right].
  split; [exact Q0|]. exists c1, a, j, c2, fs, i'. split; [exact Q1|]. split; [|apply clw_fails; exact Q3].
  revert Q2. apply reps_mono. intros. apply clw_ok. auto.
Qed.

Lemma chl_follow f pos w0 w1 tail a fs c0 m : always_ok f bp pos w0 (w1 ++ tail) a -> chain f b (pos_after pos w0) w1 tail fs ->
  always_err f b (pos_after pos (w0 ++ w1)) tail c0 -> exts f m ->
  (forall c v i', succeeds (fresh (chainl1 p op)) (Inp (w0 ++ w1 ++ tail ++ m) pos false) c v i' ->
     c0 = false /\ v = foldl_chain a fs /\ i' = Inp (tail ++ m) (pos_after pos (w0 ++ w1)) false /\ c = nonempty (w0 ++ w1)) /\
  (forall c, fails (fresh (chainl1 p op)) (Inp (w0 ++ w1 ++ tail ++ m) pos false) c -> c = true /\ c0 = true).
Proof.
  intros HA HC HE Hm.
  assert (HP : forall r j, bp (Inp (w0 ++ w1 ++ tail ++ m) pos false) = Done (r, j) -> r = okr (nonempty w0) a /\ j = Inp (w1 ++ tail ++ m) (pos_after pos w0) false).
  { intros r j Q. rewrite (app_assoc w1) in Q. destruct (HA m Hm _ _ Q) as [K1 K2]. split; [exact K1|]. rewrite K2, <- app_assoc. reflexivity. }
  rewrite pos_after_app in HE. split.
  - intros c v i' Q. destruct (chl_ok _ _ _ _ Q) as [c1 [a' [j [c2 [fs' [Q1 [Q2 [Q3 [Q4 Q5]]]]]]]]]. destruct (HP _ _ Q1) as [K1 K2].
    apply okr_inj in K1. destruct K1 as [-> ->]. subst j. destruct (chain_det _ _ _ _ _ _ _ HC HE m Hm _ _ _ _ Q2 Q3) as [K1 [K2 [K3 K4]]]. subst.
    rewrite nonempty_app, pos_after_app. auto.
  - intros c Q. destruct (chl_fails _ _ Q) as [K|[-> [c1 [a' [j [c2 [fs' [i' [Q1 [Q2 Q3]]]]]]]]]].
    + destruct (fails_inv _ _ _ K) as [r [j' [F1 [F2 _]]]]. destruct (HP _ _ F1) as [K1 _]. rewrite K1, okr_is_ok in F2. discriminate.
    + split; [reflexivity|]. destruct (HP _ _ Q1) as [_ K2]. subst j. destruct (chain_det _ _ _ _ _ _ _ HC HE m Hm _ _ _ _ Q2 Q3) as [_ [_ [_ K4]]]. auto.
Qed.

Lemma chl_always_ok f pos w0 w1 tail a fs : always_ok f bp pos w0 (w1 ++ tail) a -> chain f b (pos_after pos w0) w1 tail fs ->
  always_err f b (pos_after pos (w0 ++ w1)) tail false -> always_ok f (fresh (chainl1 p op)) pos (w0 ++ w1) tail (foldl_chain a fs).
Proof.
  intros HA HC HE m Hm r i' Q. destruct (chl_follow f pos w0 w1 tail a fs false m HA HC HE Hm) as [K1 K2]. rewrite <- app_assoc in Q.
  destruct (value_of r) as [l|] eqn:V.
  - pose proof (okr_value _ _ V) as O. rewrite O in Q. destruct (K1 _ _ _ Q) as [_ [-> [-> K3]]]. rewrite O, K3. auto.
  - assert (Hn : is_ok r = false) by (rewrite value_ok, V; reflexivity). destruct (fails_done _ _ _ _ Q Hn) as [e Fe].
    destruct (K2 _ (ex_intro _ e Fe)). discriminate.
Qed.
Lemma chl_always_err f pos w0 w1 tail a fs : always_ok f bp pos w0 (w1 ++ tail) a -> chain f b (pos_after pos w0) w1 tail fs ->
  always_err f b (pos_after pos (w0 ++ w1)) tail true -> always_err f (fresh (chainl1 p op)) pos (w0 ++ w1 ++ tail) true.
Proof.
  intros HA HC HE m Hm r i' Q. destruct (chl_follow f pos w0 w1 tail a fs true m HA HC HE Hm) as [K1 K2]. rewrite <- !app_assoc in Q.
  destruct (value_of r) as [l|] eqn:V.
  - pose proof (okr_value _ _ V) as O. rewrite O in Q. destruct (K1 _ _ _ Q). discriminate.
  - assert (Hn : is_ok r = false) by (rewrite value_ok, V; reflexivity). split; [exact Hn|]. destruct (fails_done _ _ _ _ Q Hn) as [e Fe].
    apply (K2 _ (ex_intro _ e Fe)).
Qed.
Lemma chl_always_err0 f pos l c : always_err f bp pos l c -> always_err f (fresh (chainl1 p op)) pos l c.
Proof.
  intros HE m Hm r i' Q. destruct (value_of r) as [v|] eqn:V.
  - pose proof (okr_value _ _ V) as O. rewrite O in Q. destruct (chl_ok _ _ _ _ Q) as [c1 [a' [j [c2 [l' [Q1 _]]]]]].
    destruct (HE m Hm _ _ Q1) as [K _]. rewrite okr_is_ok in K. discriminate.
  - assert (Hn : is_ok r = false) by (rewrite value_ok, V; reflexivity). split; [exact Hn|]. destruct (fails_done _ _ _ _ Q Hn) as [e Fe].
    destruct (chl_fails _ _ (ex_intro _ e Fe)) as [K|[K [c1 [a' [j [c2 [l' [ib' [Q1 _]]]]]]]]].
    + destruct (fails_inv _ _ _ K) as [r3 [i3 [F1 [F2 [F3 _]]]]]. destruct (HE m Hm _ _ F1) as [_ K3]. congruence.
    + destruct (HE m Hm _ _ Q1) as [K3 _]. rewrite okr_is_ok in K3. discriminate.
Qed.

Definition lcln (f : bool) (st : chainl_state S1 S2 A) : Prop := fst st = None /\ vcln f (snd st).
Definition lres_ (f : bool) (pos : Pos C) (l k : list T) (st : chainl_state S1 S2 A) : Prop :=
  let (ls, ch) := st in
    (ls = None /\ (fst (fst (fst ch)) = None /\ Cln2 f (snd (fst (fst ch)))) /\ fst (snd (fst ch)) = None /\ Res1 f pos l k (snd (snd (fst ch)))) \/
    (exists c a fs w0 w1 l2, ls = Some (foldl_chain a fs, c) /\ l = w0 ++ w1 ++ l2 /\ (cb c = true -> w0 ++ w1 <> []) /\
       always_ok true bp pos w0 (w1 ++ l2 ++ k) a /\ chain true b (pos_after pos w0) w1 (l2 ++ k) fs /\ vres f (pos_after pos (w0 ++ w1)) l2 k ch).

Lemma foldl_chain_app (a : A) fs gs : foldl_chain (foldl_chain a fs) gs = foldl_chain a (fs ++ gs).
Proof. unfold foldl_chain. rewrite fold_left_app. reflexivity. Qed.

Lemma chl_go f first c pos l0 q k r' w0 w1 l2 a fs ch out :
  l0 ++ q = w0 ++ w1 ++ l2 -> (cb c = true -> w0 ++ w1 <> []) -> (l0 = [] -> l2 = [] /\ cb c = nonempty q) ->
  always_ok f bp pos w0 (w1 ++ l2 ++ k ++ r') a -> chain f b (pos_after pos w0) w1 (l2 ++ k ++ r') fs ->
  started vcln vres f first (pos_after pos (w0 ++ w1)) l2 k ch ->
  chainl_loop (fuel C) p op first (foldl_chain a fs) c (Inp (k ++ r') (pos_after (pos_after pos (w0 ++ w1)) l2) f) ch = Done out ->
  fits true false true (h2 && h1) f lcln lres_ (fresh (chainl1 p op)) pos l0 (q ++ k ++ r') out.
Proof.
  intros HL HCW HC HA HCh St E0. pose proof (chainl_loop_out f _ _ _ _ _ _ _ _ _ St _ E0) as IO.
  assert (HP : forall r1, pos_after (pos_after (pos_after pos (w0 ++ w1)) l2) r1 = pos_after (pos_after pos l0) (q ++ r1)).
  { intros r1. rewrite <- !pos_after_app. f_equal. rewrite (app_assoc l0), HL, <- !app_assoc. reflexivity. }
  destruct out as [[res i'] [ls ch']]. unfold lout in IO.
  assert (Fin : forall cr v, (exists r1 gs, k ++ r' = r1 ++ rest i' /\ i' = Inp (rest i') (pos_after (pos_after (pos_after pos (w0 ++ w1)) l2) r1) f /\
        chain f b (pos_after pos (w0 ++ w1)) (l2 ++ r1) (rest i') gs /\ always_err f b (pos_after (pos_after pos (w0 ++ w1)) (l2 ++ r1)) (rest i') false /\
        v = foldl_chain (foldl_chain a fs) gs /\ ls = None /\ vcln f ch' /\ (l2 = [] -> cr = cb c || nonempty r1) /\ (f = true -> k ++ r' <> [])) ->
      (exists r2, q ++ k ++ r' = r2 ++ rest i' /\ i' = Inp (rest i') (pos_after (pos_after pos l0) r2) f /\
         always_ok f (fresh (chainl1 p op)) pos (l0 ++ r2) (rest i') v /\ (l0 = [] -> cr = nonempty r2)) /\
       lcln f (ls, ch') /\ (h2 && h1 = true -> f = true -> q ++ k ++ r' <> [])).
  { intros cr v [r1 [gs [O1 [O2 [O3 [O4 [O5 [O6 [O7 [O8 O9]]]]]]]]]]. subst ls v.
    split; [|split; [split; [reflexivity|exact O7]|intros Hh Hf Hn; apply app_eq_nil in Hn; apply (O9 Hf); apply Hn]].
    exists (q ++ r1). split; [rewrite O1, app_assoc; reflexivity|]. split; [rewrite O2 at 1; rewrite HP; reflexivity|]. split.
    - replace (l0 ++ q ++ r1) with (w0 ++ (w1 ++ l2 ++ r1)) by (rewrite (app_assoc l0), HL, <- !app_assoc; reflexivity).
      rewrite foldl_chain_app. apply chl_always_ok.
      + replace ((w1 ++ l2 ++ r1) ++ rest i') with (w1 ++ l2 ++ k ++ r'); [exact HA|]. rewrite O1, <- !app_assoc. reflexivity.
      + apply chain_app.
        * rewrite <- app_assoc, <- O1. exact HCh.
        * rewrite <- pos_after_app. exact O3.
      + rewrite app_assoc, pos_after_app. exact O4.
    - intros Hl0. destruct (HC Hl0) as [Hl2 Hq]. rewrite (O8 Hl2), Hq, nonempty_app. reflexivity. }
  destruct res as [v|v|e|e]; unfold fits; [exact (Fin true v IO)|exact (Fin false v IO)| |destruct IO].
  destruct IO as [[O1 [O2 [r1 [O3 [O4 [w2 [l3 [gs [c' [O5 [O6 [O7 [O8 O9]]]]]]]]]]]]]|[O1 [w2 [w3 [gs [O2 [O3 O4]]]]]]].
  - left. split; [exact O1|]. split; [exact O2|]. exists (q ++ r1). split; [rewrite O3, app_assoc; reflexivity|]. split; [rewrite O4 at 1; rewrite HP; reflexivity|].
    split; [discriminate|]. intros g. unfold lres_. right. exists c', a, (fs ++ gs), w0, (w1 ++ w2), l3. subst f.
    split; [rewrite O6, foldl_chain_app; reflexivity|]. split; [rewrite (app_assoc l0), HL, <- !app_assoc, O5; reflexivity|].
    split.
    { intros Hc Hn. rewrite app_assoc in Hn. apply app_eq_nil in Hn. destruct Hn as [Hn1 Hn2]. destruct (O7 Hc) as [K|K]; [|congruence]. apply (HCW K). exact Hn1. }
    split.
    { replace ((w1 ++ w2) ++ l3 ++ rest i') with (w1 ++ l2 ++ k ++ r'); [exact HA|].
      rewrite O3, <- !app_assoc. f_equal. rewrite (app_assoc w2), <- O5, <- app_assoc. reflexivity. }
    split.
    { apply chain_app.
      - replace (w2 ++ l3 ++ rest i') with (l2 ++ k ++ r'); [exact HCh|]. rewrite (app_assoc w2), <- O5, <- app_assoc, O3. reflexivity.
      - rewrite <- pos_after_app. exact O8. }
    rewrite app_assoc, pos_after_app. apply O9.
  - right. split; [intros Hf; destruct (O1 Hf) as [K1 K2]; split; [exact K1|]; intros Hh Hn; apply app_eq_nil in Hn; apply (K2 Hh); apply Hn|].
    replace (l0 ++ q ++ k ++ r') with (w0 ++ (w1 ++ w2) ++ w3) by (rewrite (app_assoc l0), HL, <- !app_assoc, O2; reflexivity).
    apply (chl_always_err f pos w0 (w1 ++ w2) w3 a (fs ++ gs)).
    + replace ((w1 ++ w2) ++ w3) with (w1 ++ l2 ++ k ++ r'); [exact HA|]. rewrite <- app_assoc, O2. reflexivity.
    + apply chain_app.
      * rewrite <- O2. exact HCh.
      * rewrite <- pos_after_app. exact O3.
    + rewrite app_assoc, pos_after_app. exact O4.
Qed.

Lemma chunk_chainl1 : chunk_by true false true (h2 && h1) lcln lres_ (chainl1 p op).
Proof.
  constructor; simpl; auto; try apply (cb_adderr H1).
  - intros f. split; [reflexivity|]. exact (cb_init chunk_v f).
  - intros [ls ch] [K1 K2]. split; [exact K1|]. apply (cb_cln chunk_v). exact K2.
  - intros f pos [ls ch] [K1 [K3 [K4 [K5 K6]]]]. simpl in *. left. split; [exact K1|]. split; [auto|]. split; [exact K5|].
    apply (cb_res H1). exact K6.
  - discriminate.
  - apply noneoi_no.
  - intros f first pos l k r' [ls ch] St out E0.
    assert (Hcase : (ls = None /\ (fst (fst (fst ch)) = None /\ Cln2 f (snd (fst (fst ch)))) /\ fst (snd (fst ch)) = None /\
        Res1 f pos l k (snd (snd (fst ch)))) \/
      (first = false /\ exists c a fs w0 w1 l2, ls = Some (foldl_chain a fs, c) /\ l = w0 ++ w1 ++ l2 /\ (cb c = true -> w0 ++ w1 <> []) /\
       always_ok true bp pos w0 (w1 ++ l2 ++ k) a /\ chain true b (pos_after pos w0) w1 (l2 ++ k) fs /\ vres f (pos_after pos (w0 ++ w1)) l2 k ch)).
    { destruct first; simpl in St.
      - destruct St as [K1 [K2 [K3 [K4 [K5 [K6 K7]]]]]]. simpl in *. left. split; [exact K3|]. split; [split; [exact K4|exact K5]|]. split; [exact K6|].
        subst l k. apply (cb_res H1). exact K7.
      - destruct St as [K|K]; [left; exact K|right; split; [reflexivity|exact K]]. }
    clear St. destruct Hcase as [[-> [[K1 K2] [K3 K4]]]|[-> [c [a [fs [w0 [w1 [l2 [-> [-> [K4 [K5 [K6 K7]]]]]]]]]]]]].
    + unfold chainl1_run in E0.
      destruct (p_run p false (Inp (k ++ r') (pos_after pos l) f) (snd (snd (fst ch)))) as [[[r i1] s1]| |] eqn:E1; try discriminate.
      pose proof (cb_run H1 _ false _ _ _ _ _ K4 _ E1) as F. unfold fits in F. cbn [obind] in E0.
      set (ch1 := ((fst (fst ch), (fst (snd (fst ch)), s1)), snd ch)) in *.
      assert (CH : Cln1 f s1 -> vcln f ch1).
      { intros K. unfold vcln, qcln, q1cln, ch1. simpl. auto. }
      assert (Go : forall c v, (exists r1, k ++ r' = r1 ++ rest i1 /\ i1 = Inp (rest i1) (pos_after (pos_after pos l) r1) f /\
           always_ok f bp pos (l ++ r1) (rest i1) v /\ (l = [] -> cb c = nonempty r1)) -> Cln1 f s1 ->
         chainl_loop (fuel C) p op true v c i1 ch1 = Done out ->
         fits true false true (h2 && h1) f lcln lres_ (fresh (chainl1 p op)) pos l (k ++ r') out).
      { intros c v [r1 [F1 [F2 [F3 F4]]]] HS1 Q. rewrite F1. rewrite F2 in Q.
        apply (chl_go f true c pos l r1 [] (rest i1) (l ++ r1) [] [] v [] ch1).
        - rewrite !app_nil_r. reflexivity.
        - intros Hc Hn. rewrite app_nil_r in Hn. apply app_eq_nil in Hn. destruct Hn as [Hn1 Hn2]. rewrite (F4 Hn1), Hn2 in Hc. discriminate.
        - intros Hl. split; [reflexivity|]. apply F4. exact Hl.
        - exact F3.
        - constructor.
        - simpl. auto.
        - rewrite app_nil_r. simpl. rewrite pos_after_app. exact Q. }
      destruct r as [v|v|e|e].
      * destruct F as [[r1 [F1 [F2 [F3 F4]]]] [F5 F6]]. apply (Go (Commit tt) v); auto. exists r1. auto.
      * destruct F as [[r1 [F1 [F2 [F3 F4]]]] [F5 F6]]. apply (Go (Peek tt) v); auto. exists r1. auto.
      * inversion E0; subst out. unfold fits. destruct F as [[F1 [F2 [r1 [F3 [F4 [F5 F6]]]]]]|[F1 F2]].
        -- left. split; [exact F1|]. split; [exact F2|]. exists r1. split; [exact F3|]. split; [exact F4|]. split; [discriminate|]. intros g. left.
           split; [reflexivity|]. split; [split; [exact K1|]|split; [exact K3|apply F6]].
           simpl. subst f. destruct g; [exact K2|apply (cb_cln H2); exact K2].
        -- right. split; [|apply chl_always_err0; exact F2]. intros Hf. destruct (F1 Hf) as [G1 G2]. split; [exact G1|]. intros Hh. apply G2.
           apply andb_true_iff in Hh. apply Hh.
      * destruct F as [F1 _]. discriminate.
    + unfold chainl1_run in E0. change (k ++ r') with ([] ++ k ++ r').
      apply (chl_go f false c pos (w0 ++ w1 ++ l2) [] k r' w0 w1 l2 a fs ch).
      * rewrite app_nil_r. reflexivity.
      * exact K4.
      * intros Hl. apply app_eq_nil in Hl. destruct Hl as [Hl0 Hl]. apply app_eq_nil in Hl. destruct Hl as [Hl1 Hl2]. subst. split; [reflexivity|].
        destruct (cb c); [destruct (K4 eq_refl eq_refl)|reflexivity].
      * replace (w1 ++ l2 ++ k ++ r') with ((w1 ++ l2 ++ k) ++ r') by (rewrite <- !app_assoc; reflexivity). apply always_ok_ext. exact K5.
      * rewrite app_assoc. apply chain_ext. exact K6.
      * exact K7.
      * rewrite <- pos_after_app. rewrite <- app_assoc. exact E0.
Qed.
End ChainlChunk.
