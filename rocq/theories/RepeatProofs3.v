(** Repetition, end: [chainr1] with its fuel, [take_until], [repeat_until], [iterate], [escaped]. *)
From Coq Require Import String List Bool Arith NArith Lia.
Import ListNotations.
From Verif Require Import Base Parser Token Combinator Sequence Choice Repeat Spec SeqProofs CombProofs ChoiceSpec ChoiceProofs
  TidySpec TidyProofs RepeatSpec RepeatProofs RepeatProofs2.
Unset Implicit Arguments.

Section RepeatProofs3.
Context {C : Cfg}.
Notation T := (tok C).
Notation E := (Err C).
Notation beh := (@Spec.beh C).

(** ** chainr1 *)
Section Chainr.
Context {S1 S2 A : Type} (p : parser C S1 A) (op : parser C S2 (A -> A -> A)).
Notation bp := (p_lazy p : beh A).
Notation bo := (p_lazy op : beh (A -> A -> A)).

Lemma fresh_chainr1 i : fresh (chainr1 p op) i = chainr_lazy (fuel C) p op i.
Proof. unfold fresh, chainr1, mk_lazy, lazy_run. cbn [p_run p_init]. destruct (chainr_lazy (fuel C) p op i) as [[r j]| |]; auto. Qed.

Lemma chainr1_ok i c v i' : fresh (chainr1 p op) i <> OOF -> (succeeds (fresh (chainr1 p op)) i c v i' <-> chr bp bo i c v i').
Proof.
  intros Hn. unfold succeeds. rewrite fresh_chainr1 in *. split.
  - intros H. apply chainr_sound in H. destruct c; exact H.
  - intros H. destruct (chainr_complete p op _ _ _ _ H) as [n H1].
    destruct (chainr_lazy (fuel C) p op i) as [x| |] eqn:Hx.
    + destruct (chainr_mono p op (fuel C)) as [M1 _]. destruct (chainr_mono p op n) as [M2 _].
      pose proof (M1 (max n (fuel C)) i x ltac:(lia) Hx). pose proof (M2 (max n (fuel C)) i _ ltac:(lia) H1). congruence.
    + exfalso. 
      assert (Hp : forall n, (forall m i, n <= m -> chainr_lazy n p op i = Panic -> chainr_lazy m p op i = Panic) /\
        (forall m l c i, n <= m -> chainr_loop n p op l c i = Panic -> chainr_loop m p op l c i = Panic)).
      { clear. induction n as [|n [IH1 IH2]]; [split; intros; discriminate|]. split.
        - intros m i Hm H. destruct m as [|m]; [lia|]. rewrite chainr_lazy_S in *.
          destruct (p_lazy p i) as [[r j]| |]; cbn [obind] in *; try discriminate; auto. destruct r; auto; try discriminate; apply IH2; auto; lia.
        - intros m l c i Hm H. destruct m as [|m]; [lia|]. rewrite chainr_loop_S in *.
          destruct (p_lazy op i) as [[r j]| |]; cbn [obind] in *; try discriminate; auto. destruct (into_std r) as [[f rest]|[e|e]]; try discriminate.
          destruct (chainr_lazy n p op j) as [[r2 j2]| |] eqn:Hl; cbn [obind] in H; try discriminate.
          + destruct (chainr_mono p op n) as [M _]. rewrite (M m j _ ltac:(lia) Hl). cbn [obind].
            destruct (into_std r2) as [[v rest2]|[e|e]]; try discriminate. apply IH2; auto; lia.
          + rewrite (IH1 m j ltac:(lia) Hl). auto. }
      destruct (Hp (fuel C)) as [M1 _]. destruct (chainr_mono p op n) as [M2 _].
      pose proof (M1 (max n (fuel C)) i ltac:(lia) Hx). pose proof (M2 (max n (fuel C)) i _ ltac:(lia) H1). congruence.
    + contradiction.
Qed.

Lemma chainr1_fails_peek i : fails (fresh (chainr1 p op)) i false <-> fails bp i false /\ 0 < fuel C.
Proof.
  unfold fails at 1, fails_with. split.
  - intros [e [r [j [H [He Hc]]]]]. rewrite fresh_chainr1 in H. destruct (fuel C) as [|n] eqn:Hf; [discriminate|]. split; [|lia].
    apply chainr_sound in H. destruct r; simpl in *; try discriminate. exact H.
  - intros [Hf Hn]. apply fails_peek in Hf. destruct Hf as [t [j Hf]]. destruct (fuel C) as [|n] eqn:Hfu; [lia|].
    exists (terr t), (PeekErr t), j. rewrite fresh_chainr1, Hfu, chainr_lazy_S, Hf. auto.
Qed.

Lemma chainr_total : productive bp -> productive bo -> total bp -> total bo -> forall n,
  (forall i, 2 * length (rest i) < n -> exists r j, chainr_lazy n p op i = Done (r, j) /\ (is_ok r = true -> shorter j i)) /\
  (forall l c i, 2 * length (rest i) < n -> exists r j, chainr_loop n p op l c i = Done (r, j) /\ (is_ok r = true -> length (rest j) <= length (rest i))).
Proof.
  intros Pp Po Tp To. unfold shorter. induction n as [n IH] using (well_founded_induction lt_wf). 
  destruct n as [|n]; [split; intros; lia|]. destruct (IH n ltac:(lia)) as [IH1 IH2]. split.
  - intros i Hn. rewrite chainr_lazy_S. destruct (Tp i) as [[r i1] Hr]. rewrite Hr. cbn [obind].
    assert (Hk : forall a c, is_ok r = true -> exists r0 j, chainr_loop n p op a c i1 = Done (r0, j) /\ (is_ok r0 = true -> length (rest j) < length (rest i))).
    { intros a c Ho. pose proof (Pp _ _ _ Hr Ho) as Hs. unfold shorter in Hs. destruct (IH2 a c i1 ltac:(lia)) as [r0 [j [H1 H2]]].
      exists r0, j. split; auto. intros K. specialize (H2 K). lia. }
    destruct r; try (apply Hk; auto; fail); do 2 eexists; (split; [reflexivity|discriminate]).
  - intros l c i Hn. rewrite chainr_loop_S. destruct (To i) as [[r i1] Hr]. rewrite Hr. cbn [obind].
    pose proof (into_std_okr r) as Hso. destruct (into_std r) as [[f rest1]|[e|e]]; try (do 2 eexists; (split; [reflexivity|simpl; auto]); discriminate).
    assert (Ho : is_ok r = true) by (subst r; destruct (cb rest1); auto).
    pose proof (Po _ _ _ Hr Ho) as Hs. unfold shorter in Hs. destruct (IH1 i1 ltac:(lia)) as [r2 [j2 [H1 H2]]]. rewrite H1. cbn [obind].
    pose proof (into_std_okr r2) as Hs2. destruct (into_std r2) as [[v rest2]|[e|e]].
    + assert (Ho2 : is_ok r2 = true) by (subst r2; destruct (cb rest2); auto). specialize (H2 Ho2).
      destruct (IH2 (f l v) (commit_merge (commit_merge c rest1) rest2) j2 ltac:(lia)) as [r3 [j3 [H3 H4]]]. exists r3, j3. split; auto.
      intros K. specialize (H4 K). lia.
    + do 2 eexists; (split; [reflexivity|discriminate]).
    + do 2 eexists; (split; [reflexivity|]). intros _. lia.
Qed.

Lemma chainr1_total : productive bp -> productive bo -> total bp -> total bo -> forall i, 2 * length (rest i) < fuel C ->
  exists x, fresh (chainr1 p op) i = Done x.
Proof. intros A1 A2 A3 A4 i Hn. rewrite fresh_chainr1. destruct (chainr_total A1 A2 A3 A4 (fuel C)) as [H _]. destruct (H i Hn) as [r [j [-> _]]]. eauto. Qed.
End Chainr.

(** A chain with nothing dropped, over any two behaviours. *)
Lemma cht_fold {A} (bp : beh A) (bo : beh (A -> A -> A)) i c2 fs ib : reps (pair_ok2 bo bp) i c2 fs ib -> fails bo ib false ->
  forall x c, cht bp bo x c i (c || c2) (foldr_chain x fs) ib.
Proof.
  intros H Hf. induction H as [i|i c1 [f v] i1 c2 fs i' Hok H IH]; intros x c; simpl.
  - rewrite orb_false_r. apply cht_stop. auto.
  - destruct Hok as [d1 [j [d2 [K1 [K2 ->]]]]]. simpl in *.
    eapply cht_step; [exact K1| |].
    + eapply chr_operand; [exact K2|]. apply (IH Hf).
    + rewrite (orb_assoc c (d1 || d2) c2), (orb_assoc c d1 d2).
      replace (c || d1 || d2 || c2) with (c || d1 || (d2 || c2)) by (rewrite orb_assoc; auto). apply cht_stop. exact Hf.
Qed.
Lemma chr_fold {A} (bp : beh A) (bo : beh (A -> A -> A)) i c1 x i1 c2 fs i' :
  succeeds bp i c1 x i1 -> reps (pair_ok2 bo bp) i1 c2 fs i' -> fails bo i' false ->
  chr bp bo i (c1 || c2) (foldr_chain x fs) i'.
Proof. intros H1 H2 H3. eapply chr_operand; [exact H1|]. apply cht_fold; auto. Qed.

(** A trailing operator without operand is read and dropped. *)
Lemma cht_fold_drop {A} (bp : beh A) (bo : beh (A -> A -> A)) i c2 fs ib c3 f i' :
  reps (pair_ok2 bo bp) i c2 fs ib -> succeeds bo ib c3 f i' -> fails bp i' false -> fails bo i' false ->
  forall x c, cht bp bo x c i (c || c2 || c3) (foldr_chain x fs) i'.
Proof.
  intros H Hs Hf Ho. induction H as [i|i c1 [g v] i1 c2 fs ib Hok H IH]; intros x c; simpl.
  - rewrite orb_false_r. eapply cht_drop; eauto.
  - destruct Hok as [d1 [j [d2 [K1 [K2 ->]]]]]. simpl in *.
    eapply cht_step; [exact K1| |].
    + eapply chr_operand; [exact K2|]. apply (IH Hs).
    + replace (c || (d1 || d2 || c2) || c3) with (c || d1 || (d2 || c2 || c3)) by (rewrite !orb_assoc; auto). apply cht_stop. exact Ho.
Qed.
Lemma chr_fold_drop {A} (bp : beh A) (bo : beh (A -> A -> A)) i c1 x i1 c2 fs ib c3 f i' :
  succeeds bp i c1 x i1 -> reps (pair_ok2 bo bp) i1 c2 fs ib -> succeeds bo ib c3 f i' -> fails bp i' false -> fails bo i' false ->
  chr bp bo i (c1 || c2 || c3) (foldr_chain x fs) i'.
Proof. intros H1 H2 H3 H4 H5. eapply chr_operand; [exact H1|]. eapply cht_fold_drop; eauto. Qed.

(** ** take_until *)
Section TakeUntil.
Context {S A : Type} (Clean : S -> Prop) (p : parser C S A) (Hi : Clean (p_init p)) (Hr : run_hyg false Clean (p_run p)).
Notation b := (fresh p).

Lemma passed_one (i : input C) t l : rest i = t :: l -> fails b i false -> passed b i true t (Inp l (pos_step C (ipos i) t) (ipart i)).
Proof. intros H1 H2. split; auto. split; auto. split; auto. Qed.

Lemma take_until_fwd part : forall l cm out pos st r j st', Clean st -> take_until_loop p true cm part out l pos st = Done (r, j, st') ->
  exists c ts ib, reps (passed b) (Inp l pos part) c ts ib /\
   ((exists c1 x k, succeeds b ib c1 x k /\ r = okr (cb cm || c || c1) (out ++ ts) /\ j = ib) \/
    (exists e, fails_with b ib true e /\ r = CommitErr e) \/
    (rest ib = [] /\ fails b ib false /\ r = wrap_stream_error ib (se_eoi C) /\ j = ib)).
Proof.
  assert (Hstop : forall i cm out (r : PR A E) i' r0 j (st' : list T * S), b i = Done (r, i') ->
    match into_std r with
    | inl (_, rest) => Done (match commit_merge cm rest with Commit _ => CommitOk out | Peek _ => PeekOk out end, i, st')
    | inr (Peek _) => OOF
    | inr (Commit e) => Done (CommitErr (terr e), i, st')
    end = Done (r0, j, st') ->
    exists c ts ib, reps (passed b) i c ts ib /\
   ((exists c1 x k, succeeds b ib c1 x k /\ r0 = okr (cb cm || c || c1) (out ++ ts) /\ j = ib) \/
    (exists e, fails_with b ib true e /\ r0 = CommitErr e) \/
    (rest ib = [] /\ fails b ib false /\ r0 = wrap_stream_error ib (se_eoi C) /\ j = ib))).
  { intros i cm out r i' r0 j st' Hb H. pose proof (into_std_okr r) as Hso. exists false, [], i. split; [constructor|].
    rewrite app_nil_r, orb_false_r. destruct (into_std r) as [[x d]|[e|e]]; inversion H; subst.
    - left. exists (cb d), x, i'. split; auto. split; auto. destruct cm as [[]|[]], d as [[]|[]]; auto.
    - right. left. exists (terr e). split; auto. apply fails_with_commit. eauto. }
  induction l as [|t l IH]; intros cm out pos st r j st' Hc H; cbn [take_until_loop] in H.
  - destruct (p_run p true _ st) as [[[r1 i1] st1]| |] eqn:Hrun; cbn [obind] in H; try discriminate.
    destruct (step_fwd _ p Hi Hr _ _ _ _ _ Hc Hrun) as [Hb Hc1].
    destruct r1 as [a|a|e|t1].
    + refine (Hstop _ cm out _ _ r j st' Hb _). cbn [into_std] in *. inversion H; subst; auto.
    + refine (Hstop _ cm out _ _ r j st' Hb _). cbn [into_std] in *. inversion H; subst; auto.
    + refine (Hstop _ cm out _ _ r j st' Hb _). cbn [into_std] in *. inversion H; subst; auto.
    + exists false, [], (Inp [] pos part). split; [constructor|]. right. right. split; auto.
      assert (Hf : fails b (Inp [] pos part) false) by (apply fails_peek; eauto). split; auto.
      unfold s_uncons, uncons, wrap_stream_error in *. cbn in *. destruct part; inversion H; subst; auto.
  - destruct (p_run p true _ st) as [[[r1 i1] st1]| |] eqn:Hrun; cbn [obind] in H; try discriminate.
    destruct (step_fwd _ p Hi Hr _ _ _ _ _ Hc Hrun) as [Hb Hc1].
    destruct r1 as [a|a|e|t1].
    + refine (Hstop _ cm out _ _ r j st' Hb _). cbn [into_std] in *. inversion H; subst; auto.
    + refine (Hstop _ cm out _ _ r j st' Hb _). cbn [into_std] in *. inversion H; subst; auto.
    + refine (Hstop _ cm out _ _ r j st' Hb _). cbn [into_std] in *. inversion H; subst; auto.
    + cbn [into_std] in H. destruct (IH _ _ _ _ _ _ _ (Hc1 I) H) as [c [ts [ib [H1 H2]]]].
      exists (true || c), (t :: ts), ib. split.
      { eapply reps_cons; [|exact H1]. apply (passed_one (Inp (t :: l) pos part)); auto. apply fails_peek. eauto. }
      destruct H2 as [[c1 [x [k [H2 [H3 H4]]]]]|H2]; [left|right; auto]. exists c1, x, k. split; auto. split; auto.
      rewrite H3, <- app_assoc. destruct (cb cm); reflexivity.
Qed.

Lemma take_until_bwd : forall i c ts ib, reps (passed b) i c ts ib -> forall cm out st, Clean st ->
  (forall c1 x k, succeeds b ib c1 x k -> exists st', take_until_loop p true cm (ipart i) out (rest i) (ipos i) st = Done (okr (cb cm || c || c1) (out ++ ts), ib, st')) /\
  (forall e, fails_with b ib true e -> exists j st', take_until_loop p true cm (ipart i) out (rest i) (ipos i) st = Done (CommitErr e, j, st')) /\
  (rest ib = [] -> fails b ib false -> exists st', take_until_loop p true cm (ipart i) out (rest i) (ipos i) st = Done (wrap_stream_error ib (se_eoi C), ib, st')).
Proof.
  intros i c ts ib H. induction H as [i|i c t i1 c' ts ib Hok H IH]; intros cm out st Hc.
  - rewrite app_nil_r, orb_false_r. destruct i as [l pos part]. cbn [rest ipos ipart]. split; [|split].
    + intros c1 x k Hs. destruct (step_bwd _ p Hi Hr _ _ _ _ Hc Hs) as [st1 [Hrun _]].
      destruct l; cbn [take_until_loop]; rewrite Hrun; cbn [obind]; eexists; destruct c1, cm as [[]|[]]; reflexivity.
    + intros e He. apply fails_with_commit in He. destruct He as [k He]. destruct (step_bwd _ p Hi Hr _ _ _ _ Hc He) as [st1 [Hrun _]].
      destruct l; cbn [take_until_loop]; rewrite Hrun; cbn [obind into_std]; eauto.
    + intros -> Hf. apply fails_peek in Hf. destruct Hf as [t [j Hf]]. destruct (step_bwd _ p Hi Hr _ _ _ _ Hc Hf) as [st1 [Hrun _]].
      cbn [take_until_loop]. rewrite Hrun. cbn [obind into_std]. unfold s_uncons, uncons, wrap_stream_error. cbn. destruct part; eauto.
  - destruct Hok as [-> [Hf [Ha [Hpo Hpa]]]]. destruct i as [l pos part]. cbn [rest ipos ipart] in *. simpl in Ha. subst l.
    destruct i1 as [l1 pos1 part1]. cbn [rest ipos ipart] in *. subst.
    apply fails_peek in Hf. destruct Hf as [tk [j Hf]]. destruct (step_bwd _ p Hi Hr _ _ _ _ Hc Hf) as [st1 [Hrun Hx]].
    destruct (IH (Commit tt) (out ++ [t]) st1 (Hx I)) as [I1 [I2 I3]].
    cbn [take_until_loop]. rewrite Hrun. cbn [obind into_std]. rewrite <- app_assoc in I1. simpl in I1.
    split; [|split]; auto. replace (cb cm || (true || c')) with true by (destruct (cb cm); auto). exact I1.
Qed.
End TakeUntil.

Section TakeUntil2.
Context {S A : Type} (p : parser C S A) (Hp : history_free false p).
Notation b := (fresh p).
Let Hi := left_init false p.
Let Hr := history_free_run_hyg false p Hp.
Lemma fresh_take_until i : fresh (take_until p) i = omap fst (take_until_loop p true (Peek tt) (ipart i) [] (rest i) (ipos i) (p_init p)).
Proof. reflexivity. Qed.
Lemma inp_eta (i : input C) : Inp (rest i) (ipos i) (ipart i) = i.
Proof. destruct i; auto. Qed.

Lemma take_until_ok i c l i' : succeeds (fresh (take_until p)) i c l i' <->
  exists c1 c2 x k, reps (passed b) i c1 l i' /\ succeeds b i' c2 x k /\ c = c1 || c2.
Proof.
  unfold succeeds at 1. rewrite fresh_take_until. split.
  - intros H. destruct (take_until_loop p true _ _ _ _ _ _) as [[[r j] s]| |] eqn:Hl; simpl in H; try discriminate. inversion H; subst.
    destruct (take_until_fwd _ p Hi Hr _ _ _ _ _ _ _ _ _ Hi Hl) as [c1 [ts [ib [H1 [[c2 [x [k [H2 [H3 ->]]]]]|[[e [_ H2]]|[_ [_ [H2 _]]]]]]]]].
    + rewrite inp_eta in H1. apply okr_inj in H3. destruct H3 as [-> ->]. exists c1, c2, x, k. auto.
    + destruct c; discriminate.
    + unfold wrap_stream_error in H2. destruct c, (ipart ib); discriminate.
  - intros [c1 [c2 [x [k [H1 [H2 ->]]]]]]. destruct (take_until_bwd _ p Hi Hr _ _ _ _ H1 (Peek tt) [] _ Hi) as [I1 _].
    destruct (I1 _ _ _ H2) as [st' ->]. auto.
Qed.
Lemma take_until_fails i c : fails (fresh (take_until p)) i c <->
  exists c1 l i', reps (passed b) i c1 l i' /\
    ((fails b i' true /\ c = true) \/ (rest i' = [] /\ fails b i' false /\ c = ipart i)).
Proof.
  assert (Hpart : forall i c l i', reps (passed b) i c l i' -> ipart i' = ipart i).
  { intros i0 c0 l i' H. induction H as [i0|i0 c0 t i1 c' ts ib Hok H IH]; auto. destruct Hok as [_ [_ [_ [_ Hq]]]]. congruence. }
  unfold fails at 1, fails_with. split.
  - intros [e [r [j [H [He Hc]]]]]. rewrite fresh_take_until in H.
    destruct (take_until_loop p true _ _ _ _ _ _) as [[[r1 j1] s]| |] eqn:Hl; simpl in H; try discriminate. inversion H; subst.
    destruct (take_until_fwd _ p Hi Hr _ _ _ _ _ _ _ _ _ Hi Hl) as [c1 [ts [ib [H1 [[c2 [x [k [H2 [H3 ->]]]]]|[[e1 [H2 ->]]|[H2 [H3 [-> _]]]]]]]]].
    + subst r. rewrite okr_not_error in He. discriminate.
    + rewrite inp_eta in H1. exists c1, ts, ib. split; auto. left. split; auto. eexists; eauto.
    + rewrite inp_eta in H1. exists c1, ts, ib. split; auto. right. split; auto. split; auto.
      rewrite <- (Hpart _ _ _ _ H1). unfold wrap_stream_error. destruct (ipart ib); auto.
  - intros [c1 [l [i' [H1 H2]]]]. destruct (take_until_bwd _ p Hi Hr _ _ _ _ H1 (Peek tt) [] _ Hi) as [_ [I2 I3]].
    rewrite fresh_take_until. destruct H2 as [[[e He] ->]|[H2 [H3 ->]]].
    + destruct (I2 e He) as [j [st' ->]]. exists e, (CommitErr e), j. auto.
    + destruct (I3 H2 H3) as [st' ->]. rewrite <- (Hpart _ _ _ _ H1). unfold wrap_stream_error.
      destruct (ipart i'); do 3 eexists; (split; [reflexivity|split; reflexivity]).
Qed.
Lemma take_until_total : total b -> forall i, exists x, fresh (take_until p) i = Done x.
Proof.
  intros Ht i. rewrite fresh_take_until.
  assert (H : forall l cm part out pos st, leftover false p st -> exists x, take_until_loop p true cm part out l pos st = Done x).
  { induction l as [|t l IH]; intros cm part out pos st Hc; cbn [take_until_loop].
    - destruct (Ht (Inp [] pos part)) as [[r j] Hb]. destruct (step_bwd _ p Hi Hr _ _ _ _ Hc Hb) as [st1 [-> Hx]]. cbn [obind].
      destruct r; cbn [into_std]; eauto. unfold s_uncons, uncons, wrap_stream_error. cbn. destruct part; eauto.
    - destruct (Ht (Inp (t :: l) pos part)) as [[r j] Hb]. destruct (step_bwd _ p Hi Hr _ _ _ _ Hc Hb) as [st1 [-> Hx]]. cbn [obind].
      destruct r; cbn [into_std]; eauto. apply IH. apply Hx. exact I. }
  destruct (H (rest i) (Peek tt) (ipart i) [] (ipos i) (p_init p) Hi) as [x ->]. simpl. eauto.
Qed.
End TakeUntil2.

(** ** repeat_until *)
Section RepeatUntil.
Context {S1 S2 A B : Type} (p : parser C S1 A) (e : parser C S2 B) (Hp : history_free false p) (He : history_free false e).
Notation bp := (fresh p).
Notation be := (fresh e).
Let Hpi := left_init false p.
Let Hpr := history_free_run_hyg false p Hp.
Let Hei := left_init false e.
Let Her := history_free_run_hyg false e He.

Lemma repeat_until_fwd n : forall cm i out ps es r j st', leftover false p ps -> leftover false e es ->
  repeat_until_loop n p e true cm i out false ps es = Done (r, j, st') ->
  exists c l ib, reps (item_ok be bp) i c l ib /\
   ((exists c1 x k, succeeds be ib c1 x k /\ r = okr (cb cm || c || c1) (out ++ l) /\ j = ib /\ 2 * length l < n) \/
    (exists er, fails_with be ib true er /\ r = CommitErr er /\ 2 * length l < n) \/
    (exists er, fails be ib false /\ fails_with bp ib (committed r) er /\ error_of r = Some er /\ 2 * length l + 1 < n)).
Proof.
  induction n as [n IH] using (well_founded_induction lt_wf). intros cm i out ps es r j st' Hps Hes H.
  destruct n as [|n]; [discriminate|]. cbn [repeat_until_loop] in H.
  destruct (p_run e true i es) as [[[r1 i1] es1]| |] eqn:Hrun; cbn [obind] in H; try discriminate.
  destruct (step_fwd _ e Hei Her _ _ _ _ _ Hes Hrun) as [Hb Hc1]. destruct r1 as [a|a|er|t]; cbn [into_std] in H.
  - exists false, [], i. split; [constructor|]. left. exists true, a, i1. inversion H; subst. rewrite app_nil_r, orb_false_r. split; auto.
    split; [destruct cm as [[]|[]]; auto|]. split; [auto|simpl; lia].
  - exists false, [], i. split; [constructor|]. left. exists false, a, i1. inversion H; subst. rewrite app_nil_r, orb_false_r. split; auto.
    split; [destruct cm as [[]|[]]; auto|]. split; [auto|simpl; lia].
  - exists false, [], i. split; [constructor|]. right. left. exists er. inversion H; subst. split; [apply fails_with_commit; eauto|]. split; [auto|simpl; lia].
  - destruct n as [|n]; [discriminate|]. cbn [repeat_until_loop] in H. specialize (Hc1 I).
    assert (Hf : fails be i false) by (apply fails_peek; eauto).
    destruct (p_run p true i ps) as [[[r2 i2] ps1]| |] eqn:Hrun2; cbn [obind] in H; try discriminate.
    destruct (step_fwd _ p Hpi Hpr _ _ _ _ _ Hps Hrun2) as [Hb2 Hc2]. destruct r2 as [a|a|er|t2].
    + destruct (IH n ltac:(lia) _ _ _ _ _ _ _ _ (Hc2 I) Hc1 H) as [c [l [ib [H1 H2]]]].
      exists (true || c), (a :: l), ib. split. { eapply reps_cons; [|exact H1]. split; [exact Hf|exact Hb2]. }
      rewrite cb_merge, <- app_assoc in H2. simpl in H2. replace (cb cm || true || c) with (cb cm || (true || c)) in H2 by (rewrite orb_assoc; auto).
      destruct H2 as [[c1 [x [k [K1 [K2 [K3 K4]]]]]]|[[er [K1 [K2 K3]]]|[er [K1 [K2 [K3 K4]]]]]].
      * left. exists c1, x, k. cbn [length]. split; [auto|split; [auto|split; [auto|lia]]].
      * right. left. exists er. cbn [length]. split; [auto|split; [auto|lia]].
      * right. right. exists er. cbn [length]. split; [auto|split; [auto|split; [auto|lia]]].
    + destruct (IH n ltac:(lia) _ _ _ _ _ _ _ _ (Hc2 I) Hc1 H) as [c [l [ib [H1 H2]]]].
      exists (false || c), (a :: l), ib. split. { eapply reps_cons; [|exact H1]. split; [exact Hf|exact Hb2]. }
      rewrite cb_merge, <- app_assoc in H2. simpl in H2. replace (cb cm || false || c) with (cb cm || (false || c)) in H2 by (rewrite orb_assoc; auto).
      destruct H2 as [[c1 [x [k [K1 [K2 [K3 K4]]]]]]|[[er [K1 [K2 K3]]]|[er [K1 [K2 [K3 K4]]]]]].
      * left. exists c1, x, k. cbn [length]. split; [auto|split; [auto|split; [auto|lia]]].
      * right. left. exists er. cbn [length]. split; [auto|split; [auto|lia]].
      * right. right. exists er. cbn [length]. split; [auto|split; [auto|split; [auto|lia]]].
    + exists false, [], i. split; [constructor|]. right. right. exists er. inversion H; subst. split; auto. split; [apply fails_with_commit; eauto|]. split; [auto|simpl; lia].
    + exists false, [], i. split; [constructor|]. right. right. exists (terr t2). inversion H; subst. split; auto. split; [do 2 eexists; split; [exact Hb2|auto]|]. split; [auto|simpl; lia].
Qed.

Lemma repeat_until_bwd : forall i c l ib, reps (item_ok be bp) i c l ib -> forall n cm out ps es, leftover false p ps -> leftover false e es ->
  (forall c1 x k, succeeds be ib c1 x k -> 2 * length l < n ->
     exists st', repeat_until_loop n p e true cm i out false ps es = Done (okr (cb cm || c || c1) (out ++ l), ib, st')) /\
  (forall er, fails_with be ib true er -> 2 * length l < n -> exists j st', repeat_until_loop n p e true cm i out false ps es = Done (CommitErr er, j, st')) /\
  (forall er c1, fails be ib false -> fails_with bp ib c1 er -> 2 * length l + 1 < n ->
     exists r j st', repeat_until_loop n p e true cm i out false ps es = Done (r, j, st') /\ error_of r = Some er /\ committed r = c1).
Proof.
  intros i c l ib H. induction H as [i|i c a i1 c' l ib Hok H IH]; intros n cm out ps es Hps Hes.
  - destruct n as [|n]; [split; [|split]; intros; lia|]. rewrite app_nil_r, orb_false_r. cbn [repeat_until_loop]. split; [|split].
    + intros c1 x k Hs _. destruct (step_bwd _ e Hei Her _ _ _ _ Hes Hs) as [st1 [-> _]]. cbn [obind]. eexists; destruct c1, cm as [[]|[]]; reflexivity.
    + intros er Hf _. apply fails_with_commit in Hf. destruct Hf as [k Hf]. destruct (step_bwd _ e Hei Her _ _ _ _ Hes Hf) as [st1 [-> _]]. cbn [obind into_std]. eauto.
    + intros er c1 Hf [r [j [K1 [K2 K3]]]] Hn. apply fails_peek in Hf. destruct Hf as [t [k Hf]].
      destruct (step_bwd _ e Hei Her _ _ _ _ Hes Hf) as [st1 [-> _]]. cbn [obind into_std]. destruct n as [|n]; [simpl in Hn; lia|]. cbn [repeat_until_loop].
      destruct (step_bwd _ p Hpi Hpr _ _ _ _ Hps K1) as [st2 [-> _]]. cbn [obind]. destruct r; simpl in *; try discriminate; do 3 eexists; (split; [reflexivity|auto]).
  - destruct Hok as [Hf Hs]. cbn [length]. destruct n as [|[|n]]; [split; [|split]; intros; lia|split; [|split]; intros; lia|].
    apply fails_peek in Hf. destruct Hf as [t [k Hf]].
    destruct (step_bwd _ e Hei Her _ _ _ _ Hes Hf) as [es1 [Hr1 Hx1]]. cbn [repeat_until_loop]. rewrite Hr1. cbn [obind into_std].
    destruct (step_bwd _ p Hpi Hpr _ _ _ _ Hps Hs) as [ps1 [-> Hx2]]. cbn [obind].
    assert (Hps1 : leftover false p ps1) by (apply Hx2; destruct c; exact I).
    destruct (IH n (commit_merge cm (if c then Commit tt else Peek tt)) (out ++ [a]) ps1 es1 Hps1 (Hx1 I)) as [I1 [I2 I3]].
    rewrite <- app_assoc, cb_merge in I1. simpl in I1.
    assert (Hcb : cb (if c then Commit tt else Peek tt) = c) by (destruct c; auto). rewrite Hcb, <- orb_assoc in I1.
    split; [|split].
    + intros c1 x k1 Hs1 Hn. destruct (I1 c1 x k1 Hs1 ltac:(lia)) as [st' Hq]. exists st'. destruct c; exact Hq.
    + intros er Hs1 Hn. destruct (I2 er Hs1 ltac:(lia)) as [j [st' Hq]]. exists j, st'. destruct c; exact Hq.
    + intros er c1 Hs1 Hs2 Hn. destruct (I3 er c1 Hs1 Hs2 ltac:(lia)) as [r [j [st' Hq]]]. exists r, j, st'. destruct c; exact Hq.
Qed.

Lemma fresh_repeat_until i : fresh (repeat_until p e) i = omap fst (repeat_until_loop (fuel C) p e true (Peek tt) i [] false (p_init p) (p_init e)).
Proof. reflexivity. Qed.

Lemma repeat_until_ok i c l i' : succeeds (fresh (repeat_until p e)) i c l i' <->
  exists c1 c2 x k, reps (item_ok be bp) i c1 l i' /\ succeeds be i' c2 x k /\ c = c1 || c2 /\ 2 * length l < fuel C.
Proof.
  unfold succeeds at 1. rewrite fresh_repeat_until. split.
  - intros H. destruct (repeat_until_loop _ _ _ _ _ _ _ _ _ _) as [[[r j] s]| |] eqn:Hl; simpl in H; try discriminate. inversion H; subst.
    destruct (repeat_until_fwd _ _ _ _ _ _ _ _ _ Hpi Hei Hl) as [c1 [ts [ib [H1 [[c2 [x [k [H2 [H3 [-> H4]]]]]]|[[er [_ [H2 _]]]|[er [_ [_ [H2 _]]]]]]]]]].
    + apply okr_inj in H3. destruct H3 as [-> ->]. exists c1, c2, x, k. auto.
    + destruct c; discriminate.
    + destruct c; discriminate.
  - intros [c1 [c2 [x [k [H1 [H2 [-> H4]]]]]]]. destruct (repeat_until_bwd _ _ _ _ H1 (fuel C) (Peek tt) [] _ _ Hpi Hei) as [I1 _].
    destruct (I1 _ _ _ H2 H4) as [st' ->]. auto.
Qed.
Lemma repeat_until_fails i c er : fails_with (fresh (repeat_until p e)) i c er <->
  exists c1 l i', reps (item_ok be bp) i c1 l i' /\
    ((fails_with be i' true er /\ c = true /\ 2 * length l < fuel C) \/
     (fails be i' false /\ fails_with bp i' c er /\ 2 * length l + 1 < fuel C)).
Proof.
  unfold fails_with at 1. split.
  - intros [r [j [H [K Hc]]]]. rewrite fresh_repeat_until in H.
    destruct (repeat_until_loop _ _ _ _ _ _ _ _ _ _) as [[[r1 j1] s]| |] eqn:Hl; simpl in H; try discriminate. inversion H; subst.
    destruct (repeat_until_fwd _ _ _ _ _ _ _ _ _ Hpi Hei Hl) as [c1 [ts [ib [H1 [[c2 [x [k [H2 [H3 [-> H4]]]]]]|[[er1 [H2 [-> H3]]]|[er1 [H2 [H3 [H4 H5]]]]]]]]]].
    + subst r. rewrite okr_not_error in K. discriminate.
    + exists c1, ts, ib. split; auto. left. inversion K; subst. auto.
    + exists c1, ts, ib. split; auto. right. rewrite H4 in K. inversion K; subst. auto.
  - intros [c1 [l [i' [H1 H2]]]]. destruct (repeat_until_bwd _ _ _ _ H1 (fuel C) (Peek tt) [] _ _ Hpi Hei) as [_ [I2 I3]].
    rewrite fresh_repeat_until. destruct H2 as [[H2 [-> H3]]|[H2 [H3 H4]]].
    + destruct (I2 _ H2 H3) as [j [st' ->]]. do 2 eexists. split; [reflexivity|split; reflexivity].
    + destruct (I3 _ _ H2 H3 H4) as [r [j [st' [-> [K1 K2]]]]]. exists r, j. auto.
Qed.
End RepeatUntil.

(** ** iterate *)
Section Iterate.
Context {J S A : Type} (f : J -> parser C S A) (s0 : S) (Clean : S -> Prop).
Context (H0 : Clean s0) (Hs0 : forall x, p_init (f x) = s0) (Hr : forall x, run_hyg false Clean (p_run (f x))).
Notation bs items := (List.map (fun x => fresh (f x)) items).

Let Hi x : Clean (p_init (f x)).
Proof. rewrite Hs0. exact H0. Qed.

Lemma iterate_fwd : forall items cm i st l o c j st', Clean st -> iterate_items f true cm items i st = Done (l, o, c, j, st') ->
  match o with
  | None => exists c', runs_all (bs items) i c' l j /\ c = cm || c'
  | Some (x, post, r) => exists pre c' ib c2, items = pre ++ x :: post /\ runs_all (bs pre) i c' l ib /\ fails (fresh (f x)) ib c2 /\
      committed r = cm || c' || c2 /\ (exists e, error_of r = Some e /\ fails_with (fresh (f x)) ib c2 e)
  end.
Proof.
  induction items as [|x items IH]; intros cm i st l o c j st' Hc H; cbn [iterate_items] in H.
  - inversion H; subst. exists false. rewrite orb_false_r. split; auto. constructor.
  - destruct (p_run (f x) true i st) as [[[r i1] st1]| |] eqn:Hrun; cbn [obind] in H; try discriminate.
    destruct (step_fwd _ (f x) (Hi x) (Hr x) _ _ _ _ _ Hc Hrun) as [Hb Hc1].
    assert (Hstep : forall v c1, succeeds (fresh (f x)) i c1 v i1 -> Clean st1 ->
      omap (fun z => match z with (l, o, c, i2, s2) => (v :: l, o, c, i2, s2) end) (iterate_items f true (cm || c1) items i1 st1) = Done (l, o, c, j, st') ->
      match o with
      | None => exists c', runs_all (bs (x :: items)) i c' l j /\ c = cm || c'
      | Some (y, post, r) => exists pre c' ib c2, x :: items = pre ++ y :: post /\ runs_all (bs pre) i c' l ib /\ fails (fresh (f y)) ib c2 /\
          committed r = cm || c' || c2 /\ (exists e, error_of r = Some e /\ fails_with (fresh (f y)) ib c2 e)
      end).
    { intros v c1 Hs Hcl Hq. destruct (iterate_items f true (cm || c1) items i1 st1) as [[[[[l1 o1] c2] j1] s1]| |] eqn:Hit; simpl in Hq; try discriminate.
      inversion Hq; subst. apply (IH _ _ _ _ _ _ _ _ Hcl) in Hit. destruct o as [[[y post] r0]|].
      - destruct Hit as [pre [c' [ib [c3 [K1 [K2 [K3 [K4 K5]]]]]]]]. exists (x :: pre), (c1 || c'), ib, c3. subst items. split; auto.
        split. { eapply ra_cons; eauto. } split; auto. split; auto. rewrite K4, !orb_assoc. auto.
      - destruct Hit as [c' [K1 K2]]. exists (c1 || c'). split. { eapply ra_cons; eauto. } rewrite K2, orb_assoc. auto. }
    destruct r as [v|v|er|t].
    + apply (Hstep v true Hb (Hc1 I)). rewrite orb_true_r. exact H.
    + apply (Hstep v false Hb (Hc1 I)). rewrite orb_false_r. exact H.
    + inversion H; subst. exists [], false, i, true. split; auto. split; [constructor|]. split; [apply fails_commit; eauto|]. split; [rewrite orb_true_r; auto|].
      exists er. split; auto. apply fails_with_commit. eauto.
    + inversion H; subst. exists [], false, j, false. split; auto. split; [constructor|]. split; [apply fails_peek; eauto|].
      rewrite !orb_false_r. split; [destruct c; auto|]. exists (terr t). split; [destruct c; auto|]. do 2 eexists; split; [exact Hb|auto].
Qed.
Lemma iterate_bwd_ok : forall items i c' l j, runs_all (bs items) i c' l j -> forall cm st, Clean st ->
  exists st', iterate_items f true cm items i st = Done (l, None, cm || c', j, st').
Proof.
  induction items as [|x items IH]; intros i c' l j H cm st Hc; cbn [List.map] in H; inversion H as [|b bs0 i0 c a i1 c'' l' i' Hs Hra]; subst; cbn [iterate_items].
  - rewrite orb_false_r. eauto.
  - destruct (step_bwd _ (f x) (Hi x) (Hr x) _ _ _ _ Hc Hs) as [st1 [-> Hx]]. cbn [obind].
    assert (Hc1 : Clean st1) by (apply Hx; destruct c; exact I).
    destruct (IH _ _ _ _ Hra (cm || c) st1 Hc1) as [st' Hq]. exists st'. rewrite orb_assoc.
    destruct c; [rewrite orb_true_r in *|rewrite orb_false_r in *]; simpl; rewrite Hq; auto.
Qed.
Lemma iterate_bwd_fail : forall pre x post i c' l ib c2 e, runs_all (bs pre) i c' l ib -> fails_with (fresh (f x)) ib c2 e -> forall cm st, Clean st ->
  exists r c j st', iterate_items f true cm (pre ++ x :: post) i st = Done (l, Some (x, post, r), c, j, st') /\ committed r = cm || c' || c2 /\ error_of r = Some e.
Proof.
  induction pre as [|y pre IH]; intros x post i c' l ib c2 e H Hf cm st Hc; cbn [List.map app] in H |- *; inversion H as [|b bs0 i0 c a i1 c'' l' i' Hs Hra]; subst; cbn [iterate_items].
  - destruct Hf as [r [k [K1 [K2 K3]]]]. destruct (step_bwd _ (f x) (Hi x) (Hr x) _ _ _ _ Hc K1) as [st1 [-> Hx]]. cbn [obind]. rewrite orb_false_r.
    destruct r as [a|a|er|t]; simpl in *; try discriminate; subst c2; do 4 eexists; (split; [reflexivity|]); rewrite ?orb_true_r, ?orb_false_r; destruct cm; auto.
  - destruct (step_bwd _ (f y) (Hi y) (Hr y) _ _ _ _ Hc Hs) as [st1 [-> Hx]]. cbn [obind].
    assert (Hc1 : Clean st1) by (apply Hx; destruct c; exact I).
    destruct (IH x post _ _ _ _ _ _ Hra Hf (cm || c) st1 Hc1) as [r [c3 [j [st' [Hq [K1 K2]]]]]]. exists r, c3, j, st'. rewrite orb_assoc.
    destruct c; [rewrite orb_true_r in *|rewrite orb_false_r in *]; simpl; rewrite Hq; auto.
Qed.

Lemma fresh_iterate items i : fresh (iterate s0 items f) i =
  omap (fun z => match z with (l, o, c, i', next') =>
      match o with
      | Some (x, items', r) => (r, i')
      | None => (okr c l, i')
      end end) (iterate_items f true false items i s0).
Proof.
  unfold fresh, iterate, mk_mode, iterate_run. cbn [p_run p_init]. destruct (iterate_items f true false items i s0) as [[[[[l o] c] j] s]| |]; cbn [omap fst]; auto.
  destruct o as [[[x its] r]|]; auto.
Qed.
Lemma iterate_ok items i c l i' : succeeds (fresh (iterate s0 items f)) i c l i' <-> runs_all (bs items) i c l i'.
Proof.
  unfold succeeds. rewrite fresh_iterate. split.
  - intros H. destruct (iterate_items f true false items i s0) as [[[[[l1 o] c1] j] s]| |] eqn:Hit; cbn [omap] in H; try discriminate.
    apply (iterate_fwd _ _ _ _ _ _ _ _ _ H0) in Hit. destruct o as [[[x its] r]|].
    + destruct Hit as [pre [c' [ib [c2 [_ [_ [_ [_ [e [He _]]]]]]]]]]. inversion H; subst. rewrite okr_not_error in He. discriminate.
    + destruct Hit as [c' [K1 ->]]. apply done_okr_inj in H. destruct H as [? [? ?]]; subst. auto.
  - intros H. destruct (iterate_bwd_ok _ _ _ _ _ H false s0 H0) as [st' ->]. auto.
Qed.
Lemma iterate_fails items i c e : fails_with (fresh (iterate s0 items f)) i c e <->
  exists pre x post c1 l i' c2, items = pre ++ x :: post /\ runs_all (bs pre) i c1 l i' /\ fails_with (fresh (f x)) i' c2 e /\ c = c1 || c2.
Proof.
  unfold fails_with at 1. setoid_rewrite fresh_iterate. split.
  - intros [r [j [H [K1 K2]]]]. destruct (iterate_items f true false items i s0) as [[[[[l1 o] c1] j1] s]| |] eqn:Hit; cbn [omap] in H; try discriminate.
    apply (iterate_fwd _ _ _ _ _ _ _ _ _ H0) in Hit. destruct o as [[[x its] r0]|].
    + destruct Hit as [pre [c' [ib [c2 [Q1 [Q2 [_ [Q4 [e1 [Q5 Q6]]]]]]]]]]. inversion H; subst. rewrite Q5 in K1. inversion K1; subst.
      exists pre, x, its, c', l1, ib, c2. auto.
    + inversion H; subst. rewrite okr_not_error in K1. discriminate.
  - intros [pre [x [post [c1 [l [i' [c2 [-> [Q2 [Q3 ->]]]]]]]]]]. destruct (iterate_bwd_fail _ _ post _ _ _ _ _ _ Q2 Q3 false s0 H0) as [r [c3 [j [st' [Hq [K1 K2]]]]]].
    exists r, j. rewrite Hq. auto.
Qed.
End Iterate.

(** ** escaped *)
Section Escaped.
Context (L : lawful C).
Context {S1 S2 A B : Type} (p : parser C S1 A) (esc : T) (q : parser C S2 B).
Notation bp := (p_lazy p : beh A).
Notation bq := (freshc q).
Context (Hres : restores bp).

(** The text ends here: no normal text and no escape token (and not the end of a chunk). *)
Definition escaped_end (i : input C) : Prop :=
  fails bp i false /\ (rest i = [] -> ipart i = false) /\ (forall t l, rest i = t :: l -> t <> esc).
(** The text is broken here. *)
Definition escaped_broken (i : input C) : Prop :=
  fails bp i true \/ (fails bp i false /\ rest i = [] /\ ipart i = true) \/
  (exists i1 c, fails bp i false /\ advanced_by i [esc] i1 /\ fails bq i1 c).

Lemma adv1 (i : input C) t l i1 : rest i = t :: l -> (advanced_by i [esc] i1 <-> t = esc /\ i1 = Inp l (pos_step C (ipos i) t) (ipart i)).
Proof.
  intros Hr. unfold advanced_by. rewrite Hr. split.
  - intros [H1 [H2 H3]]. simpl in H1. inversion H1. subst t. split; auto. destruct i1 as [l1 p1 b1]. cbn [rest ipos ipart] in *.
    rewrite H2, H3. reflexivity.
  - intros [-> ->]. auto.
Qed.
Lemma adv1_nil (i : input C) i1 : rest i = [] -> ~ advanced_by i [esc] i1.
Proof. intros Hr [H _]. rewrite Hr in H. discriminate. Qed.

Lemma escaped_fwd n : forall cm i r j, escaped_loop n p esc q cm i = Done (r, j) ->
  exists c l ib, reps (escaped_step bp esc bq) i c l ib /\ length l < n /\
   ((escaped_end ib /\ r = okr (cb cm || c) tt /\ j = ib) \/ (escaped_broken ib /\ committed r = true /\ exists e, error_of r = Some e)).
Proof.
  induction n as [|n IH]; intros cm i r j H; [discriminate|]. cbn [escaped_loop] in H.
  destruct (p_lazy p i) as [[r1 i1]| |] eqn:Hp; cbn [obind] in H; try discriminate.
  assert (Hstep : forall c1 i2, escaped_step bp esc bq i c1 tt i2 -> escaped_loop n p esc q (if c1 then Commit tt else cm) i2 = Done (r, j) ->
    exists c l ib, reps (escaped_step bp esc bq) i c l ib /\ length l < S n /\
     ((escaped_end ib /\ r = okr (cb cm || c) tt /\ j = ib) \/ (escaped_broken ib /\ committed r = true /\ exists e, error_of r = Some e))).
  { intros c1 i2 Hs Hl. destruct (IH _ _ _ _ Hl) as [c [l [ib [K1 [K2 K3]]]]]. exists (c1 || c), (tt :: l), ib.
    split. { eapply reps_cons; eauto. } split; [simpl; lia|]. destruct K3 as [[K3 [K4 K5]]|K3]; [left|right; auto].
    split; auto. split; auto. rewrite K4. destruct c1; simpl; destruct (cb cm); auto. }
  destruct r1 as [a|a|er|t].
  - apply (Hstep true i1); auto. left. exists a. exact Hp.
  - apply (Hstep false i1); auto. left. exists a. exact Hp.
  - inversion H; subst. exists false, [], i. split; [constructor|]. split; [simpl; lia|]. right. split; [|simpl; eauto].
    left. apply fails_commit. eauto.
  - pose proof (Hres _ _ _ Hp) as Hq. subst i1. assert (Hf : fails bp i false) by (apply fails_peek; eauto).
    unfold s_uncons, uncons, wrap_stream_error in H. destruct (rest i) as [|t0 l0] eqn:Hrest; cbn in H.
    + destruct (ipart i) eqn:Hpart.
      * inversion H; subst. exists false, [], j. split; [constructor|]. split; [simpl; lia|]. right. split; [|simpl; eauto]. right. left. auto.
      * inversion H; subst. exists false, [], j. split; [constructor|]. split; [simpl; lia|]. left. rewrite orb_false_r.
        split; [|split; [destruct cm as [[]|[]]; auto|auto]]. split; auto. split; auto. intros t1 l1 K. rewrite Hrest in K. discriminate.
    + destruct (tok_eqb C t0 esc) eqn:Heq.
      * apply (law_tok L) in Heq. subst t0. set (i2 := Inp l0 (pos_step C (ipos i) esc) (ipart i)) in *.
        assert (Ha : advanced_by i [esc] i2) by (apply (adv1 _ _ _ i2 Hrest); auto).
        destruct (p_cmode q true i2 (p_init q)) as [[[r2 i3] s3]| |] eqn:Hc; cbn [obind] in H; try discriminate.
        assert (Hb : bq i2 = Done (r2, i3)) by (unfold freshc; rewrite Hc; auto).
        destruct r2 as [a|a|er|t2].
        -- apply (Hstep true i3); auto. right. exists i2, a. auto.
        -- apply (Hstep false i3); auto. right. exists i2, a. auto.
        -- inversion H; subst. exists false, [], i. split; [constructor|]. split; [simpl; lia|]. right. split; [|simpl; eauto].
           right. right. exists i2, true. split; auto. split; auto. apply fails_commit. eauto.
        -- inversion H; subst. exists false, [], i. split; [constructor|]. split; [simpl; lia|]. right. split; [|simpl; eauto].
           right. right. exists i2, false. split; auto. split; auto. apply fails_peek. eauto.
      * inversion H; subst. exists false, [], j. split; [constructor|]. split; [simpl; lia|]. left. rewrite orb_false_r.
        split; [|split; [destruct cm as [[]|[]]; auto|auto]]. split; auto. split; [intros K; rewrite Hrest in K; discriminate|].
        intros t1 l1 K ->. rewrite Hrest in K. inversion K; subst. assert (tok_eqb C esc esc = true) by (apply (law_tok L); auto). congruence.
Qed.

Lemma escaped_bwd : forall i c l ib, reps (escaped_step bp esc bq) i c l ib -> forall n cm, length l < n ->
  (escaped_end ib -> escaped_loop n p esc q cm i = Done (okr (cb cm || c) tt, ib)) /\
  (escaped_broken ib -> exists e j, escaped_loop n p esc q cm i = Done (CommitErr e, j)).
Proof.
  intros i c l ib H. induction H as [i|i c u i1 c' l ib Hok H IH]; intros n cm Hn; (destruct n as [|n]; [simpl in Hn; lia|]); cbn [escaped_loop].
  - rewrite orb_false_r. split.
    + intros [Hf [He Ht]]. apply fails_peek in Hf. destruct Hf as [t [j Hf]]. pose proof (Hres _ _ _ Hf). subst j. rewrite Hf. cbn [obind].
      unfold s_uncons, uncons, wrap_stream_error. destruct (rest i) as [|t0 l0] eqn:Hrest; cbn.
      * rewrite (He eq_refl). destruct cm as [[]|[]]; auto.
      * destruct (tok_eqb C t0 esc) eqn:Heq; [|destruct cm as [[]|[]]; auto]. apply (law_tok L) in Heq. destruct (Ht _ _ eq_refl Heq).
    + intros [Hf|[[Hf [Hrest Hpart]]|[i1 [c [Hf [Ha Hq]]]]]].
      * apply fails_commit in Hf. destruct Hf as [e [j Hf]]. rewrite Hf. cbn [obind]. eauto.
      * apply fails_peek in Hf. destruct Hf as [t [j Hf]]. pose proof (Hres _ _ _ Hf). subst j. rewrite Hf. cbn [obind].
        unfold s_uncons, uncons, wrap_stream_error. rewrite Hrest. rewrite Hpart. eauto.
      * apply fails_peek in Hf. destruct Hf as [t [j Hf]]. pose proof (Hres _ _ _ Hf). subst j. rewrite Hf. cbn [obind].
        unfold s_uncons, uncons. destruct (rest i) as [|t0 l0] eqn:Hrest; [destruct (adv1_nil _ _ Hrest Ha)|].
        apply (adv1 _ _ _ _ Hrest) in Ha. destruct Ha as [-> ->]. replace (tok_eqb C esc esc) with true by (symmetry; apply (law_tok L); auto).
        destruct Hq as [e [r [k [K1 [K2 K3]]]]]. unfold freshc in K1. destruct (p_cmode q true _ (p_init q)) as [[[r2 i3] s3]| |]; try discriminate.
        simpl in K1. inversion K1; subst. cbn [obind]. destruct r; simpl in *; try discriminate; eauto.
  - simpl in Hn. destruct Hok as [[a Hs]|[i2 [x [Hf [Ha Hs]]]]].
    + unfold succeeds in Hs. rewrite Hs. cbn [obind]. destruct (IH n (if c then Commit tt else cm) ltac:(lia)) as [I1 I2].
      destruct c; cbn [okr]; split; auto; intros K; specialize (I1 K); rewrite I1; simpl; destruct (cb cm); auto.
    + apply fails_peek in Hf. destruct Hf as [t [j Hf]]. pose proof (Hres _ _ _ Hf). subst j. rewrite Hf. cbn [obind].
      unfold s_uncons, uncons. destruct (rest i) as [|t0 l0] eqn:Hrest; [destruct (adv1_nil _ _ Hrest Ha)|].
      apply (adv1 _ _ _ _ Hrest) in Ha. destruct Ha as [-> ->]. replace (tok_eqb C esc esc) with true by (symmetry; apply (law_tok L); auto).
      unfold succeeds, freshc in Hs. destruct (p_cmode q true _ (p_init q)) as [[[r2 i3] s3]| |]; try discriminate.
      simpl in Hs. inversion Hs; subst. cbn [obind]. destruct (IH n (if c then Commit tt else cm) ltac:(lia)) as [I1 I2].
      destruct c; cbn [okr]; split; auto; intros K; specialize (I1 K); rewrite I1; simpl; destruct (cb cm); auto.
Qed.

Lemma fresh_escaped i : fresh (escaped p esc q) i = escaped_loop (fuel C) p esc q (Peek tt) i.
Proof. unfold fresh, escaped, mk_lazy, lazy_run. cbn [p_run p_init]. destruct (escaped_loop (fuel C) p esc q (Peek tt) i) as [[r j]| |]; auto. Qed.
Lemma escaped_ok i c u i' : succeeds (fresh (escaped p esc q)) i c u i' <->
  exists l, reps (escaped_step bp esc bq) i c l i' /\ escaped_end i' /\ length l < fuel C.
Proof.
  unfold succeeds. rewrite fresh_escaped. split.
  - intros H. destruct (escaped_fwd _ _ _ _ _ H) as [c1 [l [ib [K1 [K2 [[K3 [K4 ->]]|[_ [_ [e K3]]]]]]]]].
    + apply okr_inj in K4. destruct K4 as [-> _]. simpl. eauto.
    + rewrite okr_not_error in K3. discriminate.
  - intros [l [K1 [K2 K3]]]. destruct (escaped_bwd _ _ _ _ K1 (fuel C) (Peek tt) K3) as [I1 _]. rewrite (I1 K2). destruct u. auto.
Qed.
Lemma escaped_fails i c : fails (fresh (escaped p esc q)) i c <->
  c = true /\ exists c1 l i', reps (escaped_step bp esc bq) i c1 l i' /\ escaped_broken i' /\ length l < fuel C.
Proof.
  unfold fails at 1, fails_with. setoid_rewrite fresh_escaped. split.
  - intros [e [r [j [H [K1 K2]]]]]. destruct (escaped_fwd _ _ _ _ _ H) as [c1 [l [ib [Q1 [Q2 [[Q3 [-> ->]]|[Q3 [Q4 _]]]]]]]].
    + rewrite okr_not_error in K1. discriminate.
    + split; [congruence|]. exists c1, l, ib. auto.
  - intros [-> [c1 [l [i' [K1 [K2 K3]]]]]]. destruct (escaped_bwd _ _ _ _ K1 (fuel C) (Peek tt) K3) as [_ I1]. destruct (I1 K2) as [e [j Hq]].
    exists e, (CommitErr e), j. auto.
Qed.
End Escaped.
End RepeatProofs3.
