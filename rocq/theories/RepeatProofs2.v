(** Repetition, continued: [sep_by], [sep_end_by*], [chainl1], [chainr1], [take_until], [repeat_until], [iterate],
    [escaped]. *)
From Coq Require Import String List Bool Arith NArith Lia.
Import ListNotations.
From Verif Require Import Base Parser Token Combinator Sequence Choice Repeat Spec SeqProofs CombProofs ChoiceSpec ChoiceProofs
  TidySpec TidyProofs RepeatSpec RepeatProofs.
Unset Implicit Arguments.

Section RepeatProofs2.
Context {C : Cfg}.
Notation T := (tok C).
Notation E := (Err C).
Notation beh := (@Spec.beh C).

(** ** sep_by *)
Lemma or_value_ok {S A} (p : parser C S A) (v : A) (b : beh A) : ordered_choice [fresh p; fresh (value v)] b ->
  (forall i c a i', succeeds b i c a i' <-> succeeds (fresh p) i c a i' \/ (c = false /\ a = v /\ i' = i /\ fails (fresh p) i false)) /\
  (forall i c, fails b i c <-> c = true /\ fails (fresh p) i true).
Proof.
  intros [H1 [H2 H3]].
  assert (Hv : forall i, fresh (@value C A v) i = Done (PeekOk v, i)) by reflexivity.
  assert (Hno : forall i, ~ none_matches [fresh p; fresh (@value C A v)] i).
  { intros i Hn. inversion Hn; subst. inversion H5; subst. apply (fun x => succeeds_not_fails (fresh (@value C A v)) i false v i false x H6). apply Hv. }
  assert (Hch : forall i r i', chosen [fresh p; fresh (@value C A v)] i r i' ->
    (fresh p i = Done (r, i') /\ backtracks r = false) \/ (fails (fresh p) i false /\ r = PeekOk v /\ i' = i)).
  { intros i r i' Hc.
    remember [fresh p; fresh (@value C A v)] as bs eqn:Hbs. destruct Hc as [b0 bs i r i' Hb Hk|b0 bs i r0 i0 r i' Hb Hk Hc]; inversion Hbs; subst.
    - left; auto.
    - right. split. { destruct r0; simpl in Hk; try discriminate. apply fails_peek. eauto. }
      remember [fresh (@value C A v)] as bs eqn:Hbs2. destruct Hc as [b1 bs i r i' Hb1 Hk1|b1 bs i r1 i1 r i' Hb1 Hk1 Hc]; inversion Hbs2; subst.
      + rewrite Hv in Hb1. inversion Hb1; auto.
      + inversion Hc. }
  split.
  - intros i c a i'. split.
    + intros Hs. destruct (H3 _ _ _ Hs) as [Hc|Hc]; [|destruct (Hno _ Hc)]. destruct (Hch _ _ _ Hc) as [[Hb _]|[Hf [Hq ->]]].
      * left. auto.
      * right. destruct c; inversion Hq; auto.
    + intros [Hs|[-> [-> [-> Hf]]]].
      * apply H1. apply chosen_here; auto. destruct c; auto.
      * apply fails_peek in Hf. destruct Hf as [t [j Hf]]. apply H1. eapply chosen_later; [exact Hf|auto|]. apply chosen_here; auto.
  - intros i c. split.
    + intros [e [r [j [Hs [He Hc]]]]]. destruct (H3 _ _ _ Hs) as [Hcs|Hcs]; [|destruct (Hno _ Hcs)]. destruct (Hch _ _ _ Hcs) as [[Hb Hk]|[Hf [-> _]]].
      * destruct r; simpl in *; try discriminate. split; auto. apply fails_commit. eauto.
      * discriminate.
    + intros [-> Hf]. apply fails_commit in Hf. destruct Hf as [e [j Hf]]. apply fails_commit. exists e, j. apply H1. apply chosen_here; auto.
Qed.

Lemma sep_by_choice {S1 S2 A B} (p : parser C S1 A) (sep : parser C S2 B) :
  ordered_choice [fresh (sep_by1 p sep); fresh (value (@nil A))] (fresh (sep_by p sep)).
Proof. exact (choice_run_first (AC (sep_by1 p sep) (AL (value (@nil A)))) None). Qed.
Lemma sep_end_by_choice {S1 S2 A B} (p : parser C S1 A) (sep : parser C S2 B) :
  ordered_choice [fresh (sep_end_by1 p sep); fresh (value (@nil A))] (fresh (sep_end_by p sep)).
Proof. exact (choice_run_first (AC (sep_end_by1 p sep) (AL (value (@nil A)))) None). Qed.

(** ** iter_scan *)
Section Scan.
Context {S A : Type} (Clean : S -> Prop) (p : parser C S (option A)) (Hi : Clean (p_init p)) (Hr : run_hyg false Clean (p_run p)).
Notation b := (fresh p).
Notation some := (fun i c (a : A) i' => succeeds b i c (Some a) i').

Lemma iter_scan_fwd n : forall c0 i st l is c j st', Clean st -> iter_scan n p true c0 i st = Done (l, is, c, j, st') ->
  exists c' ib, reps some i c' l ib /\ length l < n /\
   match is with
   | ISOk => exists c2, succeeds b ib c2 None j /\ c = c0 || c' || c2
   | ISPeek e => c = c0 || c' /\ j = ib /\ fails_with b ib false e
   | ISCommit e => fails_with b ib true e
   end.
Proof.
  induction n as [|n IH]; intros c0 i st l is c j st' Hc H; simpl in H; [discriminate|].
  destruct (p_run p true i st) as [[[r i1] st1]| |] eqn:Hp; simpl in H; try discriminate.
  destruct (step_fwd _ p Hi Hr _ _ _ _ _ Hc Hp) as [Hb Hc1]. destruct r as [[a|]|[a|]|e|t].
  - destruct (iter_scan n p true true i1 st1) as [[[[[l1 is1] c1] j1] s1]| |] eqn:Hit; simpl in H; inversion H; subst.
    destruct (IH _ _ _ _ _ _ _ _ (Hc1 I) Hit) as [c' [ib [H1 [H2 H3]]]]. exists (true || c'), ib.
    split; [apply (reps_step some i true a i1 c'); [exact Hb|exact H1]|]. split; [simpl; lia|].
    destruct is as [|e|e]; auto.
    + destruct H3 as [c2 [H3 H4]]. exists c2. split; auto. rewrite H4. destruct c0; reflexivity.
    + destruct H3 as [H3 H4]. split; auto. rewrite H3. destruct c0; reflexivity.
  - inversion H; subst. exists false, i. split; [constructor|]. split; [simpl; lia|]. exists true. split; auto. destruct c0; reflexivity.
  - destruct (iter_scan n p true c0 i1 st1) as [[[[[l1 is1] c1] j1] s1]| |] eqn:Hit; simpl in H; inversion H; subst.
    destruct (IH _ _ _ _ _ _ _ _ (Hc1 I) Hit) as [c' [ib [H1 [H2 H3]]]]. exists (false || c'), ib.
    split; [apply (reps_step some i false a i1 c'); [exact Hb|exact H1]|]. split; [simpl; lia|]. auto.
  - inversion H; subst. exists false, i. split; [constructor|]. split; [simpl; lia|]. exists false. split; auto. destruct c; reflexivity.
  - inversion H; subst. exists false, i. split; [constructor|]. split; [simpl; lia|]. apply fails_with_commit. eauto.
  - inversion H; subst. exists false, j. split; [constructor|]. split; [simpl; lia|]. rewrite orb_false_r. split; auto. split; auto.
    exists (PeekErr t), i1. auto.
Qed.

Lemma iter_scan_bwd : forall i c' l ib, reps some i c' l ib -> forall n c0 st, Clean st -> length l < n ->
  (forall e, fails_with b ib false e -> exists st', iter_scan n p true c0 i st = Done (l, ISPeek e, c0 || c', ib, st')) /\
  (forall e, fails_with b ib true e -> exists j c st', iter_scan n p true c0 i st = Done (l, ISCommit e, c, j, st')) /\
  (forall c2 j, succeeds b ib c2 None j -> exists st', iter_scan n p true c0 i st = Done (l, ISOk, c0 || c' || c2, j, st')).
Proof.
  intros i c' l ib H. induction H as [i|i c a i1 c' l i' Hok H IH]; intros n c0 st Hc Hn.
  - destruct n as [|n]; [simpl in Hn; lia|]. split; [|split].
    + intros e [r [i' [H1 [H2 H3]]]]. simpl. destruct (step_bwd _ p Hi Hr _ _ _ _ Hc H1) as [st' [-> Hx]]. destruct r; simpl in *; try discriminate.
      inversion H2; subst. rewrite orb_false_r. exists st'. auto.
    + intros e He. simpl. apply fails_with_commit in He. destruct He as [i' H1]. destruct (step_bwd _ p Hi Hr _ _ _ _ Hc H1) as [st' [-> Hx]]. simpl. eauto.
    + intros c2 j Hs. simpl. destruct (step_bwd _ p Hi Hr _ _ _ _ Hc Hs) as [st' [-> Hx]]. exists st'. destruct c2; simpl; rewrite orb_false_r; auto.
      * rewrite orb_true_r. auto.
      * rewrite orb_false_r. auto.
  - destruct n as [|n]; [simpl in Hn; lia|]. simpl in Hn. unfold succeeds in Hok. destruct (step_bwd _ p Hi Hr _ _ _ _ Hc Hok) as [st1 [Hrun Hx]].
    assert (Hc1 : Clean st1) by (apply Hx; destruct c; exact I).
    destruct (IH n (c0 || c) st1 Hc1 ltac:(lia)) as [IH1 [IH2 IH3]]. rewrite orb_assoc. split; [|split]; simpl; rewrite Hrun; simpl.
    + intros e He. destruct (IH1 e He) as [st' Hit]. exists st'. destruct c; simpl.
      * rewrite orb_true_r in Hit |- *. simpl in *. rewrite Hit. auto.
      * rewrite orb_false_r in Hit |- *. rewrite Hit. simpl. auto.
    + intros e He. destruct (IH2 e He) as [j [c1 [st' Hit]]]. exists j, c1, st'. destruct c; simpl.
      * rewrite orb_true_r in Hit. simpl in *. rewrite Hit. auto.
      * rewrite orb_false_r in Hit. rewrite Hit. simpl. auto.
    + intros c2 j Hs. destruct (IH3 c2 j Hs) as [st' Hit]. exists st'. destruct c; simpl.
      * rewrite orb_true_r in Hit |- *. simpl in *. rewrite Hit. auto.
      * rewrite orb_false_r in Hit |- *. rewrite Hit. simpl. auto.
Qed.
End Scan.

Section SepEnd.
Context {S1 S2 A B : Type} (p : parser C S1 A) (sep : parser C S2 B).
Context (Hp : history_free false p) (Hs : history_free false sep).
Notation bp := (fresh p).
Notation bs := (fresh sep).
Let w := with_ (by_ref sep) (optional (by_ref p)).
Let Cw := pair_clean (A:=unit) (B:=option A) (leftover false sep) (leftover false p).
Let Hw : hyg false Cw w :=
  hyg_with false _ _ (by_ref sep) (optional (by_ref p)) (history_free_by_ref false sep Hs) (hyg_optional _ _ _ (history_free_by_ref false p Hp)).
Let s0 (s : S1) : sep_state S1 S2 (option A) := (((None, p_init sep), (None, s)), 0%N).

Lemma sew_some i c a i' : succeeds (fresh w) i c (Some a) i' <-> pair_ok bs bp i c a i'.
Proof.
  destruct (with_runs (by_ref sep) (optional (by_ref p))) as [H _]. unfold w. rewrite H. split.
  - intros [c1 [x [i1 [c2 [y [K1 [K2 [-> <-]]]]]]]]. exists c1, x, i1, c2. split; auto. split; auto.
    destruct (optional_spec (by_ref p) i1) as [_ [_ [_ [Ho _]]]]. destruct (Ho _ _ _ K2) as [[a' [Ha Hsu]]|[Ha _]]; try discriminate.
    inversion Ha; subst. exact Hsu.
  - intros [c1 [x [i1 [c2 [K1 [K2 ->]]]]]]. exists c1, x, i1, c2, (Some a). split; auto. split; auto.
    destruct (optional_spec (by_ref p) i1) as [Ho _]. apply Ho. exact K2.
Qed.
Lemma sew_none i c i' : succeeds (fresh w) i c None i' <-> exists x, succeeds bs i c x i' /\ fails bp i' false.
Proof.
  destruct (with_runs (by_ref sep) (optional (by_ref p))) as [H _]. unfold w. rewrite H. split.
  - intros [c1 [x [i1 [c2 [y [K1 [K2 [-> <-]]]]]]]].
    destruct (optional_spec (by_ref p) i1) as [_ [_ [_ [Ho _]]]]. destruct (Ho _ _ _ K2) as [[a' [Ha _]]|[_ [-> [-> Hf]]]]; try discriminate.
    rewrite orb_false_r. exists x. split; [exact K1|exact Hf].
  - intros [x [K1 K2]]. exists c, x, i', false, None. rewrite orb_false_r. split; auto. split; auto.
    destruct (optional_spec (by_ref p) i') as [_ [Ho _]]. apply Ho. exact K2.
Qed.
Lemma sew_fails_peek i : fails (fresh w) i false <-> fails bs i false.
Proof.
  destruct (with_runs (by_ref sep) (optional (by_ref p))) as [_ H]. unfold w. rewrite H. split; [|auto].
  intros [K|[c1 [a [i1 [c2 [K1 [[e K2] Hc]]]]]]]; auto.
  destruct (optional_spec (by_ref p) i1) as [_ [_ [_ [_ Ho]]]]. destruct (Ho _ _ K2) as [-> _]. rewrite orb_true_r in Hc. discriminate.
Qed.
Lemma sew_fails_commit i : fails (fresh w) i true <-> fails bs i true \/ exists c x i1, succeeds bs i c x i1 /\ fails bp i1 true.
Proof.
  destruct (with_runs (by_ref sep) (optional (by_ref p))) as [_ H]. unfold w. rewrite H. split.
  - intros [K|[c1 [a [i1 [c2 [K1 [[e K2] Hc]]]]]]]; auto. right.
    destruct (optional_spec (by_ref p) i1) as [_ [_ [_ [_ Ho]]]]. destruct (Ho _ _ K2) as [-> K3]. exists c1, a, i1. split; auto. exists e. exact K3.
  - intros [K|[c1 [a [i1 [K1 [e K2]]]]]]; auto. right. exists c1, a, i1, true. rewrite orb_true_r. split; auto. split; auto.
    exists e. destruct (optional_spec (by_ref p) i1) as [_ [_ [Ho _]]]. apply Ho. exact K2.
Qed.
Lemma sew_reps i c l i' : reps (fun i c a i' => succeeds (fresh w) i c (Some a) i') i c l i' <-> reps (pair_ok bs bp) i c l i'.
Proof. split; apply reps_mono; intros; apply sew_some; auto. Qed.

Lemma clean_s0' s : leftover false p s -> Cw (s0 s).
Proof. intros H. exact (conj (left_init false sep) H). Qed.

Lemma fresh_sep_end_by1 i : fresh (sep_end_by1 p sep) i =
  obind (p_run p true i (p_init p)) (fun x => match x with (r, i', s) =>
    match r with
    | PeekErr e => Done (PeekErr e, i')
    | CommitErr e => Done (CommitErr e, i')
    | PeekOk a => omap (fun x => match x with (l, is, c, i', s) => (fst (into_result_fast (a :: l) is c), i') end)
        (iter_scan (fuel C) w true false i' (s0 s))
    | CommitOk a => omap (fun x => match x with (l, is, c, i', s) => (combine_commit (Commit tt) (fun _ => fst (into_result_fast (a :: l) is c)), i') end)
        (iter_scan (fuel C) w true false i' (s0 s))
    end end).
Proof.
  unfold fresh, sep_end_by1, mk_mode, sep_end_by1_run. cbn [p_run p_init]. unfold sep_get. cbn [snd fst with_ mk_both p_init pair2 tuple mk_mode tup_init by_ref ignore optional].
  destruct (p_run p true i (p_init p)) as [[[r j] s]| |]; cbn [obind]; auto.
  unfold sep_end_by1_rest. fold w. destruct r; cbn [obind omap]; auto; apply omap_comp; intros [[[[l is] c] j2] s2];
    cbn [app]; destruct (into_result_fast (a :: l) is c); auto.
Qed.

(** How the list ends at [ib], leaving [i']; [c] tells if a trailing separator was committed. *)
Definition sep_end_stop ib c i' : Prop :=
  (fails bs ib false /\ i' = ib /\ c = false) \/ (exists x, succeeds bs ib c x i' /\ fails bp i' false).
Definition sep_end_stuck ib : Prop := fails bs ib true \/ exists c x i1, succeeds bs ib c x i1 /\ fails bp i1 true.

Lemma sep_end_by1_ok i c l i' : succeeds (fresh (sep_end_by1 p sep)) i c l i' <->
  exists c1 a i1 c2 l' ib c3, succeeds bp i c1 a i1 /\ reps (pair_ok bs bp) i1 c2 l' ib /\ sep_end_stop ib c3 i' /\
    length l' < fuel C /\ l = a :: l' /\ c = c1 || c2 || c3.
Proof.
  pose proof (left_init false p) as Hi. pose proof (history_free_run_hyg false p Hp) as Hr.
  unfold succeeds at 1. rewrite fresh_sep_end_by1. split.
  - intros Ho. destruct (p_run p true i (p_init p)) as [[[r i1] s1]| |] eqn:Hrun; simpl in Ho; try discriminate.
    destruct (step_fwd _ p Hi Hr _ _ _ _ _ Hi Hrun) as [Hb Hc].
    assert (Hk : forall c1 a, succeeds bp i c1 a i1 -> leftover false p s1 ->
      (exists l1 is c2 s, iter_scan (fuel C) w true false i1 (s0 s1) = Done (l1, is, c2, i', s) /\
         fst (into_result_fast (a :: l1) is c2) = okr c2 (a :: l1) /\ @okr _ E (c1 || c2) (a :: l1) = okr c l) ->
      exists c1 a i1 c2 l' ib c3, succeeds bp i c1 a i1 /\ reps (pair_ok bs bp) i1 c2 l' ib /\ sep_end_stop ib c3 i' /\
        length l' < fuel C /\ l = a :: l' /\ c = c1 || c2 || c3).
    { intros c1 a Hsu Hl [l1 [is [c2 [s [Hit [Hin Hq]]]]]]. apply okr_inj in Hq. destruct Hq as [<- <-].
      destruct (iter_scan_fwd _ w (h_init _ _ _ Hw) (h_run _ _ _ Hw) _ _ _ _ _ _ _ _ _ (clean_s0' _ Hl) Hit) as [c' [ib [H1 [H2 H3]]]].
      apply sew_reps in H1. destruct is as [|e|e]; simpl in *.
      - destruct H3 as [c3 [H3 ->]]. exists c1, a, i1, c', l1, ib, c3. rewrite orb_assoc. repeat (split; auto). right. apply sew_none. auto.
      - destruct H3 as [-> [-> H3]]. exists c1, a, i1, c', l1, ib, false. rewrite orb_false_r. repeat (split; auto). left. split; auto.
        apply sew_fails_peek. eexists; eauto.
      - destruct c2; discriminate. }
    destruct r as [a|a|e|e]; simpl in Ho; try (inversion Ho; destruct c; discriminate).
    + specialize (Hc I). destruct (iter_scan (fuel C) w true false i1 _) as [[[[[l1 is] c1] j] s]| |] eqn:Hit; simpl in Ho; try discriminate.
      assert (Hj : i' = j) by (inversion Ho; auto). subst j. apply (Hk true a Hb Hc). exists l1, is, c1, s. split; auto.
      destruct is; simpl in *; try (destruct c1; simpl in *; inversion Ho; auto; fail). inversion Ho. destruct c; discriminate.
    + specialize (Hc I). destruct (iter_scan (fuel C) w true false i1 _) as [[[[[l1 is] c1] j] s]| |] eqn:Hit; simpl in Ho; try discriminate.
      assert (Hj : i' = j) by (inversion Ho; auto). subst j. apply (Hk false a Hb Hc). exists l1, is, c1, s. split; auto.
      destruct is; simpl in *; try (destruct c1; simpl in *; inversion Ho; auto; fail). inversion Ho. destruct c; discriminate.
  - intros [c1 [a [i1 [c2 [l' [ib [c3 [H1 [H2 [H3 [H4 [-> ->]]]]]]]]]]]].
    destruct (step_bwd _ p Hi Hr _ _ _ _ Hi H1) as [st1 [Hrun Hx]]. rewrite Hrun. simpl.
    assert (Hc1 : leftover false p st1) by (apply Hx; destruct c1; exact I). apply sew_reps in H2.
    destruct (iter_scan_bwd _ w (h_init _ _ _ Hw) (h_run _ _ _ Hw) _ _ _ _ H2 (fuel C) false _ (clean_s0' _ Hc1) H4) as [Hb1 [_ Hb3]].
    destruct H3 as [[K [-> ->]]|K].
    + apply sew_fails_peek in K. destruct K as [e K]. destruct (Hb1 e K) as [st' Hit]. rewrite orb_false_r.
      destruct c1; simpl; rewrite Hit; simpl; destruct c2; auto.
    + apply sew_none in K. destruct (Hb3 c3 i' K) as [st' Hit]. simpl in Hit.
      destruct c1; simpl; rewrite Hit; simpl; destruct (c2 || c3); auto.
Qed.

Lemma sep_end_by1_fails i c : fails (fresh (sep_end_by1 p sep)) i c <->
  fails bp i c \/
  (c = true /\ exists c1 a i1 c2 l' ib, succeeds bp i c1 a i1 /\ reps (pair_ok bs bp) i1 c2 l' ib /\ sep_end_stuck ib /\ length l' < fuel C).
Proof.
  pose proof (left_init false p) as Hi. pose proof (history_free_run_hyg false p Hp) as Hr.
  unfold fails at 1, fails_with. split.
  - intros [e0 [r0 [j0 [Ho [He Hc0]]]]]. rewrite fresh_sep_end_by1 in Ho.
    destruct (p_run p true i (p_init p)) as [[[r i1] s1]| |] eqn:Hrun; simpl in Ho; try discriminate.
    destruct (step_fwd _ p Hi Hr _ _ _ _ _ Hi Hrun) as [Hb Hc].
    destruct r as [a|a|e|e]; simpl in Ho.
    + right. specialize (Hc I). destruct (iter_scan (fuel C) w true false i1 _) as [[[[[l1 is] c1] j] s]| |] eqn:Hit; simpl in Ho; try discriminate.
      destruct (iter_scan_fwd _ w (h_init _ _ _ Hw) (h_run _ _ _ Hw) _ _ _ _ _ _ _ _ _ (clean_s0' _ Hc) Hit) as [c' [ib [H1 [H2 H3]]]].
      apply sew_reps in H1. destruct is as [|e|e]; simpl in *; try (destruct c1; inversion Ho; subst; discriminate).
      inversion Ho; subst. split; auto. exists true, a, i1, c', l1, ib. repeat (split; auto). apply sew_fails_commit. eexists; eauto.
    + right. specialize (Hc I). destruct (iter_scan (fuel C) w true false i1 _) as [[[[[l1 is] c1] j] s]| |] eqn:Hit; simpl in Ho; try discriminate.
      destruct (iter_scan_fwd _ w (h_init _ _ _ Hw) (h_run _ _ _ Hw) _ _ _ _ _ _ _ _ _ (clean_s0' _ Hc) Hit) as [c' [ib [H1 [H2 H3]]]].
      apply sew_reps in H1. destruct is as [|e|e]; simpl in *; try (destruct c1; inversion Ho; subst; discriminate).
      inversion Ho; subst. split; auto. exists false, a, i1, c', l1, ib. repeat (split; auto). apply sew_fails_commit. eexists; eauto.
    + left. inversion Ho; subst. exists e, (CommitErr e), j0. auto.
    + left. inversion Ho; subst. exists (terr e), (PeekErr e), j0. auto.
  - intros [[e [r [j [Ho [He Hc]]]]]|[-> [c1 [a [i1 [c2 [l' [ib [H1 [H2 [H3 H4]]]]]]]]]]].
    + exists e. rewrite fresh_sep_end_by1. apply fresh_run in Ho. destruct Ho as [st' ->]. simpl.
      destruct r as [a|a|e1|e1]; simpl in *; try discriminate; do 2 eexists; (split; [reflexivity|auto]).
    + destruct (step_bwd _ p Hi Hr _ _ _ _ Hi H1) as [st1 [Hrun Hx]]. rewrite fresh_sep_end_by1, Hrun. simpl.
      assert (Hc1 : leftover false p st1) by (apply Hx; destruct c1; exact I).
      apply sew_fails_commit in H3. destruct H3 as [e H3]. apply sew_reps in H2.
      destruct (iter_scan_bwd _ w (h_init _ _ _ Hw) (h_run _ _ _ Hw) _ _ _ _ H2 (fuel C) false _ (clean_s0' _ Hc1) H4) as [_ [Hb _]].
      destruct (Hb e H3) as [j [c [st' Hit]]]. exists e, (CommitErr e), j. destruct c1; simpl; rewrite Hit; simpl; auto.
Qed.
End SepEnd.

(** ** chainl1 *)
Definition cb (c : commit unit) : bool := match c with Commit _ => true | Peek _ => false end.
Lemma cb_merge c d : cb (commit_merge c d) = cb c || cb d.
Proof. destruct c as [[]|[]], d as [[]|[]]; reflexivity. Qed.
Lemma from_std_okr {A} (a : A) c : @from_std A E (inl (a, c)) = okr (cb c) a.
Proof. destruct c as [[]|[]]; reflexivity. Qed.

Section Chainl.
Context {S1 S2 A : Type} (p : parser C S1 A) (op : parser C S2 (A -> A -> A)).
Context (Hp : history_free false p) (Ho : history_free false op) (Hst : starts_alike p).
Notation bp := (fresh p).
Notation bo := (fresh op).
Let w := pair2 (by_ref op) (by_ref p).
Let Cw := pair_clean (A:=A -> A -> A) (B:=A) (leftover false op) (leftover false p).
Let Hw : hyg false Cw w := hyg_pair2 false _ _ (by_ref op) (by_ref p) (history_free_by_ref false op Ho) (history_free_by_ref false p Hp).

Lemma clw_ok i c x i' : succeeds (fresh w) i c x i' <-> pair_ok2 bo bp i c x i'.
Proof.
  destruct (pair2_runs (by_ref op) (by_ref p)) as [H _]. unfold w. rewrite H. split.
  - intros [c1 [f [i1 [c2 [y [K1 [K2 [-> ->]]]]]]]]. exists c1, i1, c2. auto.
  - destruct x as [f a]. intros [c1 [i1 [c2 [K1 [K2 ->]]]]]. exists c1, f, i1, c2, a. auto.
Qed.
Lemma clw_fails i c : fails (fresh w) i c <-> pair_fails bo bp i c.
Proof. destruct (pair2_runs (by_ref op) (by_ref p)) as [_ H]. unfold w. rewrite H. reflexivity. Qed.

Lemma chainl_fwd n : forall l c i ch r j st', Cw ch -> chainl_loop n p op true l c i ch = Done (r, j, st') ->
  exists c' fs ib, reps (pair_ok2 bo bp) i c' fs ib /\ length fs < n /\
    ((r = okr (cb c || c') (foldl_chain l fs) /\ j = ib /\ pair_fails bo bp ib false) \/
     (exists e, r = CommitErr e /\ pair_fails bo bp ib true)).
Proof.
  induction n as [|n IH]; intros l c i ch r j st' Hc H; [discriminate|].
  cbn [chainl_loop] in H. fold w in H. destruct (p_run w true i ch) as [[[r1 i1] ch1]| |] eqn:Hrun; simpl in H; try discriminate.
  destruct (step_fwd _ w (h_init _ _ _ Hw) (h_run _ _ _ Hw) _ _ _ _ _ Hc Hrun) as [Hb Hc1].
  destruct r1 as [[f v]|[f v]|e|t]; simpl in H.
  - destruct (IH _ _ _ _ _ _ _ (Hc1 I) H) as [c' [fs [ib [H1 [H2 H3]]]]]. exists (true || c'), ((f, v) :: fs), ib.
    split. { apply (reps_step (pair_ok2 bo bp) i true (f, v) i1 c'); auto. apply clw_ok. exact Hb. } split; [simpl; lia|].
    destruct H3 as [[-> [-> H3]]|H3]; [left|right; auto]. split; auto. rewrite cb_merge. simpl. destruct (cb c); reflexivity.
  - destruct (IH _ _ _ _ _ _ _ (Hc1 I) H) as [c' [fs [ib [H1 [H2 H3]]]]]. exists (false || c'), ((f, v) :: fs), ib.
    split. { apply (reps_step (pair_ok2 bo bp) i false (f, v) i1 c'); auto. apply clw_ok. exact Hb. } split; [simpl; lia|].
    destruct H3 as [[-> [-> H3]]|H3]; [left|right; auto]. split; auto. rewrite cb_merge. simpl. destruct (cb c); reflexivity.
  - inversion H; subst. exists false, [], i. split; [constructor|]. split; [simpl; lia|]. right. exists e. split; auto.
    apply clw_fails. apply fails_commit. eauto.
  - inversion H; subst. exists false, [], j. split; [constructor|]. split; [simpl; lia|]. left. rewrite orb_false_r.
    split; [destruct c as [[]|[]]; auto|]. split; auto. apply clw_fails. apply fails_peek. eauto.
Qed.
Lemma chainl_bwd : forall i c' fs ib, reps (pair_ok2 bo bp) i c' fs ib -> forall n l c ch, Cw ch -> length fs < n ->
  (pair_fails bo bp ib false -> exists st', chainl_loop n p op true l c i ch = Done (okr (cb c || c') (foldl_chain l fs), ib, st')) /\
  (pair_fails bo bp ib true -> exists e j st', chainl_loop n p op true l c i ch = Done (CommitErr e, j, st')).
Proof.
  intros i c' fs ib H. induction H as [i|i c1 [f v] i1 c' fs i' Hok H IH]; intros n l c ch Hc Hn.
  - destruct n as [|n]; [simpl in Hn; lia|]. cbn [chainl_loop]. fold w. split; intros Hf; apply clw_fails in Hf.
    + apply fails_peek in Hf. destruct Hf as [t [j Hf]]. destruct (step_bwd _ w (h_init _ _ _ Hw) (h_run _ _ _ Hw) _ _ _ _ Hc Hf) as [st' [-> Hx]].
      simpl. rewrite orb_false_r. exists (None, st'). destruct c as [[]|[]]; auto.
    + apply fails_commit in Hf. destruct Hf as [e [j Hf]]. destruct (step_bwd _ w (h_init _ _ _ Hw) (h_run _ _ _ Hw) _ _ _ _ Hc Hf) as [st' [-> Hx]].
      simpl. eauto.
  - destruct n as [|n]; [simpl in Hn; lia|]. simpl in Hn. cbn [chainl_loop]. fold w. apply clw_ok in Hok.
    destruct (step_bwd _ w (h_init _ _ _ Hw) (h_run _ _ _ Hw) _ _ _ _ Hc Hok) as [ch1 [-> Hx]].
    assert (Hc1 : Cw ch1) by (apply Hx; destruct c1; exact I).
    destruct c1; cbn [obind into_std okr].
    + destruct (IH n (f l v) (commit_merge c (Commit tt)) ch1 Hc1 ltac:(lia)) as [I1 I2]. rewrite cb_merge in I1. simpl in I1.
      replace (cb c || (true || c')) with (cb c || true || c') by (destruct (cb c); auto). split; auto.
    + destruct (IH n (f l v) (commit_merge c (Peek tt)) ch1 Hc1 ltac:(lia)) as [I1 I2]. rewrite cb_merge in I1. simpl in I1.
      replace (cb c || (false || c')) with (cb c || false || c') by (destruct (cb c); auto). split; auto.
Qed.

Let s0 (s : S1) : ((option (A -> A -> A) * S2) * (option A * S1)) * N := (((None, p_init op), (None, s)), 0%N).
Lemma fresh_chainl1 i : fresh (chainl1 p op) i =
  obind (p_run p true i (p_init p)) (fun x => match x with (r, i', s) =>
    match r with
    | PeekErr e => Done (PeekErr e, i')
    | CommitErr e => Done (CommitErr e, i')
    | PeekOk a => omap fst (chainl_loop (fuel C) p op true a (Peek tt) i' (s0 s))
    | CommitOk a => omap fst (chainl_loop (fuel C) p op true a (Commit tt) i' (s0 s))
    end end).
Proof.
  unfold fresh, chainl1, mk_mode, chainl1_run. cbn [p_run p_init snd fst pair2 tuple mk_mode tup_init]. rewrite (Hst i).
  destruct (p_run p true i (p_init p)) as [[[r j] s]| |]; cbn [obind]; auto. destruct r; auto.
Qed.

Lemma clean_s0l s : leftover false p s -> Cw (s0 s).
Proof. intros H. exact (conj (left_init false op) H). Qed.

Lemma chainl1_ok i c v i' : succeeds (fresh (chainl1 p op)) i c v i' <->
  exists c1 x i1 c2 fs, succeeds bp i c1 x i1 /\ reps (pair_ok2 bo bp) i1 c2 fs i' /\ pair_fails bo bp i' false /\
    length fs < fuel C /\ v = foldl_chain x fs /\ c = c1 || c2.
Proof.
  pose proof (left_init false p) as Hi. pose proof (history_free_run_hyg false p Hp) as Hr.
  unfold succeeds at 1. rewrite fresh_chainl1. split.
  - intros Hq. destruct (p_run p true i (p_init p)) as [[[r i1] s1]| |] eqn:Hrun; simpl in Hq; try discriminate.
    destruct (step_fwd _ p Hi Hr _ _ _ _ _ Hi Hrun) as [Hb Hc].
    assert (Hk : forall c1 a, succeeds bp i (cb c1) a i1 -> leftover false p s1 -> omap fst (chainl_loop (fuel C) p op true a c1 i1 (s0 s1)) = Done (okr c v, i') ->
      exists c1 x i1 c2 fs, succeeds bp i c1 x i1 /\ reps (pair_ok2 bo bp) i1 c2 fs i' /\ pair_fails bo bp i' false /\
        length fs < fuel C /\ v = foldl_chain x fs /\ c = c1 || c2).
    { intros c1 a Hsu Hl Hlo. destruct (chainl_loop (fuel C) p op true a c1 i1 (s0 s1)) as [[[r2 j2] s2]| |] eqn:Hlp; simpl in Hlo; try discriminate.
      inversion Hlo; subst. destruct (chainl_fwd _ _ _ _ _ _ _ _ (clean_s0l _ Hl) Hlp) as [c' [fs [ib [H1 [H2 [[H3 [-> H4]]|[e [H3 _]]]]]]]].
      - apply okr_inj in H3. destruct H3 as [-> ->]. exists (cb c1), a, i1, c', fs. repeat (split; auto).
      - destruct c; discriminate. }
    destruct r as [a|a|e|e]; simpl in Hq; try (inversion Hq; destruct c; discriminate).
    + apply (Hk (Commit tt) a Hb (Hc I) Hq).
    + apply (Hk (Peek tt) a Hb (Hc I) Hq).
  - intros [c1 [x [i1 [c2 [fs [H1 [H2 [H3 [H4 [-> ->]]]]]]]]]].
    destruct (step_bwd _ p Hi Hr _ _ _ _ Hi H1) as [st1 [Hrun Hx]]. rewrite Hrun. simpl.
    assert (Hc1 : leftover false p st1) by (apply Hx; destruct c1; exact I).
    destruct c1; simpl.
    + destruct (chainl_bwd _ _ _ _ H2 (fuel C) x (Commit tt) _ (clean_s0l _ Hc1) H4) as [Hb _]. destruct (Hb H3) as [st' ->]. auto.
    + destruct (chainl_bwd _ _ _ _ H2 (fuel C) x (Peek tt) _ (clean_s0l _ Hc1) H4) as [Hb _]. destruct (Hb H3) as [st' ->]. auto.
Qed.

Lemma chainl1_fails i c : fails (fresh (chainl1 p op)) i c <->
  fails bp i c \/
  (c = true /\ exists c1 x i1 c2 fs i', succeeds bp i c1 x i1 /\ reps (pair_ok2 bo bp) i1 c2 fs i' /\ pair_fails bo bp i' true /\ length fs < fuel C).
Proof.
  pose proof (left_init false p) as Hi. pose proof (history_free_run_hyg false p Hp) as Hr.
  unfold fails at 1, fails_with. split.
  - intros [e0 [r0 [j0 [Hq [He Hc0]]]]]. rewrite fresh_chainl1 in Hq.
    destruct (p_run p true i (p_init p)) as [[[r i1] s1]| |] eqn:Hrun; simpl in Hq; try discriminate.
    destruct (step_fwd _ p Hi Hr _ _ _ _ _ Hi Hrun) as [Hb Hc].
    assert (Hk : forall c1 a, succeeds bp i (cb c1) a i1 -> leftover false p s1 -> omap fst (chainl_loop (fuel C) p op true a c1 i1 (s0 s1)) = Done (r0, j0) ->
      (c = true /\ exists c1 x i1 c2 fs i', succeeds bp i c1 x i1 /\ reps (pair_ok2 bo bp) i1 c2 fs i' /\ pair_fails bo bp i' true /\ length fs < fuel C)).
    { intros c1 a Hsu Hl Hlo. destruct (chainl_loop (fuel C) p op true a c1 i1 (s0 s1)) as [[[r2 j2] s2]| |] eqn:Hlp; simpl in Hlo; try discriminate.
      inversion Hlo; subst. destruct (chainl_fwd _ _ _ _ _ _ _ _ (clean_s0l _ Hl) Hlp) as [c' [fs [ib [H1 [H2 [[H3 [-> H4]]|[e [H3 H4]]]]]]]].
      - subst r0. rewrite okr_not_error in He. discriminate.
      - subst r0. split; auto. exists (cb c1), a, i1, c', fs, ib. auto. }
    destruct r as [a|a|e|e]; simpl in Hq.
    + right. apply (Hk (Commit tt) a Hb (Hc I) Hq).
    + right. apply (Hk (Peek tt) a Hb (Hc I) Hq).
    + left. inversion Hq; subst. exists e, (CommitErr e), j0. auto.
    + left. inversion Hq; subst. exists (terr e), (PeekErr e), j0. auto.
  - intros [[e [r [j [Hq [He Hc]]]]]|[-> [c1 [a [i1 [c2 [fs [i' [H1 [H2 [H3 H4]]]]]]]]]]].
    + exists e. rewrite fresh_chainl1. apply fresh_run in Hq. destruct Hq as [st' ->]. simpl.
      destruct r as [a|a|e1|e1]; simpl in *; try discriminate; do 2 eexists; (split; [reflexivity|auto]).
    + destruct (step_bwd _ p Hi Hr _ _ _ _ Hi H1) as [st1 [Hrun Hx]]. rewrite fresh_chainl1, Hrun. simpl.
      assert (Hc1 : leftover false p st1) by (apply Hx; destruct c1; exact I).
      destruct c1; simpl.
      * destruct (chainl_bwd _ _ _ _ H2 (fuel C) a (Commit tt) _ (clean_s0l _ Hc1) H4) as [_ Hb]. destruct (Hb H3) as [e [j [st' ->]]].
        exists e, (CommitErr e), j. auto.
      * destruct (chainl_bwd _ _ _ _ H2 (fuel C) a (Peek tt) _ (clean_s0l _ Hc1) H4) as [_ Hb]. destruct (Hb H3) as [e [j [st' ->]]].
        exists e, (CommitErr e), j. auto.
Qed.
End Chainl.

(** ** chainr1 *)
Section Chainr.
Context {S1 S2 A : Type} (p : parser C S1 A) (op : parser C S2 (A -> A -> A)).
Notation bp := (p_lazy p : beh A).
Notation bo := (p_lazy op : beh (A -> A -> A)).

Lemma chainr_lazy_S n i : chainr_lazy (S n) p op i =
      obind (p_lazy p i) (fun x => match x with (r, i') =>
        match r with
        | PeekErr e => Done (PeekErr e, i')
        | CommitErr e => Done (CommitErr e, i')
        | PeekOk a => chainr_loop n p op a (Peek tt) i'
        | CommitOk a => chainr_loop n p op a (Commit tt) i'
        end end).
Proof. reflexivity. Qed.
Lemma chainr_loop_S n l committed i : chainr_loop (S n) p op l committed i =
      obind (p_lazy op i) (fun x => match x with (r, i1) =>
        match into_std r with
        | inl (f, rest) =>
            obind (chainr_lazy n p op i1) (fun y => match y with (r2, i2) =>
              match into_std r2 with
              | inl (v, rest2) =>
                  chainr_loop n p op (f l v) (commit_merge (commit_merge committed rest) rest2) i2
              | inr (Commit err) => Done (CommitErr (terr err), i2)
              | inr (Peek _) => Done (from_std (inl (l, commit_merge committed rest)), i1)
              end end)
        | inr (Commit err) => Done (CommitErr (terr err), i1)
        | inr (Peek _) => Done (from_std (inl (l, committed)), i)
        end end).
Proof. reflexivity. Qed.

Lemma chainr_mono n : (forall m i x, n <= m -> chainr_lazy n p op i = Done x -> chainr_lazy m p op i = Done x) /\
  (forall m l c i x, n <= m -> chainr_loop n p op l c i = Done x -> chainr_loop m p op l c i = Done x).
Proof.
  induction n as [|n [IH1 IH2]]. { split; intros; discriminate. }
  split.
  - intros m i x Hm H. destruct m as [|m]; [lia|]. rewrite chainr_lazy_S in *.
    destruct (p_lazy p i) as [[r j]| |]; cbn [obind] in *; try discriminate. destruct r; auto; apply IH2; auto; lia.
  - intros m l c i x Hm H. destruct m as [|m]; [lia|]. rewrite chainr_loop_S in *.
    destruct (p_lazy op i) as [[r j]| |]; cbn [obind] in *; try discriminate. destruct (into_std r) as [[f rest]|[e|e]]; auto.
    destruct (chainr_lazy n p op j) as [[r2 j2]| |] eqn:Hl; cbn [obind] in H; try discriminate. rewrite (IH1 m j _ ltac:(lia) Hl). cbn [obind].
    destruct (into_std r2) as [[v rest2]|[e|e]]; auto. apply IH2; auto; lia.
Qed.

Lemma into_std_okr {B} (r : PR B E) : match into_std r with
  | inl (v, c) => r = okr (cb c) v
  | inr (Commit e) => r = CommitErr (terr e)
  | inr (Peek e) => r = PeekErr e
  end.
Proof. destruct r as [a|a|e|[e o]]; reflexivity. Qed.

(** Soundness; a peek failure only comes from the first operand. *)
Lemma chainr_sound n :
  (forall i r j, chainr_lazy n p op i = Done (r, j) ->
     match r with
     | CommitOk v => chr bp bo i true v j
     | PeekOk v => chr bp bo i false v j
     | PeekErr t => fails bp i false
     | CommitErr e => True
     end) /\
  (forall l c i r j, chainr_loop n p op l c i = Done (r, j) ->
     match r with
     | CommitOk v => cht bp bo l (cb c) i true v j
     | PeekOk v => cht bp bo l (cb c) i false v j
     | PeekErr t => False
     | CommitErr e => True
     end).
Proof.
  induction n as [|n [IH1 IH2]]. { split; intros; discriminate. }
  assert (Hloop : forall l c i r j, chainr_loop (S n) p op l c i = Done (r, j) ->
     match r with
     | CommitOk v => cht bp bo l (cb c) i true v j
     | PeekOk v => cht bp bo l (cb c) i false v j
     | PeekErr t => False
     | CommitErr e => True
     end).
  { intros l c i r j H. rewrite chainr_loop_S in H. destruct (p_lazy op i) as [[ro i1]| |] eqn:Hop; cbn [obind] in H; try discriminate.
    pose proof (into_std_okr ro) as Hso. destruct (into_std ro) as [[f rest]|[e|e]].
    - assert (Hsu : succeeds bo i (cb rest) f i1) by (unfold succeeds; rewrite Hop, Hso; auto).
      destruct (chainr_lazy n p op i1) as [[r2 j2]| |] eqn:Hl; cbn [obind] in H; try discriminate.
      apply IH1 in Hl. pose proof (into_std_okr r2) as Hs2. destruct (into_std r2) as [[v rest2]|[e|e]].
      + apply IH2 in H. rewrite !cb_merge in H. assert (Hc : chr bp bo i1 (cb rest2) v j2) by (subst r2; destruct (cb rest2); exact Hl).
        destruct r as [w|w|e|e]; auto.
        * eapply cht_step; eauto.
        * eapply cht_step; eauto.
      + inversion H; subst; auto.
      + subst r2. inversion H; subst. destruct (commit_merge c rest) as [[]|[]] eqn:Hm; simpl.
        * pose proof (@cht_drop C A bp bo l (cb c) i (cb rest) f j Hsu Hl) as Hd. rewrite <- cb_merge, Hm in Hd. exact Hd.
        * pose proof (@cht_drop C A bp bo l (cb c) i (cb rest) f j Hsu Hl) as Hd. rewrite <- cb_merge, Hm in Hd. exact Hd.
    - inversion H; subst; auto.
    - inversion H; subst. assert (Hf : fails bo j false) by (apply fails_peek; eauto).
      destruct c as [[]|[]]; simpl; apply cht_stop; auto. }
  split; [|exact Hloop].
  intros i r j H. rewrite chainr_lazy_S in H. destruct (p_lazy p i) as [[rp i1]| |] eqn:Hop; cbn [obind] in H; try discriminate.
  destruct rp as [a|a|e|e].
  - apply IH2 in H. destruct r as [w|w|e|e]; auto; try contradiction; eapply (@chr_operand C A bp bo i true a i1); eauto.
  - apply IH2 in H. destruct r as [w|w|e|e]; auto; try contradiction; eapply (@chr_operand C A bp bo i false a i1); eauto.
  - inversion H; subst; auto.
  - inversion H; subst. apply fails_peek. eauto.
Qed.

Lemma chainr_complete :
  (forall i c v j, chr bp bo i c v j -> exists n, chainr_lazy n p op i = Done (okr c v, j)).
Proof.
  assert (Hcb : forall c1 c2 : bool, exists d, cb d = c1 || c2).
  { intros c1 c2. exists (if c1 || c2 then Commit tt else Peek tt). destruct (c1 || c2); auto. }
  fix Hchr 5. intros i c v j H. destruct H as [i c1 a i1 c v i' Hs Ht].
  assert (Hcht : forall l c0 i c v j, cht bp bo l c0 i c v j -> forall d, cb d = c0 -> exists n, chainr_loop n p op l d i = Done (okr c v, j)).
  { clear - Hchr. fix Hcht 7. intros l c0 i c v j H d Hd. destruct H as [l c i Hf|l c i c1 f i1 Hs Hf|l c i c1 f i1 c2 v i2 c3 w i3 Hs Hc Ht].
    - exists 1. rewrite chainr_loop_S. apply fails_peek in Hf. destruct Hf as [t [j Hf]]. rewrite Hf. simpl. subst c. destruct d as [[]|[]]; auto.
    - exists 2. rewrite chainr_loop_S. unfold succeeds in Hs. rewrite Hs. apply fails_peek in Hf. destruct Hf as [t [j Hf]].
      destruct c1; simpl; rewrite Hf; simpl; subst c; destruct d as [[]|[]]; auto.
    - destruct (Hchr _ _ _ _ Hc) as [n1 H1].
      set (d1 := if c1 then Commit tt else Peek tt). set (d2 := if c2 then Commit tt else Peek tt).
      assert (Hdd : cb (commit_merge (commit_merge d d1) d2) = c || c1 || c2).
      { rewrite !cb_merge. rewrite Hd. unfold d1, d2. destruct c1, c2; auto. }
      destruct (Hcht _ _ _ _ _ _ Ht _ Hdd) as [n2 H2].
      exists (S (max n1 n2)). rewrite chainr_loop_S. unfold succeeds in Hs. rewrite Hs.
      destruct (chainr_mono n1) as [M1 _]. destruct (chainr_mono n2) as [_ M2].
      destruct c1; simpl; rewrite (M1 (max n1 n2) i1 _ ltac:(lia) H1); simpl; destruct c2; simpl;
        apply (M2 (max n1 n2)); try lia; exact H2. }
  set (d1 := if c1 then Commit tt else Peek tt).
  destruct (Hcht _ _ _ _ _ _ Ht d1) as [n Hn]. { unfold d1. destruct c1; auto. }
  exists (S n). rewrite chainr_lazy_S. unfold succeeds in Hs. rewrite Hs. destruct c1; exact Hn.
Qed.
End Chainr.
End RepeatProofs2.
