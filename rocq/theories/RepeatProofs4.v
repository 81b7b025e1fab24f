(** Derived repetitions (skip variants, [count], [sep_by], [sep_end_by]) and termination. *)
From Coq Require Import String List Bool Arith NArith Lia.
Import ListNotations.
From Verif Require Import RangeP Base Parser Token Combinator Sequence Choice Repeat Spec SeqProofs CombProofs ChoiceSpec ChoiceProofs
  TidySpec TidyProofs RepeatSpec RepeatProofs RepeatProofs2 RepeatProofs3.
Unset Implicit Arguments.

Section RepeatProofs4.
Context {C : Cfg}.
Notation T := (tok C).
Notation E := (Err C).
Notation beh := (@Spec.beh C).

(** ** Forgetting the values *)
Section Forget.
Context {S A : Type} (p : parser C S A) (Hp : history_free false p).
Notation b := (fresh p).
Lemma history_free_ignore : history_free false (ignore p).
Proof.
  apply (run_hyg_history_free false (leftover false p)); [exact (left_init false p)|].
  exact (h_run _ _ _ (hyg_ignore false _ (by_ref p) (history_free_by_ref false p Hp))).
Qed.
Lemma history_free_unit : history_free false (map p (fun _ => tt)).
Proof.
  apply (run_hyg_history_free false (leftover false p)); [exact (left_init false p)|].
  exact (h_run _ _ _ (hyg_map false _ (by_ref p) (history_free_by_ref false p Hp) _)).
Qed.
Lemma ignore_maps : maps_to (fun _ => tt) b (fresh (ignore p)).
Proof. intros i. unfold fresh. simpl. destruct (p_run p true i (p_init p)) as [[[r j] s]| |]; auto. Qed.
Lemma map_unit_maps : maps_to (fun _ => tt) b (fresh (map p (fun _ => tt))).
Proof. intros i. unfold fresh. simpl. destruct (p_run p true i (p_init p)) as [[[r j] s]| |]; auto. Qed.
End Forget.

Lemma fails_maps {A B} (f : A -> B) b b' i c : @maps_to C A B f b b' -> (fails b' i c <-> fails b i c).
Proof. intros H. unfold fails. split; intros [e He]; exists e; apply (maps_to_fails _ _ _ _ _ _ H); auto. Qed.
Lemma reps_forget {A} (b : beh A) b' i c l' i' : maps_to (fun _ => tt) b b' ->
  (reps (succeeds b') i c l' i' <-> exists l, reps (succeeds b) i c l i' /\ length l = length l').
Proof.
  intros Hm. split.
  - intros H. induction H as [i|i c a i1 c' l i' Hok H IH]. { exists []. split; [constructor|auto]. }
    destruct IH as [l0 [K1 K2]]. apply (maps_to_succeeds _ _ _ _ _ _ _ Hm) in Hok. destruct Hok as [x [Hx _]].
    exists (x :: l0). split; [econstructor; eauto|simpl; auto].
  - intros [l [H Hl]]. revert l' Hl. induction H as [i|i c a i1 c' l i' Hok H IH]; intros [|u l'] Hl; try discriminate; [constructor|].
    econstructor; [|apply IH; simpl in Hl; lia]. apply (maps_to_succeeds _ _ _ _ _ _ _ Hm). exists a. split; auto. destruct u; auto.
Qed.

(** ** skip_many, skip_many1 *)
Section Skip.
Context {S A : Type} (p : parser C S A) (Hp : history_free false p).
Notation b := (fresh p).
Lemma skip_many_ok i c u i' : succeeds (fresh (skip_many p)) i c u i' <-> exists l, succeeds (fresh (many p)) i c l i'.
Proof.
  assert (Hm : maps_to (fun _ => tt) (fresh (many (ignore p))) (fresh (skip_many p))) by exact (ignore_maps (many (ignore p))).
  rewrite (maps_to_succeeds _ _ _ _ _ _ _ Hm). destruct u. setoid_rewrite (many_ok p Hp).
  setoid_rewrite (many_ok (ignore p) (history_free_ignore p Hp)). split.
  - intros [l' [[H1 [H2 H3]] _]]. apply (reps_forget b _ _ _ _ _ (ignore_maps p)) in H1. destruct H1 as [l [H1 Hl]].
    exists l. split; auto. split; [|lia]. apply (fails_maps _ _ _ _ _ (ignore_maps p)). auto.
  - intros [l [H1 [H2 H3]]]. exists (List.map (fun _ => tt) l). split; auto. split.
    + apply (reps_forget b _ _ _ _ _ (ignore_maps p)). exists l. rewrite map_length. auto.
    + split; [|rewrite map_length; auto]. apply (fails_maps _ _ _ _ _ (ignore_maps p)). auto.
Qed.
Lemma skip_many_fails i c e : fails_with (fresh (skip_many p)) i c e <-> fails_with (fresh (many p)) i c e.
Proof.
  assert (Hm : maps_to (fun _ => tt) (fresh (many (ignore p))) (fresh (skip_many p))) by exact (ignore_maps (many (ignore p))).
  rewrite (maps_to_fails _ _ _ _ _ _ Hm). rewrite (many_fails p Hp), (many_fails (ignore p) (history_free_ignore p Hp)). split.
  - intros [-> [c' [l [j [H1 [H2 H3]]]]]]. apply (reps_forget b _ _ _ _ _ (ignore_maps p)) in H1. destruct H1 as [l2 [H1 Hl]].
    split; auto. exists c', l2, j. split; auto. split; [|lia]. apply (maps_to_fails _ _ _ _ _ _ (ignore_maps p)). auto.
  - intros [-> [c' [l [j [H1 [H2 H3]]]]]]. split; auto. exists c', (List.map (fun _ => tt) l), j. split.
    + apply (reps_forget b _ _ _ _ _ (ignore_maps p)). exists l. rewrite map_length. auto.
    + split; [|rewrite map_length; auto]. apply (maps_to_fails _ _ _ _ _ _ (ignore_maps p)). auto.
Qed.
Lemma skip_many1_ok i c u i' : succeeds (fresh (skip_many1 p)) i c u i' <-> exists l, succeeds (fresh (many1 p)) i c l i'.
Proof.
  assert (Hm : maps_to (fun _ => tt) (fresh (many1 (ignore p))) (fresh (skip_many1 p))) by exact (ignore_maps (many1 (ignore p))).
  rewrite (maps_to_succeeds _ _ _ _ _ _ _ Hm). destruct u. setoid_rewrite (many1_ok p Hp).
  setoid_rewrite (many1_ok (ignore p) (history_free_ignore p Hp)). split.
  - intros [l' [[H0 [H1 [H2 H3]]] _]]. apply (reps_forget b _ _ _ _ _ (ignore_maps p)) in H1. destruct H1 as [l [H1 Hl]].
    exists l. split. { intros ->. destruct l'; [congruence|discriminate]. }
    split; auto. split; [|lia]. apply (fails_maps _ _ _ _ _ (ignore_maps p)). auto.
  - intros [l [H0 [H1 [H2 H3]]]]. exists (List.map (fun _ => tt) l). split; auto. split; [destruct l; [congruence|discriminate]|]. split.
    + apply (reps_forget b _ _ _ _ _ (ignore_maps p)). exists l. rewrite map_length. auto.
    + split; [|rewrite map_length; auto]. apply (fails_maps _ _ _ _ _ (ignore_maps p)). auto.
Qed.
Lemma skip_many1_fails i c e : fails_with (fresh (skip_many1 p)) i c e <-> fails_with (fresh (many1 p)) i c e.
Proof.
  assert (Hm : maps_to (fun _ => tt) (fresh (many1 (ignore p))) (fresh (skip_many1 p))) by exact (ignore_maps (many1 (ignore p))).
  rewrite (maps_to_fails _ _ _ _ _ _ Hm). rewrite (many1_fails p Hp), (many1_fails (ignore p) (history_free_ignore p Hp)).
  rewrite (maps_to_fails _ _ _ _ _ _ (ignore_maps p)). split; (intros [H|H]; [left; exact H|right]).
  - destruct H as [-> [c' [l [j [H0 [H1 [H2 H3]]]]]]]. apply (reps_forget b _ _ _ _ _ (ignore_maps p)) in H1. destruct H1 as [l2 [H1 Hl]].
    split; auto. exists c', l2, j. split. { intros ->. destruct l; [congruence|discriminate]. }
    split; auto. split; [|lia]. apply (maps_to_fails _ _ _ _ _ _ (ignore_maps p)). auto.
  - destruct H as [-> [c' [l [j [H0 [H1 [H2 H3]]]]]]]. split; auto. exists c', (List.map (fun _ => tt) l), j. split; [destruct l; [congruence|discriminate]|]. split.
    + apply (reps_forget b _ _ _ _ _ (ignore_maps p)). exists l. rewrite map_length. auto.
    + split; [|rewrite map_length; auto]. apply (maps_to_fails _ _ _ _ _ _ (ignore_maps p)). auto.
Qed.

(** ** count and the skipping variants *)
Lemma fresh_count n i : fresh (count n p) i = fresh (count_min_max 0 n p) i.
Proof.
  unfold fresh, count, parser_fn0. cbn [p_run mk_mode p_init]. destruct (p_run (count_min_max 0 n p) true i _) as [[[r j] s]| |]; auto.
Qed.
Lemma with_value_ok {X SS} (q : parser C SS X) i c u i' : succeeds (fresh (with_ q (value tt))) i c u i' <-> exists x, succeeds (fresh q) i c x i'.
Proof.
  destruct (with_runs q (@value C _ tt)) as [H _]. rewrite H. destruct u. split.
  - intros [c1 [a [i1 [c2 [x [K1 [K2 [-> _]]]]]]]]. unfold succeeds, fresh in K2. simpl in K2. inversion K2; subst. destruct c2; try discriminate.
    rewrite orb_false_r. eauto.
  - intros [x K]. exists c, x, i', false, tt. rewrite orb_false_r. repeat (split; auto).
Qed.
Lemma with_value_fails {X SS} (q : parser C SS X) i c : fails (fresh (with_ q (value tt))) i c <-> fails (fresh q) i c.
Proof.
  destruct (with_runs q (@value C _ tt)) as [_ H]. rewrite H. split; auto.
  intros [K|[c1 [a [i1 [c2 [_ [[e [r [j [K1 [K2 _]]]]] _]]]]]]]; auto. unfold fresh in K1. simpl in K1. inversion K1; subst. discriminate.
Qed.
Lemma skip_cmm_ok mn mx i c u i' : mn <= mx ->
  (succeeds (fresh (skip_count_min_max mn mx p)) i c u i' <-> exists l, succeeds (fresh (count_min_max mn mx p)) i c l i').
Proof.
  intros Hle. change (fresh (skip_count_min_max mn mx p)) with (fresh (with_ (count_min_max mn mx (map p (fun _ => tt))) (value tt))).
  rewrite with_value_ok. setoid_rewrite (cmm_ok p Hp mn mx _ _ _ _ Hle). setoid_rewrite (cmm_ok _ (history_free_unit p Hp) mn mx _ _ _ _ Hle). split.
  - intros [l' [H1 [H2 H3]]]. apply (reps_forget b _ _ _ _ _ (map_unit_maps p)) in H1. destruct H1 as [l [H1 Hl]].
    exists l. rewrite Hl. split; auto. split; auto. destruct H3 as [H3|H3]; auto. right. apply (fails_maps _ _ _ _ _ (map_unit_maps p)). auto.
  - intros [l [H1 [H2 H3]]]. exists (List.map (fun _ => tt) l). rewrite map_length. split.
    + apply (reps_forget b _ _ _ _ _ (map_unit_maps p)). exists l. rewrite map_length. auto.
    + split; auto. destruct H3 as [H3|H3]; auto. right. apply (fails_maps _ _ _ _ _ (map_unit_maps p)). auto.
Qed.
Lemma skip_cmm_fails mn mx i c : mn <= mx ->
  (fails (fresh (skip_count_min_max mn mx p)) i c <-> fails (fresh (count_min_max mn mx p)) i c).
Proof.
  intros Hle. change (fresh (skip_count_min_max mn mx p)) with (fresh (with_ (count_min_max mn mx (map p (fun _ => tt))) (value tt))).
  rewrite with_value_fails. rewrite (cmm_fails p Hp mn mx _ _ Hle), (cmm_fails _ (history_free_unit p Hp) mn mx _ _ Hle). split.
  - intros [c' [l' [j [H1 H2]]]]. apply (reps_forget b _ _ _ _ _ (map_unit_maps p)) in H1. destruct H1 as [l [H1 Hl]].
    exists c', l, j. rewrite Hl. rewrite !(fails_maps _ _ _ _ _ (map_unit_maps p)) in H2. auto.
  - intros [c' [l [j [H1 H2]]]]. exists c', (List.map (fun _ => tt) l), j. rewrite map_length, !(fails_maps _ _ _ _ _ (map_unit_maps p)). split; auto.
    apply (reps_forget b _ _ _ _ _ (map_unit_maps p)). exists l. rewrite map_length. auto.
Qed.
Lemma skip_count_ok n i c u i' : succeeds (fresh (skip_count n p)) i c u i' <-> exists l, succeeds (fresh (count n p)) i c l i'.
Proof.
  change (fresh (skip_count n p)) with (fresh (with_ (count n (map p (fun _ => tt))) (value tt))). rewrite with_value_ok.
  pose proof (skip_cmm_ok 0 n i c u i' ltac:(lia)) as H.
  change (fresh (skip_count_min_max 0 n p)) with (fresh (with_ (count_min_max 0 n (map p (fun _ => tt))) (value tt))) in H. rewrite with_value_ok in H.
  unfold succeeds in *. setoid_rewrite fresh_count. rewrite <- H. unfold fresh, count, parser_fn0. cbn [p_run mk_mode p_init].
  destruct (p_run (count_min_max 0 n (map p (fun _ => tt))) true i _) as [[[r j] s]| |]; reflexivity.
Qed.
End Skip.

(** ** Nothing, or the non-empty form *)
Section Empty.
Context {S1 S2 A B : Type} (p : parser C S1 A) (sep : parser C S2 B) (Hp : history_free false p) (Hs : history_free false sep).
Notation bp := (fresh p).
Lemma sep_by1_fails_first i : fails (fresh (sep_by1 p sep)) i false <-> fails bp i false.
Proof. rewrite (sep_by1_fails p sep Hp Hs). split; [intros [H|[H _]]; [auto|discriminate]|auto]. Qed.
Lemma sep_end_by1_fails_first i : fails (fresh (sep_end_by1 p sep)) i false <-> fails bp i false.
Proof. rewrite (sep_end_by1_fails p sep Hp Hs). split; [intros [H|[H _]]; [auto|discriminate]|auto]. Qed.
Lemma sep_by_ok i c l i' : succeeds (fresh (sep_by p sep)) i c l i' <->
  succeeds (fresh (sep_by1 p sep)) i c l i' \/ (c = false /\ l = [] /\ i' = i /\ fails bp i false).
Proof.
  destruct (or_value_ok _ _ _ (sep_by_choice p sep)) as [H _]. rewrite H, sep_by1_fails_first. reflexivity.
Qed.
Lemma sep_by_fails i c : fails (fresh (sep_by p sep)) i c <-> c = true /\ fails (fresh (sep_by1 p sep)) i true.
Proof. destruct (or_value_ok _ _ _ (sep_by_choice p sep)) as [_ H]. apply H. Qed.
Lemma sep_end_by_ok i c l i' : succeeds (fresh (sep_end_by p sep)) i c l i' <->
  succeeds (fresh (sep_end_by1 p sep)) i c l i' \/ (c = false /\ l = [] /\ i' = i /\ fails bp i false).
Proof.
  destruct (or_value_ok _ _ _ (sep_end_by_choice p sep)) as [H _]. rewrite H, sep_end_by1_fails_first. reflexivity.
Qed.
Lemma sep_end_by_fails i c : fails (fresh (sep_end_by p sep)) i c <-> c = true /\ fails (fresh (sep_end_by1 p sep)) i true.
Proof. destruct (or_value_ok _ _ _ (sep_end_by_choice p sep)) as [_ H]. apply H. Qed.
End Empty.

(** ** Termination *)
Lemma ok_no_error {A} (r : PR A E) : is_ok r = true -> not_commit_err r.
Proof. destruct r; simpl; auto. discriminate. Qed.
Lemma pr_okr {A} (r : PR A E) : (exists c a, r = okr c a) \/ (exists c e, error_of r = Some e /\ committed r = c).
Proof.
  destruct r as [a|a|e|t].
  - left. exists true, a. reflexivity.
  - left. exists false, a. reflexivity.
  - right. exists true, e. auto.
  - right. exists false, (terr t). auto.
Qed.
Lemma runs_after_total {A B D} (b1 : beh A) (k : A -> beh B) (out : A -> B -> D) b :
  runs_after b1 k out b -> total b1 -> (forall a, total (k a)) -> total b.
Proof.
  intros [H1 H2] T1 T2 i. destruct (T1 i) as [[r j] Hr]. destruct (pr_okr r) as [[c [a ->]]|[c [e [He Hc]]]].
  - destruct (T2 a j) as [[r2 j2] Hr2]. destruct (pr_okr r2) as [[c2 [x ->]]|[c2 [e [He Hc]]]].
    + exists (okr (c || c2) (out a x), j2). apply H1. exists c, a, j, c2, x. auto.
    + assert (Hf : fails b i (c || c2)). { apply H2. right. exists c, a, j, c2. split; auto. split; auto. exists e, r2, j2. auto. }
      destruct Hf as [e0 [r0 [j0 [Hb _]]]]. eauto.
  - assert (Hf : fails b i c). { apply H2. left. exists e, r, j. auto. }
    destruct Hf as [e0 [r0 [j0 [Hb _]]]]. eauto.
Qed.
Lemma runs_after_productive {A B D} (b1 : beh A) (k : beh B) (out : A -> B -> D) b :
  runs_after b1 (fun _ => k) out b -> shrinks b1 -> shrinks k -> productive b1 \/ productive k -> productive b.
Proof.
  intros [H1 _] S1 S2 Hp i r i2 Hb Ho. destruct (pr_okr r) as [[c [d ->]]|[c [e [He _]]]]; [|destruct r; discriminate].
  apply H1 in Hb. destruct Hb as [c1 [a [i1 [c2 [x [K1 [K2 _]]]]]]].
  assert (O1 : is_ok (@okr A E c1 a) = true) by (destruct c1; auto). assert (O2 : is_ok (@okr B E c2 x) = true) by (destruct c2; auto).
  pose proof (S1 _ _ _ K1 O1). pose proof (S2 _ _ _ K2 O2). unfold shorter.
  destruct Hp as [Hp|Hp]; [pose proof (Hp _ _ _ K1 O1)|pose proof (Hp _ _ _ K2 O2)]; unfold shorter in *; lia.
Qed.

Section Term.
Context {S1 S2 A B : Type} (p : parser C S1 A) (sep : parser C S2 B) (Hp : history_free false p) (Hs : history_free false sep).
Notation bp := (fresh p).
Notation bs := (fresh sep).
Context (Tp : total bp) (Ts : total bs) (Kp : shrinks bp) (Ks : shrinks bs) (Pr : productive bs \/ productive bp).
Let Hi := left_init false p.
Let Hr := history_free_run_hyg false p Hp.

Lemma sep_by1_total i : length (rest i) < fuel C -> exists x, fresh (sep_by1 p sep) i = Done x.
Proof.
  intros Hn. rewrite (fresh_sep_by1 p sep). destruct (Tp i) as [[r i1] Hb].
  destruct (step_bwd _ p Hi Hr _ _ _ _ Hi Hb) as [st1 [Hrun Hx]]. rewrite Hrun. cbn [obind].
  pose proof (hyg_with false _ _ (by_ref sep) (by_ref p) (history_free_by_ref false sep Hs) (history_free_by_ref false p Hp)) as Hw.
  pose proof (with_runs (by_ref sep) (by_ref p)) as Hra.
  assert (Hk : is_ok r = true -> exists x, iter_all (fuel C) (with_ (by_ref sep) (by_ref p)) true false i1 (((None, p_init sep), (None, st1)), 0%N) = Done x).
  { intros HH. pose proof (Kp _ _ _ Hb HH).
    apply (iter_all_total _ _ (h_init _ _ _ Hw) (h_run _ _ _ Hw)).
    - eapply runs_after_productive; [exact Hra|exact Ks|exact Kp|exact Pr].
    - eapply runs_after_total; [exact Hra|exact Ts|]. intros ?. exact Tp.
    - exact (conj (left_init false sep) (Hx (ok_no_error _ HH))).
    - lia. }
  destruct r as [a|a|e|e]; eauto; destruct (Hk eq_refl) as [[[[[l is] c] j] s] ->]; cbn [omap]; eauto.
Qed.

Lemma iter_scan_total {S X} (Clean : S -> Prop) (q : parser C S (option X)) (Hqi : Clean (p_init q)) (Hqr : run_hyg false Clean (p_run q)) n :
  total (fresh q) -> (forall i c x i', succeeds (fresh q) i c (Some x) i' -> shorter i' i) ->
  forall c0 i st, Clean st -> length (rest i) < n -> exists x, iter_scan n q true c0 i st = Done x.
Proof.
  intros Tq Pq. induction n as [|n IH]; intros c0 i st Hc Hn; [lia|]. cbn [iter_scan].
  destruct (Tq i) as [[r i1] Hb]. destruct (step_bwd _ q Hqi Hqr _ _ _ _ Hc Hb) as [st1 [-> Hx]]. cbn [obind].
  destruct r as [[a|]|[a|]|e|t]; eauto.
  - pose proof (Pq i true a i1 Hb) as Hs1. unfold shorter in Hs1. destruct (IH true i1 st1 (Hx I) ltac:(lia)) as [[[[[l is] c] j] s] ->]. cbn [omap]. eauto.
  - pose proof (Pq i false a i1 Hb) as Hs1. unfold shorter in Hs1. destruct (IH c0 i1 st1 (Hx I) ltac:(lia)) as [[[[[l is] c] j] s] ->]. cbn [omap]. eauto.
Qed.
Lemma optional_total : total (fresh (optional (by_ref p))).
Proof.
  intros i. destruct (Tp i) as [[r j] Hb]. destruct (optional_spec (by_ref p) i) as [O1 [O2 [O3 _]]].
  destruct (pr_okr r) as [[c [a ->]]|[c [e [He Hc]]]]; [eexists; apply O1; exact Hb|].
  destruct c.
  - destruct (O3 e) as [r0 [j0 [K _]]]; [exists r, j; auto|eauto].
  - eexists. apply O2. exists e, r, j. auto.
Qed.
Lemma sep_end_by1_total i : length (rest i) < fuel C -> exists x, fresh (sep_end_by1 p sep) i = Done x.
Proof.
  intros Hn. rewrite (fresh_sep_end_by1 p sep). destruct (Tp i) as [[r i1] Hb].
  destruct (step_bwd _ p Hi Hr _ _ _ _ Hi Hb) as [st1 [Hrun Hx]]. rewrite Hrun. cbn [obind].
  pose proof (hyg_with false _ _ (by_ref sep) (optional (by_ref p)) (history_free_by_ref false sep Hs) (hyg_optional _ _ _ (history_free_by_ref false p Hp))) as Hw.
  pose proof (with_runs (by_ref sep) (optional (by_ref p))) as Hra.
  assert (Hk : is_ok r = true -> exists x, iter_scan (fuel C) (with_ (by_ref sep) (optional (by_ref p))) true false i1 (((None, p_init sep), (None, st1)), 0%N) = Done x).
  { intros HH. pose proof (Kp _ _ _ Hb HH).
    apply (iter_scan_total _ _ (h_init _ _ _ Hw) (h_run _ _ _ Hw)).
    - eapply runs_after_total; [exact Hra|exact Ts|]. intros ?. exact optional_total.
    - intros j c x j' Hsu. apply (sew_some p sep) in Hsu. destruct Hsu as [c1 [y [j1 [c2 [K1 [K2 _]]]]]].
      assert (O1 : is_ok (@okr B E c1 y) = true) by (destruct c1; auto). assert (O2 : is_ok (@okr A E c2 x) = true) by (destruct c2; auto).
      pose proof (Ks _ _ _ K1 O1). pose proof (Kp _ _ _ K2 O2). unfold shorter.
      destruct Pr as [Pr0|Pr0]; [pose proof (Pr0 _ _ _ K1 O1)|pose proof (Pr0 _ _ _ K2 O2)]; unfold shorter in *; lia.
    - exact (conj (left_init false sep) (Hx (ok_no_error _ HH))).
    - lia. }
  destruct r as [a|a|e|e]; eauto; destruct (Hk eq_refl) as [[[[[l is] c] j] s] ->]; cbn [omap]; eauto.
Qed.
End Term.

Section TermChainl.
Context {S1 S2 A : Type} (p : parser C S1 A) (op : parser C S2 (A -> A -> A)).
Context (Hp : history_free false p) (Ho : history_free false op) (Hst : starts_alike p).
Notation bp := (fresh p).
Notation bo := (fresh op).
Context (Tp : total bp) (To : total bo) (Kp : shrinks bp) (Ko : shrinks bo) (Pr : productive bo \/ productive bp).
Let Hi := left_init false p.
Let Hr := history_free_run_hyg false p Hp.
Let Hw := hyg_pair2 false _ _ (by_ref op) (by_ref p) (history_free_by_ref false op Ho) (history_free_by_ref false p Hp).

Lemma chainl_loop_total n : forall l c i ch,
  pair_clean (A:=A -> A -> A) (B:=A) (leftover false op) (leftover false p) ch -> length (rest i) < n ->
  exists x, chainl_loop n p op true l c i ch = Done x.
Proof.
  pose proof (pair2_runs (by_ref op) (by_ref p)) as Hra.
  pose proof (runs_after_total _ _ _ _ Hra To (fun _ => Tp)) as Tw.
  assert (Pw : productive (fresh (pair2 (by_ref op) (by_ref p)))) by (eapply runs_after_productive; [exact Hra|exact Ko|exact Kp|exact Pr]).
  induction n as [|n IH]; intros l c i ch Hc Hn; [lia|]. cbn [chainl_loop].
  destruct (Tw i) as [[r i1] Hb]. destruct (step_bwd _ _ (h_init _ _ _ Hw) (h_run _ _ _ Hw) _ _ _ _ Hc Hb) as [st1 [-> Hx]]. cbn [obind].
  destruct r as [[f v]|[f v]|e|t]; cbn [into_std]; eauto.
  - pose proof (Pw _ _ _ Hb eq_refl) as Hs1. unfold shorter in Hs1. apply IH; [exact (Hx I)|lia].
  - pose proof (Pw _ _ _ Hb eq_refl) as Hs1. unfold shorter in Hs1. apply IH; [exact (Hx I)|lia].
Qed.
Lemma chainl1_total i : length (rest i) < fuel C -> exists x, fresh (chainl1 p op) i = Done x.
Proof.
  intros Hn. rewrite (fresh_chainl1 p op Hst). destruct (Tp i) as [[r i1] Hb].
  destruct (step_bwd _ p Hi Hr _ _ _ _ Hi Hb) as [st1 [Hrun Hx]]. rewrite Hrun. cbn [obind].
  assert (Hk : forall a c, is_ok r = true -> exists x, chainl_loop (fuel C) p op true a c i1 (((None, p_init op), (None, st1)), 0%N) = Done x).
  { intros a c HH. pose proof (Kp _ _ _ Hb HH). apply chainl_loop_total; [|lia].
    exact (conj (left_init false op) (Hx (ok_no_error _ HH))). }
  destruct r as [a|a|e|e]; eauto.
  - destruct (Hk a (Commit tt) eq_refl) as [[[r0 j] s] ->]. cbn [omap]. eauto.
  - destruct (Hk a (Peek tt) eq_refl) as [[[r0 j] s] ->]. cbn [omap]. eauto.
Qed.
End TermChainl.

Section TermRepeatUntil.
Context {S1 S2 A B : Type} (p : parser C S1 A) (e : parser C S2 B) (Hp : history_free false p) (He : history_free false e).
Notation bp := (fresh p).
Notation be := (fresh e).
Context (Tp : total bp) (Te : total be) (Pp : productive bp).
Lemma repeat_until_total i : 2 * length (rest i) + 1 < fuel C -> exists x, fresh (repeat_until p e) i = Done x.
Proof.
  rewrite (fresh_repeat_until p e). intros Hn.
  assert (H : forall n cm i out ps es, leftover false p ps -> leftover false e es -> 2 * length (rest i) + 1 < n ->
    exists x, repeat_until_loop n p e true cm i out false ps es = Done x).
  { clear i Hn. induction n as [n IH] using (well_founded_induction lt_wf). intros cm i out ps es Hps Hes Hn.
    destruct n as [|[|n]]; [lia|lia|]. cbn [repeat_until_loop].
    destruct (Te i) as [[r1 i1] Hb]. destruct (step_bwd _ e (left_init false e) (history_free_run_hyg false e He) _ _ _ _ Hes Hb) as [es1 [-> Hx]]. cbn [obind].
    destruct r1; cbn [into_std]; eauto.
    destruct (Tp i) as [[r2 i2] Hb2]. destruct (step_bwd _ p (left_init false p) (history_free_run_hyg false p Hp) _ _ _ _ Hps Hb2) as [ps1 [-> Hx2]]. cbn [obind].
    destruct r2; eauto; pose proof (Pp _ _ _ Hb2 eq_refl) as Hs; unfold shorter in Hs; (apply (IH n); [lia|exact (Hx2 I)|exact (Hx I)|lia]). }
  destruct (H (fuel C) (Peek tt) i [] (p_init p) (p_init e) (left_init false p) (left_init false e) Hn) as [[[r j] s] ->]. cbn. eauto.
Qed.
End TermRepeatUntil.

Section TermEscaped.
Context {S1 S2 A B : Type} (p : parser C S1 A) (esc : T) (q : parser C S2 B).
Notation bp := (p_lazy p : beh A).
Notation bq := (freshc q).
Context (Tp : total bp) (Tq : total bq) (Pp : productive bp) (Kq : shrinks bq) (Hres : restores bp).
Lemma escaped_total i : length (rest i) < fuel C -> exists x, fresh (escaped p esc q) i = Done x.
Proof.
  rewrite (fresh_escaped p esc q). generalize (Peek tt) as cm. revert i. induction (fuel C) as [|n IH]; intros i cm Hn; [lia|]. cbn [escaped_loop].
  destruct (Tp i) as [[r i1] Hb]. rewrite Hb. cbn [obind]. destruct r as [a|a|e|t]; eauto.
  - pose proof (Pp _ _ _ Hb eq_refl) as Hs. unfold shorter in Hs. apply IH. lia.
  - pose proof (Pp _ _ _ Hb eq_refl) as Hs. unfold shorter in Hs. apply IH. lia.
  - pose proof (Hres _ _ _ Hb). subst i1. unfold s_uncons, uncons, wrap_stream_error. destruct (rest i) as [|t0 l0] eqn:Hrest.
    + destruct (ipart i); eauto.
    + destruct (tok_eqb C t0 esc); eauto. destruct (Tq (Inp l0 (pos_step C (ipos i) t0) (ipart i))) as [[r2 i3] Hq].
      pose proof Hq as Hq0. unfold freshc in Hq. destruct (p_cmode q true _ (p_init q)) as [[[r3 i4] s4]| |]; try discriminate. simpl in Hq. inversion Hq; subst. cbn [obind].
      destruct r2; eauto; pose proof (Kq _ _ _ Hq0 eq_refl) as Hs; cbn [rest length] in *; apply IH; lia.
Qed.
End TermEscaped.

(** ** Instances *)
Lemma satisfy_progress (f : T -> bool) : productive (fresh (satisfy f)) /\ total (fresh (satisfy f)).
Proof.
  split.
  - intros [l pos part] r i' H Ho. unfold fresh, satisfy, mk_lazy, lazy_run in H. cbn [p_run p_init] in H. unfold satisfy_impl, s_uncons, uncons, wrap_stream_error in H.
    cbn [rest ipos ipart] in H. destruct l as [|t l].
    + destruct part; cbn in H; inversion H; subst; discriminate.
    + destruct (f t); cbn in H; inversion H; subst; [unfold shorter; cbn; lia|discriminate].
  - intros [l pos part]. unfold fresh, satisfy, mk_lazy, lazy_run. cbn [p_run p_init]. unfold satisfy_impl, s_uncons, uncons, wrap_stream_error.
    cbn [rest ipos ipart]. destruct l as [|t l]; [destruct part; cbn; eauto|destruct (f t); cbn; eauto].
Qed.

Lemma advanced_by_cons (i : input C) t i1 l i' : advanced_by i [t] i1 -> (advanced_by i (t :: l) i' <-> advanced_by i1 l i').
Proof.
  intros [H1 [H2 H3]]. unfold advanced_by. rewrite H1, H2, H3. simpl. unfold pos_after. simpl. split.
  - intros [K1 [K2 K3]]. inversion K1. auto.
  - intros [K1 [K2 K3]]. rewrite K1. auto.
Qed.
Lemma advanced_by_nil (i i' : input C) : advanced_by i [] i' <-> i' = i.
Proof.
  unfold advanced_by. destruct i, i'; simpl. split; [intros [H1 [H2 H3]]; subst; auto|]. intros H. inversion H; subst. auto.
Qed.
Lemma reps_passed {A} (b : beh A) i c l i' : reps (passed b) i c l i' <->
  c = negb (match l with [] => true | _ => false end) /\ advanced_by i l i' /\
  forall l1 l2 j, l = l1 ++ l2 -> l2 <> [] -> advanced_by i l1 j -> fails b j false.
Proof.
  split.
  - intros H. induction H as [i|i c t i1 c' l i' [-> [Hf Ha]] H [_ [IH2 IH3]]].
    + split; auto. split; [apply advanced_by_nil; auto|]. intros l1 l2 j Hl Hn. destruct l1; [simpl in Hl; congruence|discriminate].
    + split; auto. split; [apply (advanced_by_cons _ _ _ _ _ Ha); auto|]. intros [|t1 l1] l2 j Hl Hn Hj.
      * apply advanced_by_nil in Hj. subst. auto.
      * simpl in Hl. inversion Hl; subst. apply (advanced_by_cons _ _ _ _ _ Ha) in Hj. eapply IH3; eauto.
  - revert i c i'. induction l as [|t l IH]; intros i c i' [-> [H1 H2]].
    + apply advanced_by_nil in H1. subst. constructor.
    + simpl. change true with (true || (negb (match l with [] => true | _ => false end))).
      assert (Hr : exists r, rest i = t :: r) by (destruct H1 as [H1 _]; rewrite H1; simpl; eauto). destruct Hr as [r Hr].
      set (i1 := Inp r (pos_step C (ipos i) t) (ipart i)).
      assert (Ha : advanced_by i [t] i1) by (split; [rewrite Hr; auto|split; auto]).
      apply (@reps_cons C _ (passed b) i true t i1).
      * split; auto. split; auto. apply (H2 [] (t :: l) i); [auto|discriminate|apply advanced_by_nil; auto].
      * apply IH. split; auto. split; [apply (advanced_by_cons _ _ _ _ _ Ha); auto|]. intros l1 l2 j Hl Hn Hj.
        apply (H2 (t :: l1) l2 j); [subst; auto|auto|apply (advanced_by_cons _ _ _ _ _ Ha); auto].
Qed.

Lemma take_while1_restores (f : T -> bool) : restores (p_lazy (take_while1 f)).
Proof.
  intros i e i' H. unfold take_while1, mk_mode, default_lazy in H. cbn [p_lazy] in H. unfold parse_partial_range in H.
  assert (K : forall r j, s_uncons_while1 i f = (r, j) -> r = PeekErr e -> j = i).
  { intros r j Hs ->. unfold s_uncons_while1 in Hs. unfold m_uncons_while1 in Hs. destruct (rest i) as [|t l].
    - destruct (ipart i && input_at_eof i); inversion Hs; auto.
    - destruct (f t); [destruct (span_while f l); destruct (_ && _) in Hs; discriminate|]. destruct (_ && _) in Hs; inversion Hs; auto. }
  destruct (s_uncons_while1 i f) as [r j] eqn:Hs. destruct (ipart i); cbn in H.
  - destruct r; cbn in H; inversion H; subst; eauto.
  - destruct r; cbn in H; inversion H; subst; eauto.
Qed.
End RepeatProofs4.
