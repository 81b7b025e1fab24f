(** Proofs for C74: sequences, choices and repetitions. *)
From Coq Require Import String List Bool Arith NArith Lia.
Import ListNotations.
From Verif Require Import Base Parser Token Combinator Sequence Choice Repeat RangeP ByteP Spec SeqSpec ChoiceSpec TidySpec RepeatSpec AgreeSpec.
From Verif Require Import ResultProofs SeqProofs CombProofs ChoiceProofs CombProofs2 RepeatProofs ChunkSpec ChunkProofs ChunkProofs2 ChunkProofs3 ChunkProofs4 ChunkProofs5 ChunkProofs6 ChunkProofs7 ChunkProofs8 ChunkProofs9 ChunkProofs10 ChunkProofs11.
From Verif Require Import TotalSpec TotalProofs TotalProofs2 SteadySpec SteadyProofs.
Unset Implicit Arguments.

Section Steady2.
Context {C : Cfg}.
Notation T := (tok C).
Notation E := (Err C).
Notation nonempty := consumed_some.
Variable z : nat.
Notation few := (TotalSpec.fits z).

(** What a successful run leaves fits again. *)
Lemma few_next (i j : input C) q : few i -> rest i = q ++ rest j -> few j.
Proof. intros Hf Q. destruct j as [r pos f]. eapply few_suffix; [exact Hf|exact Q]. Qed.

(** * Tuples *)
Definition ret_tail {SS B} (Clnt : bool -> SS -> Prop) (Rest : bool -> Pos C -> list T -> list T -> SS -> Prop) (t : tup (C:=C) SS B) : Prop :=
  forall f first pos l k r' s, started Clnt Rest f first pos l k s -> few (Inp (k ++ r') (pos_after pos l) f) ->
    (forall cur fep off, returns (seq_rest t first cur fep (Inp (k ++ r') (pos_after pos l) f) s off)) /\
    (forall off, returns (seq_all t first (Inp (k ++ r') (pos_after pos l) f) s off)).

Lemma ret_tail_one {S A} Cln Res (p : parser C S A) : ret_by z Cln Res p -> ret_tail (q1cln Cln) (q1res Res) (T1 p).
Proof.
  intros H f first pos l k r' [v s] St Hf. destruct (started1 _ _ _ _ _ _ _ _ St) as [Hv Sc]. cbn in Hv, Sc. subst v.
  split; intros; cbn [seq_rest seq_all seq_elem seq_head is_none fst snd]; rewrite orb_true_r; apply returns_omap; apply H; auto.
Qed.

Lemma ret_tail_cons x1 a1 n1 h1 x2 n2 h2 {S A SS B} Cln Res Clnt Rest (p : parser C S A) (t : tup (C:=C) SS B) :
  chunk_by x1 a1 n1 h1 Cln Res p -> tail_by x2 n2 h2 Clnt Rest t -> ret_by z Cln Res p -> ret_tail Clnt Rest t ->
  ret_tail (qcln Cln Clnt) (qres Cln Res Clnt Rest p) (TC p t).
Proof.
  intros K KT H HT f first pos l k r' [[v s] ss] St Hf. apply started_q in St. cbn [fst snd] in St.
  destruct St as [[-> [Sc Ct]]|[v0 [w1 [l2 [-> [-> [Cl [-> [_ Rt]]]]]]]]].
  - destruct (H _ _ _ _ _ _ _ Sc Hf) as [[[r i'] s'] R]. pose proof (cb_run K _ _ _ _ _ _ _ Sc _ R) as F.
    assert (G : is_ok r = true -> (forall cur fep off, returns (seq_rest t true cur fep i' ss off))).
    { intros Hr cur fep off.
      assert (F' : exists r1, k ++ r' = r1 ++ rest i' /\ i' = Inp (rest i') (pos_after (pos_after pos l) r1) f).
      { destruct r as [a|a|e|e]; try discriminate; cbn in F; destruct F as [[r1 [F1 [F2 _]]] _]; exists r1; split; assumption. }
      destruct F' as [r1 [F1 F2]]. assert (Hf' : few i') by (eapply few_next; [exact Hf|exact F1]). rewrite F2 in Hf' |- *.
      exact (proj1 (HT f true (pos_after (pos_after pos l) r1) [] [] (rest i') ss (conj eq_refl (conj eq_refl Ct)) Hf') cur fep off). }
    split; intros; cbn [seq_rest seq_all seq_elem seq_head is_none fst snd]; rewrite orb_true_r, R; destruct r as [a|a|e|e]; cbn [omap obind is_ok] in *;
      try apply returns_done; apply returns_omap; auto.
  - rewrite pos_after_app in Hf |- *. destruct (HT f false (pos_after pos w1) l2 k r' ss Rt Hf) as [HT1 _].
    split; intros; cbn [seq_rest seq_all seq_elem seq_head is_none fst snd orb obind]; apply returns_omap; apply HT1.
Qed.

Lemma ret_tuple x n h {SS B} Clnt Rest (t : tup (C:=C) SS B) : tail_by x n h Clnt Rest t -> ret_tail Clnt Rest t ->
  ret_by z (fun f st => Clnt f (fst st)) (fun f pos l k st => Rest f pos l k (fst st)) (tuple t).
Proof.
  intros K H f first pos l k r' [s off] St Hf. cbn [p_run tuple mk_mode]. unfold tuple_run. cbn [fst snd].
  assert (St' : started Clnt Rest f first pos l k s) by (destruct first; exact St).
  destruct (proj2 (H f first pos l k r' s St' Hf) off) as [[[[kk i'] s'] off'] R]. rewrite R. cbn [obind].
  pose proof (tb_all _ _ _ _ _ _ K _ _ _ _ _ _ _ _ St' _ R) as F. destruct kk as [fs cur fep|e|e|e fep]; try apply returns_done.
  - destruct F as [r1 [v [s2 [_ [_ [F3 _]]]]]]. rewrite F3. apply returns_done.
  - destruct (add_errors _ _ _ _ _). apply returns_done.
Qed.

Lemma ret_with x1 a1 n1 h1 x2 a2 n2 h2 {S1 A S2 B} Cln1 Res1 Cln2 Res2 (p : parser C S1 A) (q : parser C S2 B) :
  chunk_by x1 a1 n1 h1 Cln1 Res1 p -> chunk_by x2 a2 n2 h2 Cln2 Res2 q -> ret_by z Cln1 Res1 p -> ret_by z Cln2 Res2 q ->
  ret_by z (fun f st => qcln Cln1 (q1cln Cln2) f (fst st)) (fun f pos l k st => qres Cln1 Res1 (q1cln Cln2) (q1res Res2) (ignore p) f pos l k (fst st)) (with_ p q).
Proof.
  intros K1 K2 H1 H2. eapply ret_post; [|intros; eexists; reflexivity].
  eapply ret_tuple; [eapply tail_cons; [eapply chunk_ignore; exact K1|eapply tail_one; exact K2]|].
  eapply ret_tail_cons; [eapply chunk_ignore; exact K1|eapply tail_one; exact K2|apply ret_ignore; exact H1|apply ret_tail_one; exact H2].
Qed.
Lemma ret_skip x1 a1 n1 h1 x2 a2 n2 h2 {S1 A S2 B} Cln1 Res1 Cln2 Res2 (p : parser C S1 A) (q : parser C S2 B) :
  chunk_by x1 a1 n1 h1 Cln1 Res1 p -> chunk_by x2 a2 n2 h2 Cln2 Res2 q -> ret_by z Cln1 Res1 p -> ret_by z Cln2 Res2 q ->
  ret_by z (fun f st => qcln Cln1 (q1cln Cln2) f (fst st)) (fun f pos l k st => qres Cln1 Res1 (q1cln Cln2) (q1res Res2) p f pos l k (fst st)) (skip p q).
Proof.
  intros K1 K2 H1 H2. eapply ret_post; [|intros; eexists; reflexivity].
  eapply ret_tuple; [eapply tail_cons; [exact K1|eapply tail_one; eapply chunk_ignore; exact K2]|].
  eapply ret_tail_cons; [exact K1|eapply tail_one; eapply chunk_ignore; exact K2|exact H1|apply ret_tail_one; apply ret_ignore; exact H2].
Qed.

(** * then *)
Lemma ret_then x1 a1 n1 h1 x2 a2 n2 h2 {S1 A S2 B} Cln1 Res1 Cln2 (Res2 : A -> _) (p : parser C S1 A) (s0 : S2) (q : A -> parser C S2 B) :
  chunk_by x1 a1 n1 h1 Cln1 Res1 p -> (forall v, chunk_by x2 a2 n2 h2 Cln2 (Res2 v) (q v)) -> (forall v, p_init (q v) = s0) ->
  ret_by z Cln1 Res1 p -> (forall v, ret_by z Cln2 (Res2 v) (q v)) ->
  ret_by z (thcln Cln1 Cln2 s0) (thres Cln1 Res1 Cln2 Res2 p s0) (then_ p s0 q).
Proof.
  intros K1 K2 HI H1 H2 f first pos l k r' [[sp cache] sn] St Hf. cbn [p_run then_ mk_mode then_run].
  assert (K : (cache = None /\ started Cln1 Res1 f first pos l k sp /\ (sn = s0 \/ (Cln2 f sn /\ inhabited A))) \/
      (exists c v w1 l2, cache = Some (c, v) /\ first = false /\ l = w1 ++ l2 /\ Res2 v f (pos_after pos w1) l2 k sn)).
  { destruct first; simpl in St.
    - destruct St as [G1 [G2 [G3 [G4 G5]]]]. left. simpl. auto 6.
    - destruct St as [G|[c [v [w1 [l2 [G1 [G2 [G3 [G4 [G5 G6]]]]]]]]]]; [left; exact G|]. right. exists c, v, w1, l2. auto 8. }
  destruct K as [[-> [Sc Hn]]|[c [v [w1 [l2 [-> [-> [-> Rv]]]]]]]].
  - cbn [is_none negb]. rewrite orb_true_r, andb_false_r. destruct (H1 _ _ _ _ _ _ _ Sc Hf) as [[[r i'] s'] R]. rewrite R. cbn [obind].
    pose proof (cb_run K1 _ _ _ _ _ _ _ Sc _ R) as F.
    assert (G : forall v, value_of r = Some v -> returns (p_cmode (q v) true i' sn)).
    { intros v Hv.
      assert (F' : exists r1, k ++ r' = r1 ++ rest i' /\ i' = Inp (rest i') (pos_after (pos_after pos l) r1) f).
      { destruct r as [a|a|e|e]; try discriminate; cbn in F; destruct F as [[r1 [F1 [F2 _]]] _]; exists r1; split; assumption. }
      destruct F' as [r1 [F1 F2]]. assert (Hf' : few i') by (eapply few_next; [exact Hf|exact F1]). rewrite F2 in Hf' |- *.
      apply (ret_cmode z _ _ _ (H2 v) (K2 v) f true (pos_after (pos_after pos l) r1) [] []); [|exact Hf']. cbn.
      split; [reflexivity|]. split; [reflexivity|]. destruct Hn as [->|[Hn _]]; [|exact Hn]. rewrite <- (HI v). apply (cb_init (K2 v)). }
    destruct r as [a|a|e|e]; try apply returns_done; apply returns_omap; apply G; reflexivity.
  - cbn [is_none orb]. apply returns_omap. rewrite pos_after_app in Hf |- *. apply (ret_cmode z _ _ _ (H2 v) (K2 v) f false (pos_after pos w1) l2 k r' sn); [exact Rv|exact Hf].
Qed.

(** * Choices *)
Definition ret_alts {A SS} (Ralt : bool -> Pos C -> list T -> list T -> SS -> Prop) (t : alts (C:=C) A SS) : Prop :=
  (forall i, few i -> exists y, choice_try t i = Done y /\ y <> TFail []) /\
  (forall f pos l k r' s, Ralt f pos l k s -> few (Inp (k ++ r') (pos_after pos l) f) -> returns (choice_resume t false (Inp (k ++ r') (pos_after pos l) f) s)).

Lemma ret_try_one x a n h {S A} Cln Res (p : parser C S A) : chunk_by x a n h Cln Res p -> ret_by z Cln Res p -> forall i, few i -> exists y, try_one p i = Done y /\ y <> TFail [].
Proof.
  intros K H i Hf. destruct (ret_start z _ _ _ H i (p_init p) (cb_init K _) Hf) as [[[r i'] s'] R]. unfold try_one. rewrite R. cbn [omap].
  eexists. split; [reflexivity|]. destruct r; discriminate.
Qed.
Lemma ret_alt_one x a n h {S A} Cln Res (p : parser C S A) : chunk_by x a n h Cln Res p -> ret_by z Cln Res p -> ret_alts Res (AL p).
Proof.
  intros K H. split.
  - intros i Hf. cbn [choice_try]. eapply ret_try_one; eauto.
  - intros f pos l k r' s HR Hf. cbn [choice_resume]. apply (H f false); auto.
Qed.
Lemma ret_alt_cons x a n h {S A SS} m Cln Res Ralt (p : parser C S A) (t : alts (C:=C) A SS) : chunk_by x a n h Cln Res p -> ret_by z Cln Res p -> ret_alts Ralt t ->
  ret_alts (ralt m p Res Ralt) (AC p t).
Proof.
  intros K H [HT HR]. split.
  - intros i Hf. cbn [choice_try]. destruct (ret_try_one _ _ _ _ _ _ _ K H i Hf) as [y [Q Ny]]. rewrite Q. cbn [obind]. destruct y as [r i' so|errs].
    + eexists. split; [reflexivity|discriminate].
    + destruct (HT i Hf) as [y2 [Q2 Ny2]]. rewrite Q2. cbn [omap]. eexists. split; [reflexivity|]. destruct y2 as [r2 i2 so2|errs2]; [discriminate|].
      intros Z. inversion Z as [Z']. apply app_eq_nil in Z'. destruct Z' as [-> _]. apply Ny. reflexivity.
  - intros f pos l k r' [s|s] HS Hf; cbn [choice_resume]; apply returns_omap.
    + apply (H f false); [exact HS|exact Hf].
    + destruct HS as [_ [_ HS]]. apply HR; auto.
Qed.
Lemma ret_choice {A SS} Ralt (t : alts (C:=C) A SS) ad : ret_alts Ralt t -> ret_by z chcln (chres Ralt) (mk_mode None (choice_run t) ad no_err 1).
Proof.
  intros [HT HR] f first pos l k r' st St Hf. cbn [p_run mk_mode]. unfold choice_run.
  match goal with |- returns (if first then ?tr else _) => assert (G : returns tr) end.
  { destruct (HT _ Hf) as [y [Q Ny]]. rewrite Q. cbn [obind]. destruct y as [r i' so|errs]; [apply returns_done|]. destruct errs as [|e errs]; [congruence|]. apply returns_done. }
  destruct first; [exact G|]. destruct st as [s|]; [|exact G]. apply returns_omap. destruct St as [_ St]. apply HR; auto.
Qed.

(** * Repetitions *)
Section Iter.
Context {S A : Type} (a n h : bool) (Cln : bool -> S -> Prop) (Res : bool -> Pos C -> list T -> list T -> S -> Prop) (p : parser C S A).
Hypothesis K : chunk_by true a n h Cln Res p.
Hypothesis H : ret_by z Cln Res p.

Lemma step_next f first pos l k r' s r i' s' : started Cln Res f first pos l k s -> few (Inp (k ++ r') (pos_after pos l) f) ->
  p_run p first (Inp (k ++ r') (pos_after pos l) f) s = Done (r, i', s') -> is_ok r = true ->
  few i' /\ exists r1 v, k ++ r' = r1 ++ rest i' /\ i' = Inp (rest i') (pos_after (pos_after pos l) r1) f /\ Cln f s' /\ always_ok f (fresh p) pos (l ++ r1) (rest i') v.
Proof.
  intros St Hf R Hr. pose proof (cb_run K _ _ _ _ _ _ _ St _ R) as F.
  assert (F' : exists r1 v, k ++ r' = r1 ++ rest i' /\ i' = Inp (rest i') (pos_after (pos_after pos l) r1) f /\ Cln f s' /\ always_ok f (fresh p) pos (l ++ r1) (rest i') v).
  { destruct r as [w|w|e|e]; try discriminate; cbn in F; destruct F as [[r1 [F1 [F2 [F3 _]]]] [F5 _]]; exists r1, w; auto. }
  split; [|exact F']. destruct F' as [r1 [v [F1 _]]]. eapply few_next; [exact Hf|exact F1].
Qed.

Lemma iter_take_ret f : forall kk first cb pos l k r' s, started Cln Res f first pos l k s -> few (Inp (k ++ r') (pos_after pos l) f) ->
  returns (iter_take kk p first cb (Inp (k ++ r') (pos_after pos l) f) s).
Proof.
  induction kk as [|kk IH]; intros first cb pos l k r' s St Hf; [apply returns_done|]. cbn [iter_take].
  destruct (H _ _ _ _ _ _ _ St Hf) as [[[r i'] s'] R]. rewrite R. cbn [obind].
  assert (G : is_ok r = true -> forall cb', returns (iter_take kk p true cb' i' s')).
  { intros Hr cb'. destruct (step_next _ _ _ _ _ _ _ _ _ _ St Hf R Hr) as [Hf' [r1 [v [F1 [F2 [F3 _]]]]]]. rewrite F2 in Hf' |- *.
    apply (IH true cb' (pos_after (pos_after pos l) r1) [] [] (rest i') s'); [cbn; auto|exact Hf']. }
  destruct r as [v|v|e|e]; try apply returns_done; apply returns_omap; apply G; reflexivity.
Qed.

Lemma ret_count_min_max mn mx : mn <= mx -> ret_by z (ccln Cln) (cres Cln Res p mx) (count_min_max mn mx p).
Proof.
  intros Hm f first pos l k r' [[cnt els] s] St Hf. cbn [p_run count_min_max mk_mode count_min_max_run].
  replace (mx <? mn) with false by (symmetry; apply Nat.ltb_ge; exact Hm).
  assert (G : cnt <= mx /\ forall kk, returns (iter_take kk p first false (Inp (k ++ r') (pos_after pos l) f) s)).
  { destruct first; cbn in St.
    - destruct St as [-> [-> [-> [-> Hs]]]]. split; [lia|]. intros kk. apply (iter_take_ret f kk true false pos [] [] r' s); [cbn; auto|exact Hf].
    - destruct St as [-> [[-> [-> [-> Hs]]]|[Hl [w1 [l2 [-> [_ Hs]]]]]]].
      + split; [cbn; lia|]. intros kk. apply (iter_take_ret f kk false false pos [] [] r' s); [apply (cb_res K); exact Hs|exact Hf].
      + split; [lia|]. intros kk. rewrite pos_after_app in Hf |- *. apply (iter_take_ret f kk false false (pos_after pos w1) l2 k r' s); [exact Hs|exact Hf]. }
  destruct G as [G1 G2]. replace (mx <? cnt) with false by (symmetry; apply Nat.ltb_ge; exact G1).
  destruct (G2 (mx - cnt)) as [[[[[l0 is] c] i'] s'] R]. rewrite R. cbn [obind]. destruct (_ <? mn); [apply returns_done|].
  destruct (into_result_fast _ _ _). apply returns_done.
Qed.

Variable L : lawful C.
Context {b : bool}.
Hypothesis HS : solid z b true p.

Lemma few_plain (r : list T) pos pos' f f' : few (Inp r pos f) -> few (Inp r pos' f').
Proof. intros Hf. eapply (few_suffix z _ []); [exact Hf|reflexivity]. Qed.

(** Something is consumed. *)
Lemma step_eats f pos r1 (w : list T) v : always_ok f (fresh p) pos r1 w v -> few (Inp (r1 ++ w) pos f) -> r1 <> [].
Proof.
  intros HA Hf. destruct (solid_returns L _ _ _ _ _ p HS (p_init p) (used_init _ _ _) (Inp (r1 ++ w) pos false) (few_plain _ _ _ _ _ Hf)) as [r [i' [s' [R Sh]]]].
  assert (Q : fresh p (Inp (r1 ++ w ++ []) pos false) = Done (r, i')) by (rewrite app_nil_r; unfold fresh; rewrite R; reflexivity).
  destruct (HA [] (or_intror eq_refl) _ _ Q) as [-> ->]. specialize (Sh eq_refl (okr_is_ok _ _)). unfold shorter in Sh. cbn [rest] in Sh.
  intros ->. rewrite app_nil_r in Sh. cbn [app] in Sh. lia.
Qed.

Lemma iter_all_ret f : forall m first cb pos l k r' s, started Cln Res f first pos l k s -> few (Inp (k ++ r') (pos_after pos l) f) ->
  length (k ++ r') + (if first then 1 else 2) <= m -> returns (iter_all m p first cb (Inp (k ++ r') (pos_after pos l) f) s).
Proof.
  induction m as [|m IH]; intros first cb pos l k r' s St Hf Hm; [destruct first; lia|]. cbn [iter_all].
  destruct (H _ _ _ _ _ _ _ St Hf) as [[[r i'] s'] R]. rewrite R. cbn [obind].
  assert (G : is_ok r = true -> forall cb', returns (iter_all m p true cb' i' s')).
  { intros Hr cb'. destruct (step_next _ _ _ _ _ _ _ _ _ _ St Hf R Hr) as [Hf' [r1 [v [F1 [F2 [F3 F4]]]]]].
    assert (Hl : length (rest i') + 1 <= m).
    { rewrite F1, app_length in Hm. destruct first; [|lia]. destruct St as [-> [-> _]]. cbn [app] in F1, F4. apply step_eats in F4; [|rewrite <- F1; eapply few_plain; exact Hf].
      destruct r1; [congruence|]. cbn [length] in Hm. lia. }
    rewrite F2 in Hf' |- *. apply (IH true cb' (pos_after (pos_after pos l) r1) [] [] (rest i') s'); [cbn; auto|exact Hf'|exact Hl]. }
  destruct r as [v|v|e|e]; try apply returns_done; apply returns_omap; apply G; reflexivity.
Qed.
Lemma iter_fuel_ret f first cb pos l k r' s : started Cln Res f first pos l k s -> few (Inp (k ++ r') (pos_after pos l) f) ->
  returns (iter_all (fuel C) p first cb (Inp (k ++ r') (pos_after pos l) f) s).
Proof. intros St Hf. apply iter_all_ret; auto. destruct Hf as [_ Hf]. cbn [rest] in Hf. destruct first; lia. Qed.

Lemma ret_many : ret_by z (mcln Cln) (mres Res p) (many p).
Proof.
  intros f first pos l k r' [els s] St Hf. cbn [p_run many mk_mode many_run]. apply returns_omap. destruct first; cbn in St.
  - destruct St as [-> [-> [_ Hs]]]. apply (iter_fuel_ret f true false pos [] [] r' s); [cbn; auto|exact Hf].
  - destruct St as [w1 [l2 [-> [_ Hs]]]]. rewrite pos_after_app in Hf |- *. apply (iter_fuel_ret f false false (pos_after pos w1) l2 k r' s); [exact Hs|exact Hf].
Qed.

Lemma ret_many1 : ret_by z (m1cln Cln) (m1res Res p) (many1 p).
Proof.
  intros f first pos l k r' [[[one cst] els] s] St Hf. cbn [p_run many1 mk_mode many1_run].
  assert (G : (one = false /\ started Cln Res f first pos l k s) \/
      (first = false /\ one = true /\ exists w1 l2, l = w1 ++ l2 /\ Res f (pos_after pos w1) l2 k s)).
  { destruct first; simpl in St.
    - destruct St as [K1 [K2 [K3 [K4 K5]]]]. left. simpl. auto 10.
    - destruct St as [[K1 [K2 K3]]|[K1 [K2 [w1 [l2 [K3 [K4 [K5 K6]]]]]]]]; [left; simpl; auto|right]. split; [reflexivity|]. split; [exact K1|]. exists w1, l2. auto. }
  destruct G as [[-> Sc]|[-> [-> [w1 [l2 [-> Hs]]]]]].
  - cbn [negb]. rewrite orb_true_r, andb_false_r. destruct (H _ _ _ _ _ _ _ Sc Hf) as [[[r i'] s'] R]. rewrite R. cbn [obind].
    assert (G : is_ok r = true -> forall cb' e, returns (many1_iter p true cb' i' e s')).
    { intros Hr cb' e. destruct (step_next _ _ _ _ _ _ _ _ _ _ Sc Hf R Hr) as [Hf' [r1 [v [F1 [F2 [F3 F4]]]]]]. rewrite F2 in Hf' |- *. unfold many1_iter. apply returns_omap.
      apply (iter_fuel_ret f true cb' (pos_after (pos_after pos l) r1) [] [] (rest i') s'); [cbn; auto|exact Hf']. }
    destruct r as [v|v|e|e]; try apply returns_done; apply G; reflexivity.
  - cbn [orb negb]. unfold many1_iter. apply returns_omap. rewrite pos_after_app in Hf |- *. apply (iter_fuel_ret f false cst (pos_after pos w1) l2 k r' s); [exact Hs|exact Hf].
Qed.
End Iter.

Section Iterate.
Context {X S A : Type} (x0 a n h : bool) (Cln : bool -> S -> Prop) (Res : X -> bool -> Pos C -> list T -> list T -> S -> Prop) (F : X -> parser C S A).
Hypothesis K : forall x, chunk_by x0 a n h Cln (Res x) (F x).
Hypothesis H : forall x, ret_by z Cln (Res x) (F x).

Lemma iterate_items_ret f : forall items first cb pos l k r' s,
  match items with [] => True | x :: _ => started Cln (Res x) f first pos l k s end -> few (Inp (k ++ r') (pos_after pos l) f) ->
  returns (iterate_items F first cb items (Inp (k ++ r') (pos_after pos l) f) s).
Proof.
  induction items as [|x items IH]; intros first cb pos l k r' s St Hf; [apply returns_done|]. cbn [iterate_items].
  destruct (H x _ _ _ _ _ _ _ St Hf) as [[[r i'] s'] R]. rewrite R. cbn [obind]. pose proof (cb_run (K x) _ _ _ _ _ _ _ St _ R) as G0.
  assert (G : is_ok r = true -> forall cb', returns (iterate_items F true cb' items i' s')).
  { intros Hr cb'.
    assert (F' : exists r1, k ++ r' = r1 ++ rest i' /\ i' = Inp (rest i') (pos_after (pos_after pos l) r1) f /\ Cln f s').
    { destruct r as [w|w|e|e]; try discriminate; cbn in G0; destruct G0 as [[r1 [F1 [F2 [F3 _]]]] [F5 _]]; exists r1; auto. }
    destruct F' as [r1 [F1 [F2 F3]]]. assert (Hf' : few i') by (eapply few_next; [exact Hf|exact F1]). rewrite F2 in Hf' |- *.
    apply (IH true cb' (pos_after (pos_after pos l) r1) [] [] (rest i') s'); [destruct items; cbn; auto|exact Hf']. }
  destruct r as [v|v|e|e]; try apply returns_done; apply returns_omap; apply G; reflexivity.
Qed.

Lemma ret_iterate s0 items : ret_by z (icln Cln) (ires Cln Res F items) (iterate s0 items F).
Proof.
  intros f first pos l k r' [[[o c] buf] s] St Hf. cbn [p_run iterate mk_mode iterate_run].
  assert (G : (o = None /\ l = [] /\ k = [] /\ Cln f s) \/ (first = false /\ exists x its w1 l2, o = Some (its, Some x) /\ l = w1 ++ l2 /\ Res x f (pos_after pos w1) l2 k s)).
  { destruct first; simpl in St.
    - destruct St as [K1 [K2 [K3 [K4 [K5 K6]]]]]. left. auto.
    - destruct St as [[K1 [K2 [K3 [K4 [K5 K6]]]]]|[dn [x [its [w1 [l2 [K1 [K2 [K3 [K4 [K5 K6]]]]]]]]]]]; [left; auto|right]. split; [reflexivity|]. exists x, its, w1, l2. auto. }
  destruct G as [[-> [-> [-> Hs]]]|[-> [x [its [w1 [l2 [-> [-> Hs]]]]]]]]; apply returns_omap.
  - apply (iterate_items_ret f items first c pos [] [] r' s); [|exact Hf]. destruct items as [|x items]; [exact I|]. destruct first; cbn; [auto|]. apply (cb_res (K x)). exact Hs.
  - rewrite pos_after_app in Hf |- *. apply (iterate_items_ret f (x :: its) false c (pos_after pos w1) l2 k r' s); [exact Hs|exact Hf].
Qed.
End Iterate.

End Steady2.
