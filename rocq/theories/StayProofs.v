(** What a resumed list remembers. *)
From Coq Require Import String List Bool Arith NArith Lia.
Import ListNotations.
From Verif Require Import Base Parser Token Combinator Sequence Choice Repeat RangeP Spec SeqSpec ChoiceSpec TidySpec RepeatSpec AgreeSpec.
From Verif Require Import ResultProofs SeqProofs CombProofs ChoiceProofs CombProofs2 TidyProofs RepeatProofs RepeatProofs2.
Unset Implicit Arguments.

Section Stay.
Context {C : Cfg}.
Notation E := (Err C).

Lemma in_but_last {X} (x y : X) t : In x (removelast t) -> In x (removelast (y :: t)).
Proof. destruct t; [intros []|intros H; right; exact H]. Qed.

Lemma ok_no_fail {A} (b : @beh C A) i c a j c' : succeeds b i c a j -> fails b i c' -> False.
Proof. unfold succeeds. intros H [e [r [j' [F1 [F2 _]]]]]. rewrite H in F1. injection F1 as <- _. destruct c; discriminate F2. Qed.

Section Scan.
Context {S A : Type} (Clean : S -> Prop) (p : parser C S (option A)) (Hi : Clean (p_init p)) (Hr : run_hyg false Clean (p_run p)).
Notation some := (fun i c (a : A) i' => succeeds (fresh p) i c (Some a) i').
Lemma iter_scan_commit n : forall c0 i st l e c j st', Clean st -> iter_scan n p true c0 i st = Done (l, ISCommit e, c, j, st') ->
  exists c' ib, reps some i c' l ib /\ fails (fresh p) ib true /\ c = c0 || c'.
Proof.
  induction n as [|n IH]; intros c0 i st l e c j st' Hc H; simpl in H; [discriminate|].
  destruct (p_run p true i st) as [[[r i1] st1]| |] eqn:Hp; simpl in H; try discriminate.
  destruct (step_fwd _ p Hi Hr _ _ _ _ _ Hc Hp) as [Hb Hc1]. destruct r as [[a|]|[a|]|e0|t]; try discriminate.
  - destruct (iter_scan n p true true i1 st1) as [[[[[l1 is1] c1] j1] s1]| |] eqn:Hit; simpl in H; inversion H; subst.
    destruct (IH _ _ _ _ _ _ _ _ (Hc1 I) Hit) as [c' [ib [H1 [H2 H3]]]]. exists (true || c'), ib.
    split; [apply (reps_step some i true a i1 c'); [exact Hb|exact H1]|]. split; [exact H2|]. rewrite H3. destruct c0; reflexivity.
  - destruct (iter_scan n p true c0 i1 st1) as [[[[[l1 is1] c1] j1] s1]| |] eqn:Hit; simpl in H; inversion H; subst.
    destruct (IH _ _ _ _ _ _ _ _ (Hc1 I) Hit) as [c' [ib [H1 [H2 H3]]]]. exists (false || c'), ib.
    split; [apply (reps_step some i false a i1 c'); [exact Hb|exact H1]|]. auto.
  - inversion H; subst. exists false, i. split; [constructor|]. split; [apply fails_commit; eauto|]. rewrite orb_false_r. reflexivity.
Qed.
End Scan.

Lemma reps_commit {S A} (p : parser C S (option A)) i c l ib c' l' ib' :
  reps (fun i c (a : A) i' => succeeds (fresh p) i c (Some a) i') i c l ib ->
  reps (fun i c (a : A) i' => succeeds (fresh p) i c (Some a) i') i c' l' ib' -> fails (fresh p) ib' true -> c = true -> c' = true.
Proof.
  intros H. revert c' l' ib'. induction H as [i|i c1 v i1 c2 l ib H1 H2 IH]; intros c' l' ib' K F Hc; [discriminate|].
  inversion K as [i0 Q|i0 d1 v1 j1 d2 l1 i2 Q1 Q2]; subst.
  - destruct (ok_no_fail _ _ _ _ _ _ H1 F).
  - unfold succeeds in H1, Q1. rewrite H1 in Q1. injection Q1 as Q3 Q4. subst j1. apply okr_inj in Q3. destruct Q3 as [-> _].
    destruct d1; [reflexivity|]. simpl in *. apply (IH _ _ _ Q2 F Hc).
Qed.

Section SepEnd.
Context {S1 S2 A B : Type} (p : parser C S1 A) (sep : parser C S2 B).
Context (Hp : history_free false p) (Hs : history_free false sep).
Notation w := (with_ (by_ref sep) (optional (by_ref p))).

Lemma sep_end_resume f i rest els ch : p_run (sep_end_by1 p sep) f i (Some rest, els, ch) =
  omap (fun x => match x with (l, is, c, i', child') =>
          (combine_commit rest (fun _ => fst (into_result_fast (els ++ l) is c)), i',
           (if is_ok (fst (into_result_fast (els ++ l) is c)) then None else match c with true => Some (Commit tt) | false => Some rest end,
            snd (into_result_fast (els ++ l) is c), child')) end)
       (iter_scan (fuel C) w f false i ch).
Proof.
  cbn [sep_end_by1 mk_mode p_run sep_end_by1_run]. unfold sep_end_by1_rest.
  destruct (iter_scan (fuel C) w f false i ch) as [[[[[l is] c] i'] ch']| |]; cbn [omap obind]; try reflexivity.
  destruct (into_result_fast (els ++ l) is c); reflexivity.
Qed.

Lemma sep_end_committed : forall calls els ch, Forall (fun c => fst c = false) calls ->
  (forall x, In x (removelast (trace (sep_end_by1 p sep) (Some (Commit tt), els, ch) calls)) -> needs_more x) ->
  forall r j, In (Done (r, j)) (trace (sep_end_by1 p sep) (Some (Commit tt), els, ch) calls) -> committed r = true.
Proof.
  induction calls as [|[f i] calls IH]; intros els ch Hf Hm r j Hin; [destruct Hin|]. cbn [trace] in *.
  rewrite sep_end_resume in Hin, Hm.
  destruct (iter_scan (fuel C) w f false i ch) as [[[[[l is] c] i'] ch']| |] eqn:Hit; cbn [omap obind] in Hin, Hm;
    [|destruct Hin as [Hin|[]]; discriminate Hin|destruct Hin as [Hin|[]]; discriminate Hin].
  inversion Hf as [|? ? _ Hf2]; subst.
  destruct is as [|e|e]; cbn [into_result_fast] in Hin, Hm.
  1,2: destruct calls as [|cc calls];
    [destruct Hin as [Hin|[]]; destruct c; cbn in Hin; injection Hin as <- <-; reflexivity
    |exfalso; match type of Hm with context[trace ?q ?s (cc :: calls)] =>
       assert (Y : exists y t, trace q s (cc :: calls) = y :: t) by (destruct cc as [f2 i2]; cbn [trace]; destruct (p_run q f2 i2 s) as [[[? ?] ?]| |]; eauto);
       destruct Y as [y [t Y]]; rewrite Y in Hm end;
     destruct (Hm _ (or_introl eq_refl)) as [e0 [j0 K]]; destruct c; discriminate K].
  destruct Hin as [Hin|Hin].
  - cbn in Hin. injection Hin as <- <-. reflexivity.
  - cbn [combine_commit is_ok fst snd] in Hin, Hm.
    assert (X : match c with true => Some (Commit tt) | false => Some (Commit tt) end = Some (Commit tt)) by (destruct c; reflexivity).
    rewrite X in Hin, Hm. refine (IH _ _ Hf2 _ r j Hin). intros x Hx. apply Hm. exact (in_but_last _ _ _ Hx).
Qed.

Lemma sep_end_stays i c1 a i1 c2 l ib : succeeds (fresh p) i c1 a i1 -> reps (pair_ok (fresh sep) (fresh p)) i1 c2 l ib -> c1 || c2 = true ->
  forall calls, Forall (fun c => fst c = false) calls ->
  (forall x, In x (removelast (trace (sep_end_by1 p sep) (p_init (sep_end_by1 p sep)) ((true, i) :: calls))) -> needs_more x) ->
  forall r j, In (Done (r, j)) (trace (sep_end_by1 p sep) (p_init (sep_end_by1 p sep)) ((true, i) :: calls)) -> committed r = true.
Proof.
  intros H1 H2 Hc calls Hf Hm r j Hin. cbn [trace] in Hin, Hm.
  pose proof (left_init false p) as Hi. pose proof (history_free_run_hyg false p Hp) as Hr.
  destruct (step_bwd _ p Hi Hr _ _ _ _ Hi H1) as [s1 [Hrun Hx]]. assert (Hl : leftover false p s1) by (apply Hx; destruct c1; exact I).
  pose proof (hyg_with false _ _ (by_ref sep) (optional (by_ref p)) (history_free_by_ref false sep Hs) (hyg_optional _ _ _ (history_free_by_ref false p Hp))) as Hw.
  set (ch := (((None, p_init sep), (None, s1)), 0%N) : sep_state S1 S2 (option A)).
  assert (Cw : pair_clean (A:=unit) (B:=option A) (leftover false sep) (leftover false p) ch) by exact (conj (left_init false sep) Hl).
  assert (R : p_run (sep_end_by1 p sep) true i (p_init (sep_end_by1 p sep)) =
    p_run (sep_end_by1 p sep) true i1 (Some (if c1 then Commit tt else Peek tt), [a], ch)).
  { unfold sep_end_by1, mk_mode, sep_end_by1_run. cbn [p_run p_init]. unfold sep_get. cbn [snd fst with_ mk_both p_init pair2 tuple mk_mode tup_init by_ref ignore optional].
    rewrite Hrun. cbn [obind]. destruct c1; reflexivity. }
  rewrite R, sep_end_resume in Hin, Hm.
  destruct (iter_scan (fuel C) w true false i1 ch) as [[[[[l1 is] c] i'] ch']| |] eqn:Hit; cbn [omap obind] in Hin, Hm;
    [|destruct Hin as [Hin|[]]; discriminate Hin|destruct Hin as [Hin|[]]; discriminate Hin].
  apply (proj2 (sew_reps p sep _ _ _ _)) in H2.
  destruct is as [|e|e]; cbn [into_result_fast] in Hin, Hm.
  - assert (Hc' : c1 || c = true).
    { destruct (iter_scan_fwd _ w (h_init _ _ _ Hw) (h_run _ _ _ Hw) _ _ _ _ _ _ _ _ _ Cw Hit) as [c' [jb [K1 [_ [c3 [K3 K4]]]]]]. rewrite K4. simpl.
      destruct c1; [reflexivity|]. simpl in *. subst c2.
      assert (G : forall i c l ib, reps (fun i c (a : A) i' => succeeds (fresh w) i c (Some a) i') i c l ib -> forall c' l' jb, reps (fun i c (a : A) i' => succeeds (fresh w) i c (Some a) i') i c' l' jb ->
        succeeds (fresh w) jb c3 None i' -> c = true -> c' = true).
      { clear. intros i c l ib H. induction H as [i|i c1 v i1 c2 l ib H1 H2 IH]; intros c' l' jb K F Hc; [discriminate|].
        inversion K as [i0 Q|i0 d1 v1 j1 d2 l2 i2 Q1 Q2]; subst.
        - unfold succeeds in H1, F. rewrite H1 in F. injection F as F _. apply okr_inj in F. destruct F. discriminate.
        - unfold succeeds in H1, Q1. rewrite H1 in Q1. injection Q1 as Q3 Q4. subst j1. apply okr_inj in Q3. destruct Q3 as [-> _].
          destruct d1; [reflexivity|]. simpl in *. apply (IH _ _ _ Q2 F Hc). }
      rewrite (G _ _ _ _ H2 _ _ _ K1 K3 eq_refl). reflexivity. }
    destruct calls as [|cc calls].
    + destruct Hin as [Hin|[]]. destruct c1, c; cbn in Hin, Hc'; try discriminate Hc'; injection Hin as <- <-; reflexivity.
    + exfalso. match type of Hm with context[trace ?q ?s (cc :: calls)] =>
       assert (Y : exists y t, trace q s (cc :: calls) = y :: t) by (destruct cc as [f2 i2]; cbn [trace]; destruct (p_run q f2 i2 s) as [[[? ?] ?]| |]; eauto);
       destruct Y as [y [t Y]]; rewrite Y in Hm end.
      destruct (Hm _ (or_introl eq_refl)) as [e0 [j0 K]]. destruct c1, c; discriminate K.
  - assert (Hc' : c1 || c = true).
    { destruct (iter_scan_fwd _ w (h_init _ _ _ Hw) (h_run _ _ _ Hw) _ _ _ _ _ _ _ _ _ Cw Hit) as [c' [jb [K1 [_ [K3 [-> K5]]]]]]. rewrite K3. simpl.
      destruct c1; [reflexivity|]. simpl in *. subst c2.
      assert (G : forall i c l ib, reps (fun i c (a : A) i' => succeeds (fresh w) i c (Some a) i') i c l ib -> forall c' l' jb, reps (fun i c (a : A) i' => succeeds (fresh w) i c (Some a) i') i c' l' jb ->
        fails_with (fresh w) jb false e -> c = true -> c' = true).
      { clear. intros i c l ib H. induction H as [i|i c1 v i1 c2 l ib H1 H2 IH]; intros c' l' jb K F Hc; [discriminate|].
        inversion K as [i0 Q|i0 d1 v1 j1 d2 l2 i2 Q1 Q2]; subst.
        - assert (F' : fails (fresh w) jb false) by (exists e; exact F).
          destruct (ok_no_fail _ _ _ _ _ _ H1 F').
        - unfold succeeds in H1, Q1. rewrite H1 in Q1. injection Q1 as Q3 Q4. subst j1. apply okr_inj in Q3. destruct Q3 as [-> _].
          destruct d1; [reflexivity|]. simpl in *. apply (IH _ _ _ Q2 F Hc). }
      exact (G _ _ _ _ H2 _ _ _ K1 K5 eq_refl). }
    destruct calls as [|cc calls].
    + destruct Hin as [Hin|[]]. destruct c1, c; cbn in Hin, Hc'; try discriminate Hc'; injection Hin as <- <-; reflexivity.
    + exfalso. match type of Hm with context[trace ?q ?s (cc :: calls)] =>
       assert (Y : exists y t, trace q s (cc :: calls) = y :: t) by (destruct cc as [f2 i2]; cbn [trace]; destruct (p_run q f2 i2 s) as [[[? ?] ?]| |]; eauto);
       destruct Y as [y [t Y]]; rewrite Y in Hm end.
      destruct (Hm _ (or_introl eq_refl)) as [e0 [j0 K]]. destruct c1, c; discriminate K.
  - destruct (iter_scan_commit _ w (h_init _ _ _ Hw) (h_run _ _ _ Hw) _ _ _ _ _ _ _ _ _ Cw Hit) as [c' [jb [K1 [K2 K3]]]]. simpl in K3. subst c'.
    assert (Hone : (if c then Some (Commit tt) else Some (if c1 then Commit tt else Peek tt)) = Some (Commit tt)).
    { destruct c; [reflexivity|]. destruct c1; [reflexivity|]. simpl in Hc. exfalso. discriminate (reps_commit _ _ _ _ _ _ _ _ H2 K1 K2 Hc). }
    cbn [combine_commit is_ok fst snd] in Hin, Hm. rewrite Hone in Hin, Hm. destruct Hin as [Hin|Hin].
    + destruct c1; cbn in Hin; injection Hin as <- <-; reflexivity.
    + refine (sep_end_committed calls _ _ Hf _ r j Hin). intros x Hx0. apply Hm. exact (in_but_last _ _ _ Hx0).
Qed.
End SepEnd.
End Stay.
