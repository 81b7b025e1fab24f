(** Proofs for C29: [iterate], [spanned], [then_ref]. *)
From Coq Require Import String List Bool Arith NArith Lia.
Import ListNotations.
From Verif Require Import Base Parser Token Combinator Sequence Choice Repeat RangeP Spec SeqSpec ChoiceSpec TidySpec RepeatSpec AgreeSpec TidyProofs.
From Verif Require Import ResultProofs SeqProofs CombProofs ChoiceProofs CombProofs2 RepeatProofs RepeatProofs2 RepeatProofs3 ChunkSpec ChunkProofs ChunkProofs2 ChunkProofs3 ChunkProofs4 ChunkProofs6.
Unset Implicit Arguments.

Section IterChunk.
Context {C : Cfg}.
Notation T := (tok C).
Notation E := (Err C).
Notation nonempty := consumed_some.
Variable EL : eoi_laws C.

(** * Wrappers *)
Lemma chunk_spanned x a n h {Q S A} qe (sa sb : Pos C -> Q) mk Cln Res (p : parser C S A) : chunk_by x a n h Cln Res p ->
  chunk_by x a n h Cln Res (spanned qe sa sb mk p).
Proof.
  intros H. apply (chunk_post x a n h Cln Res p _ (fun v => v)); auto; try apply (cb_adderr H); try apply (cb_cexp H).
  intros first i st. eexists (fun i' r => pr_map_err _ r). split; [reflexivity|]. intros i' r.
  destruct r as [v|v|e|e]; simpl; auto.
  - destruct (qe _ _); rewrite ?(el_setpos EL); auto.
  - destruct (qe _ _); rewrite ?(el_setpos EL); auto.
Qed.

Lemma chunk_pair x a n h {S A B} (v0 : A) Cln Res (q : parser C S B) : chunk_by x a n h Cln Res q ->
  chunk_by x a n h Cln Res (MkParser (p_init q)
      (fun first i st => omap (fun x => match x with (r, i', s') => (pr_map (pair v0) r, i', s') end) (p_run q first i st))
      (fun i => omap (fun x => (pr_map (pair v0) (fst x), snd x)) (p_lazy q i))
      (fun first i st => omap (fun x => match x with (r, i', s') => (pr_map (pair v0) r, i', s') end) (p_cmode q first i st))
      (fun i => omap (fun x => (pr_map (pair v0) (fst x), snd x)) (p_stream q i))
      (p_adderr q) (p_addcexp q) (p_count q)).
Proof.
  intros H. apply (chunk_post x a n h Cln Res q _ (pair v0)); auto; try apply (cb_adderr H); try apply (cb_cexp H); simpl.
  - intros first i st. destruct (cb_cmode H first i st) as [Q|Q]; rewrite Q; [left|right; reflexivity].
    unfold default_cmode. destruct (p_run q first i st) as [[[r i'] s']| |]; simpl; auto. unfold augment3, augment. destruct r; reflexivity.
  - intros i. destruct (cb_lazy H i) as [Q|Q]; rewrite Q; [left|right].
    + unfold default_lazy. destruct (p_run q true i (p_init q)) as [[[r i'] s']| |]; simpl; auto. destruct r; reflexivity.
    + unfold fresh. simpl. destruct (p_run q true i (p_init q)) as [[[r i'] s']| |]; simpl; auto.
  - intros first i st. exists (fun _ r => pr_map (pair v0) r). split; [reflexivity|]. intros i' r. destruct r; simpl; auto.
Qed.

(** * iterate *)
Section Iterate.
Context {X S A : Type} (x0 a n h : bool) (Cln : bool -> S -> Prop) (Res : X -> bool -> Pos C -> list T -> list T -> S -> Prop) (F : X -> parser C S A).
Hypothesis H : forall x, chunk_by x0 a n h Cln (Res x) (F x).
Notation bh x := (fresh (F x)).

Inductive ichain (f : bool) : Pos C -> list T -> list T -> list X -> list A -> Prop :=
| ic_nil : forall pos tail, ichain f pos [] tail [] []
| ic_cons : forall pos w0 w tail x v xs vs, always_ok f (bh x) pos w0 (w ++ tail) v -> ichain f (pos_after pos w0) w tail xs vs ->
    ichain f pos (w0 ++ w) tail (x :: xs) (v :: vs).

Lemma ichain_ext f pos w tail xs vs m : ichain true pos w tail xs vs -> ichain f pos w (tail ++ m) xs vs.
Proof.
  intros K. induction K as [|pos w0 w tail x v xs vs H1 H2 IH]; constructor; auto. rewrite app_assoc. apply always_ok_ext. exact H1.
Qed.
Lemma ichain_app f pos w w' tail xs xs' vs vs' : ichain f pos w (w' ++ tail) xs vs -> ichain f (pos_after pos w) w' tail xs' vs' ->
  ichain f pos (w ++ w') tail (xs ++ xs') (vs ++ vs').
Proof.
  intros K. remember (w' ++ tail) as z. revert Heqz. induction K as [|pos w0 w z x v xs vs H1 H2 IH]; simpl; intros -> K; auto.
  rewrite <- app_assoc. constructor.
  - rewrite <- app_assoc. exact H1.
  - apply IH; auto. rewrite pos_after_app in K. exact K.
Qed.
Lemma ichain_one f pos w tail x v : always_ok f (bh x) pos w tail v -> ichain f pos w tail [x] [v].
Proof. intros K. rewrite <- (app_nil_r w). constructor; [exact K|constructor]. Qed.

Lemma ichain_run f pos w tail xs vs : ichain f pos w tail xs vs -> forall m, exts f m -> forall pre post c l i', xs = pre ++ post ->
  runs_all (List.map (fun x => bh x) pre) (Inp (w ++ tail ++ m) pos false) c l i' ->
  exists w1 w2 vs2, w = w1 ++ w2 /\ vs = l ++ vs2 /\ c = nonempty w1 /\ i' = Inp (w2 ++ tail ++ m) (pos_after pos w1) false /\
    ichain f (pos_after pos w1) w2 tail post vs2.
Proof.
  intros K. induction K as [pos tail|pos w0 w tail x v xs vs H1 H2 IH]; intros m Hm pre post c l i' Hx HR.
  - symmetry in Hx. apply app_eq_nil in Hx. destruct Hx as [-> ->]. inversion HR; subst. exists [], [], []. repeat split; auto. constructor.
  - destruct pre as [|y pre].
    + cbn in Hx. subst post. inversion HR; subst. exists [], (w0 ++ w), (v :: vs). repeat split; auto. constructor; auto.
    + cbn in Hx. inversion Hx; subst y. cbn [List.map] in HR. inversion HR as [|b bs i c1 v1 i1 c2 l1 i2 R1 R2]; subst.
      unfold succeeds in R1. rewrite <- app_assoc, (app_assoc w) in R1. destruct (H1 m Hm _ _ R1) as [K1 K2]. apply okr_inj in K1. destruct K1 as [-> ->]. subst i1.
      rewrite <- app_assoc in R2. destruct (IH m Hm pre post _ _ _ eq_refl R2) as [w1 [w2 [vs2 [K3 [K4 [K5 [K6 K7]]]]]]]. subst.
      exists (w0 ++ w1), w2, vs2. rewrite app_assoc, nonempty_app, pos_after_app. auto 8.
Qed.
Lemma ichain_no_fail f pos w tail x xs vs m c : ichain f pos w tail (x :: xs) vs -> exts f m -> ~ fails (bh x) (Inp (w ++ tail ++ m) pos false) c.
Proof.
  intros K Hm Hf. inversion K as [|pos0 w0 w1 tail0 y v ys vs0 H1 H2]; subst. destruct (fails_inv _ _ _ Hf) as [r [j [F1 [F2 _]]]].
  rewrite <- app_assoc, (app_assoc w1) in F1. destruct (H1 m Hm _ _ F1) as [-> _]. rewrite okr_is_ok in F2. discriminate.
Qed.

Definition iout (items : list X) (f cb : bool) (pos : Pos C) (l r : list T) (out : list A * option (X * list X * PR (list A) E) * bool * input C * S) : Prop :=
  match out with (els, o, c', i', s') =>
    match o with
    | None => exists r1, r = r1 ++ rest i' /\ i' = Inp (rest i') (pos_after (pos_after pos l) r1) f /\
        ichain f pos (l ++ r1) (rest i') items els /\ Cln f s' /\ (l = [] -> c' = cb || nonempty r1)
    | Some (x, its, res) => exists done, items = done ++ x :: its /\ (
        (exists e r1 r2 w1 l2, res = (if c' then CommitErr (terr e) else PeekErr e) /\ n = false /\ (f = true -> e_is_eoi C (terr e) = false /\ r <> []) /\
           r = r1 ++ r2 /\ l ++ r1 = w1 ++ l2 /\ ichain f pos w1 (l2 ++ r2) done els /\ always_err f (bh x) (pos_after pos w1) (l2 ++ r2) (nonempty l2) /\
           (l = [] -> c' = cb || nonempty r1)) \/
        (exists e r1 w1 l2, res = CommitErr e /\ f = true /\ e_is_eoi C e = true /\ r = r1 ++ rest i' /\ i' = Inp (rest i') (pos_after (pos_after pos l) r1) f /\
           l ++ r1 = w1 ++ l2 /\ ichain true pos w1 (l2 ++ rest i') done els /\ (forall g, Res x g (pos_after pos w1) l2 (rest i') s') /\
           (c' = true -> cb = true \/ w1 <> [])) \/
        (exists e w1 w2, res = CommitErr e /\ (f = true -> e_is_eoi C e = false /\ (h = true -> r <> [])) /\
           l ++ r = w1 ++ w2 /\ ichain f pos w1 w2 done els /\ always_err f (bh x) (pos_after pos w1) w2 true))
    end
  end.

Lemma iout_shift its0 items f cb c pos l0 q rr w1 l2 els0 els o c' i' s' :
  l0 ++ q = w1 ++ l2 -> (l0 = [] -> l2 = [] /\ c = cb || nonempty q) -> (c = true -> cb = true \/ w1 <> []) -> ichain f pos w1 (l2 ++ rr) its0 els0 ->
  iout items f c (pos_after pos w1) l2 rr (els, o, c', i', s') -> iout (its0 ++ items) f cb pos l0 (q ++ rr) (els0 ++ els, o, c', i', s').
Proof.
  intros HL HC HW HA HO. unfold iout in *. destruct o as [[[x its] res]|].
  - destruct HO as [done [O0 HO]]. exists (its0 ++ done). split; [rewrite O0, app_assoc; reflexivity|].
    destruct HO as [[e [r1 [r2 [v1 [l3 [O1 [O2 [O3 [O4 [O5 [O6 [O7 O8]]]]]]]]]]]]|[[e [r1 [v1 [l3 [O1 [O2 [O3 [O4 [O5 [O6 [O7 [O8 O9]]]]]]]]]]]]|[e [v1 [v2 [O1 [O2 [O3 [O4 O5]]]]]]]]].
    + left. exists e, (q ++ r1), r2, (w1 ++ v1), l3. split; [exact O1|]. split; [exact O2|].
      split. { intros Hf. destruct (O3 Hf) as [K1 K2]. split; [exact K1|]. intros Hn. apply app_eq_nil in Hn. apply K2. apply Hn. }
      split; [rewrite O4, app_assoc; reflexivity|]. split; [rewrite app_assoc, HL, <- !app_assoc; f_equal; exact O5|].
      split. { apply ichain_app; [|exact O6]. rewrite app_assoc, <- O5, <- app_assoc, <- O4. exact HA. }
      split; [rewrite pos_after_app; exact O7|]. intros Hl. destruct (HC Hl) as [K1 K2]. rewrite (O8 K1), K2, nonempty_app, orb_assoc. reflexivity.
    + right. left. exists e, (q ++ r1), (w1 ++ v1), l3. split; [exact O1|]. split; [exact O2|]. split; [exact O3|].
      split; [rewrite O4, app_assoc; reflexivity|].
      split; [rewrite O5 at 1; f_equal; rewrite <- !pos_after_app; f_equal; rewrite !app_assoc, HL; reflexivity|].
      split; [rewrite app_assoc, HL, <- !app_assoc; f_equal; exact O6|].
      split. { subst f. apply ichain_app; [|exact O7]. rewrite app_assoc, <- O6, <- app_assoc, <- O4. exact HA. }
      split; [intros g; rewrite pos_after_app; apply O8|]. intros Hc. destruct (O9 Hc) as [K|K].
      * destruct (HW K) as [K2|K2]; [left; exact K2|]. right. intros Hn. apply app_eq_nil in Hn. apply K2. apply Hn.
      * right. intros Hn. apply app_eq_nil in Hn. apply K. apply Hn.
    + right. right. exists e, (w1 ++ v1), v2. split; [exact O1|].
      split. { intros Hf. destruct (O2 Hf) as [K1 K2]. split; [exact K1|]. intros Hh Hn. apply app_eq_nil in Hn. apply (K2 Hh). apply Hn. }
      split; [rewrite app_assoc, HL, <- !app_assoc; f_equal; exact O3|].
      split; [|rewrite pos_after_app; exact O5]. apply ichain_app; [|exact O4]. rewrite <- O3. exact HA.
  - destruct HO as [r1 [O1 [O2 [O3 [O5 O6]]]]]. exists (q ++ r1). split; [rewrite O1, app_assoc; reflexivity|].
    split; [rewrite O2 at 1; f_equal; rewrite <- !pos_after_app; f_equal; rewrite !app_assoc, HL; reflexivity|].
    rewrite app_assoc, HL, <- app_assoc.
    split; [apply ichain_app; [rewrite <- app_assoc, <- O1; exact HA|exact O3]|]. split; [exact O5|].
    intros Hl; destruct (HC Hl) as [K1 K2]; rewrite (O6 K1), K2, nonempty_app, orb_assoc; reflexivity.
Qed.

Lemma iterate_items_out f : forall items first cb pos l k r' s,
  match items with [] => l = [] /\ k = [] /\ Cln f s | x :: _ => started Cln (Res x) f first pos l k s end -> forall out,
  iterate_items F first cb items (Inp (k ++ r') (pos_after pos l) f) s = Done out ->
  iout items f cb pos l (k ++ r') out /\ (items <> [] -> h = true -> f = true -> k ++ r' = [] -> match out with (_, o, _, _, _) => exists x its e, o = Some (x, its, CommitErr e) end).
Proof.
  induction items as [|x items IH]; intros first cb pos l k r' s St out E0.
  - cbn in E0. inversion E0; subst. destruct St as [-> [-> HC]]. split; [|congruence]. exists []. cbn [app rest].
    split; [reflexivity|]. split; [reflexivity|]. split; [constructor|]. split; [exact HC|]. intros _. rewrite orb_false_r. reflexivity.
  - cbn [iterate_items] in E0.
    destruct (p_run (F x) first (Inp (k ++ r') (pos_after pos l) f) s) as [[[r i1] s1]| |] eqn:E1; try discriminate.
    pose proof (cb_run (H x) _ _ _ _ _ _ _ St _ E1) as Q. cbn [obind] in E0. unfold fits in Q. destruct r as [v|v|e|e].
    + destruct Q as [[r1 [F1 [F2 [F3 F4]]]] [F5 F6]]. destruct (iterate_items F true true items i1 s1) as [[[[[els o] c'] i'] s']| |] eqn:E2; try discriminate.
      inversion E0; subst out. split; [|intros _ Hh Hf Hn; exfalso; exact (F6 Hh Hf Hn)].
      rewrite F1. apply (iout_shift [x] items f cb true pos l r1 (rest i1) (l ++ r1) [] [v]).
      * rewrite app_nil_r. reflexivity.
      * intros Hl. split; [reflexivity|]. rewrite <- (F4 Hl). simpl. rewrite orb_true_r. reflexivity.
      * intros _. right. intros Hn. apply app_eq_nil in Hn. destruct Hn as [Hn1 Hn2]. specialize (F4 Hn1). rewrite Hn2 in F4. discriminate.
      * apply ichain_one. exact F3.
      * rewrite F2, <- pos_after_app in E2. apply (IH true true (pos_after pos (l ++ r1)) [] [] (rest i1) s1); [destruct items; simpl; auto|exact E2].
    + destruct Q as [[r1 [F1 [F2 [F3 F4]]]] [F5 F6]]. destruct (iterate_items F true cb items i1 s1) as [[[[[els o] c'] i'] s']| |] eqn:E2; try discriminate.
      inversion E0; subst out. split; [|intros _ Hh Hf Hn; exfalso; exact (F6 Hh Hf Hn)].
      rewrite F1. apply (iout_shift [x] items f cb cb pos l r1 (rest i1) (l ++ r1) [] [v]).
      * rewrite app_nil_r. reflexivity.
      * intros Hl. split; [reflexivity|]. rewrite <- (F4 Hl). simpl. rewrite orb_false_r. reflexivity.
      * auto.
      * apply ichain_one. exact F3.
      * rewrite F2, <- pos_after_app in E2. apply (IH true cb (pos_after pos (l ++ r1)) [] [] (rest i1) s1); [destruct items; simpl; auto|exact E2].
    + inversion E0; subst out. split; [|eauto]. exists []. split; [reflexivity|]. right. destruct Q as [[F1 [F2 [r1 [F3 [F4 [F5 F6]]]]]]|[F1 F2]].
      * left. exists e, r1, [], (l ++ r1). split; [reflexivity|]. split; [exact F1|]. split; [exact F2|]. split; [exact F3|]. split; [exact F4|]. split; [reflexivity|].
        split; [constructor|]. split; [exact F6|]. auto.
      * right. exists e, [], (l ++ k ++ r'). split; [reflexivity|]. split; [exact F1|]. split; [reflexivity|]. split; [constructor|]. exact F2.
    + inversion E0; subst out. destruct Q as [F1 [F2 [F3 [F4 F5]]]].
      split; [|intros _ _ Hf Hn; exfalso; exact (proj2 (F2 Hf) Hn)]. exists []. split; [reflexivity|]. left.
      exists e, [], (k ++ r'), [], l. split; [reflexivity|]. split; [exact F1|]. split; [exact F2|]. split; [reflexivity|]. split; [rewrite app_nil_r; reflexivity|].
      split; [constructor|]. split; [exact F5|]. intros _. rewrite orb_false_r. reflexivity.
Qed.

Variables (s0 : S) (Clean : S -> Prop).
Hypothesis (H0 : Clean s0) (Hs0 : forall x, p_init (F x) = s0) (Hr : forall x, run_hyg false Clean (p_run (F x))).
Variable items : list X.
Notation itr := (iterate s0 items F).

Lemma itr_always_ok f pos w tail vs : ichain f pos w tail items vs -> always_ok f (fresh itr) pos w tail vs.
Proof.
  intros HC m Hm r i' Q. destruct (value_of r) as [l|] eqn:V.
  - pose proof (okr_value _ _ V) as O. rewrite O in Q. apply (iterate_ok F s0 Clean H0 Hs0 Hr) in Q.
    destruct (ichain_run _ _ _ _ _ _ HC m Hm items [] _ _ _ (eq_sym (app_nil_r _)) Q) as [w1 [w2 [vs2 [K1 [K2 [K3 [K4 K5]]]]]]].
    inversion K5; subst. rewrite !app_nil_r. rewrite <- K3. auto.
  - assert (Hn : is_ok r = false) by (rewrite value_ok, V; reflexivity). exfalso. destruct (fails_done _ _ _ _ Q Hn) as [e Fe]. apply (iterate_fails F s0 Clean H0 Hs0 Hr) in Fe.
    destruct Fe as [pre [x [post [c1 [l [i1 [c2 [Q1 [Q2 [Q3 Q4]]]]]]]]]].
    destruct (ichain_run _ _ _ _ _ _ HC m Hm pre (x :: post) _ _ _ Q1 Q2) as [w1 [w2 [vs2 [K1 [K2 [K3 [K4 K5]]]]]]]. subst i1.
    eapply ichain_no_fail; [exact K5|exact Hm|]. exists e. exact Q3.
Qed.

Lemma runs_all_app {B} (b1 b2 : list (@beh C B)) : forall i c l i', runs_all (b1 ++ b2) i c l i' ->
  exists c1 l1 i1 c2 l2, runs_all b1 i c1 l1 i1 /\ runs_all b2 i1 c2 l2 i' /\ c = c1 || c2 /\ l = l1 ++ l2.
Proof.
  induction b1 as [|b b1 IH]; intros i c l i' R.
  - exists false, [], i, c, l. split; [constructor|]. auto.
  - cbn in R. inversion R as [|b0 bs i0 c1 v i1 c2 l1 i2 R1 R2]; subst. destruct (IH _ _ _ _ R2) as [c3 [l3 [i3 [c4 [l4 [K1 [K2 [K3 K4]]]]]]]]. subst.
    exists (c1 || c3), (v :: l3), i3, c4, l4. split; [econstructor; eauto|]. split; [exact K2|]. rewrite orb_assoc. auto.
Qed.

Lemma itr_always_err f pos w tail done x post vs c : items = done ++ x :: post -> ichain f pos w tail done vs ->
  always_err f (bh x) (pos_after pos w) tail c -> always_err f (fresh itr) pos (w ++ tail) (c || nonempty w).
Proof.
  intros HI HC HE m Hm r i' Q. rewrite <- app_assoc in Q.
  assert (NS : forall c1 l1 j, runs_all (List.map (fun x => bh x) (done ++ [x])) (Inp (w ++ tail ++ m) pos false) c1 l1 j -> False).
  { intros c1 l1 j R. rewrite map_app in R. destruct (runs_all_app _ _ _ _ _ _ R) as [c2 [l2 [i2 [c3 [l3 [R1 [R2 _]]]]]]].
    destruct (ichain_run _ _ _ _ _ _ HC m Hm done [] _ _ _ (eq_sym (app_nil_r _)) R1) as [w1 [w2 [vs2 [K1 [K2 [K3 [K4 K5]]]]]]]. inversion K5; subst.
    rewrite app_nil_r in *. cbn in R2. inversion R2 as [|b0 bs i0 c4 v i3 c5 l4 i4 R3 R4]; subst. destruct (HE m Hm _ _ R3) as [K _]. rewrite okr_is_ok in K. discriminate. }
  destruct (value_of r) as [l|] eqn:V.
  - exfalso. pose proof (okr_value _ _ V) as O. rewrite O in Q. apply (iterate_ok F s0 Clean H0 Hs0 Hr) in Q.
    replace items with ((done ++ [x]) ++ post) in Q by (rewrite HI, <- app_assoc; reflexivity). rewrite map_app in Q.
    destruct (runs_all_app _ _ _ _ _ _ Q) as [c2 [l2 [i2 [c3 [l3 [R1 _]]]]]]. eapply NS. exact R1.
  - assert (Hn : is_ok r = false) by (rewrite value_ok, V; reflexivity). split; [exact Hn|]. destruct (fails_done _ _ _ _ Q Hn) as [e Fe]. apply (iterate_fails F s0 Clean H0 Hs0 Hr) in Fe.
    destruct Fe as [pre [y [post2 [c1 [l [i1 [c2 [Q1 [Q2 [Q3 Q4]]]]]]]]]]. rewrite HI in Q1.
    assert (CM : (exists z, done = pre ++ y :: z) \/ (pre = done /\ y = x) \/ (exists z, pre = (done ++ [x]) ++ z)).
    { clear - Q1. revert done Q1. induction pre as [|a0 pre IH]; intros [|d done] Q1; cbn in Q1; inversion Q1 as [[Q2 Q3]]; subst.
      - right. left. auto.
      - left. exists done. reflexivity.
      - right. right. exists pre. reflexivity.
      - destruct (IH done Q3) as [[z K]|[[K1 K2]|[z K]]]; subst; [left; exists z|right; left|right; right; exists z]; auto. }
    destruct CM as [[z K]|[[K1 K2]|[z K]]].
    + exfalso. destruct (ichain_run _ _ _ _ _ _ HC m Hm pre (y :: z) _ _ _ K Q2) as [w1 [w2 [vs2 [K1 [K2 [K3 [K4 K5]]]]]]]. subst i1.
      eapply ichain_no_fail; [exact K5|exact Hm|]. exists e. exact Q3.
    + subst pre y. destruct (ichain_run _ _ _ _ _ _ HC m Hm done [] _ _ _ (eq_sym (app_nil_r _)) Q2) as [w1 [w2 [vs2 [K1 [K2 [K3 [K4 K5]]]]]]]. inversion K5; subst.
      rewrite app_nil_r in *. destruct (fails_inv (bh x) _ c2 (ex_intro _ e Q3)) as [r3 [j3 [F1 [F2 [F3 _]]]]]. destruct (HE m Hm _ _ F1) as [_ K4]. subst c. rewrite F3, Q4. apply orb_comm.
    + exfalso. subst pre. rewrite map_app in Q2. destruct (runs_all_app _ _ _ _ _ _ Q2) as [c3 [l2 [i2 [c4 [l3 [R1 _]]]]]]. eapply NS. exact R1.
Qed.

Definition icln (f : bool) (st : option (list X * option X) * bool * list A * S) : Prop :=
  match st with (o, c, buf, s) => o = None /\ c = false /\ buf = [] /\ Cln f s end.
Definition ires (f : bool) (pos : Pos C) (l k : list T) (st : option (list X * option X) * bool * list A * S) : Prop :=
  match st with (o, c, buf, s) =>
    (l = [] /\ k = [] /\ o = None /\ c = false /\ buf = [] /\ Cln f s) \/
    (exists done x its w1 l2, o = Some (its, Some x) /\ items = done ++ x :: its /\ l = w1 ++ l2 /\ ichain true pos w1 (l2 ++ k) done buf /\
       Res x f (pos_after pos w1) l2 k s /\ (c = true -> w1 <> []))
  end.

Lemma chunk_iterate : items <> [] -> chunk_by n false n h icln ires itr.
Proof.
  intros HN. assert (HZ : exists z zs, items = z :: zs) by (destruct items as [|z zs]; [congruence|eauto]). clear HN. destruct HZ as [z [zs HZ]].
  constructor; simpl; auto; try apply noneoi_no.
  - intros f. rewrite <- (Hs0 z). repeat split; auto. apply (cb_init (H z)).
  - intros [[[o c] buf] s] [K1 [K2 [K3 K4]]]. repeat split; auto. apply (cb_cln (H z)). exact K4.
  - intros f pos [[[o c] buf] s] [K1 [K2 [K3 K4]]]. left. auto 8.
  - discriminate.
  - intros f first pos l k r' [[[o c] buf] s] St out E0. unfold iterate_run in E0.
    assert (CL : (l = [] /\ k = [] /\ o = None /\ c = false /\ buf = [] /\ Cln f s) \/
      (first = false /\ exists done x its w1 l2, o = Some (its, Some x) /\ items = done ++ x :: its /\ l = w1 ++ l2 /\ ichain true pos w1 (l2 ++ k) done buf /\
       Res x f (pos_after pos w1) l2 k s /\ (c = true -> w1 <> []))).
    { destruct first; simpl in St; [left; tauto|]. destruct St as [K|K]; [left; exact K|right; auto]. }
    assert (IT : exists els oo c' i' s', iout items f false pos l (k ++ r') (buf ++ els, oo, c', i', s') /\
      (h = true -> f = true -> k ++ r' = [] -> exists x its e, oo = Some (x, its, CommitErr e)) /\
      out = match oo with
      | Some (x, items', r) => (r, i', (Some (items', Some x), c', buf ++ els, s'))
      | None => (match c' with true => CommitOk (buf ++ els) | false => PeekOk (buf ++ els) end, i', (None, false, [], s'))
      end).
    { destruct CL as [[-> [-> [-> [-> [-> K]]]]]|[-> [done [x [its [w1 [l2 [-> [K2 [K3 [K4 [K5 K6]]]]]]]]]]]].
      - cbn [app] in E0. destruct (iterate_items F first false items (Inp r' (pos_after pos []) f) s) as [[[[[els oo] c'] i'] s']| |] eqn:E1; try discriminate.
        exists els, oo, c', i', s'. destruct (iterate_items_out f items first false pos [] [] r' s) with (out := (els, oo, c', i', s')) as [I1 I2]; auto.
        { rewrite HZ. destruct first; simpl; auto. apply (cb_res (H z)). exact K. }
        split; [exact I1|]. split; [intros Hh Hf Hn; apply I2; auto; rewrite HZ; discriminate|]. cbn in E0. destruct oo as [[[x its] r]|]; inversion E0; reflexivity.
      - destruct (iterate_items F false c (x :: its) (Inp (k ++ r') (pos_after pos l) f) s) as [[[[[els oo] c'] i'] s']| |] eqn:E1; try discriminate.
        exists els, oo, c', i', s'. subst l. rewrite pos_after_app in E1.
        destruct (iterate_items_out f (x :: its) false c (pos_after pos w1) l2 k r' s) with (out := (els, oo, c', i', s')) as [I1 I2]; auto.
        split; [|split; [intros Hh Hf Hn; apply I2; auto; discriminate|cbn [omap] in E0; destruct oo as [[[y ys] r]|]; inversion E0; reflexivity]].
        rewrite K2. change (k ++ r') with ([] ++ k ++ r'). apply (iout_shift done (x :: its) f false c pos (w1 ++ l2) [] (k ++ r') w1 l2 buf); auto.
        + rewrite app_nil_r. reflexivity.
        + intros Hl. apply app_eq_nil in Hl. destruct Hl as [Hl1 Hl2]. split; [exact Hl2|]. destruct c; [destruct (K6 eq_refl Hl1)|reflexivity].
        + rewrite app_assoc. apply ichain_ext. exact K4. }
    clear E0. destruct IT as [els [oo [c' [i' [s' [IO [IH ->]]]]]]]. unfold iout in IO. destruct oo as [[[x its] res]|].
    + destruct IO as [done [O0 [IO|[IO|IO]]]].
      * destruct IO as [e [r1 [r2 [w1 [l2 [-> [-> [O3 [O4 [O5 [O6 [O7 O8]]]]]]]]]]]].
        pose proof (itr_always_err _ _ _ _ _ _ _ _ _ O0 O6 O7) as AE. rewrite app_assoc, <- O5, <- app_assoc, <- O4 in AE. rewrite orb_comm, <- nonempty_app, <- O5 in AE.
        unfold fits. destruct c'.
        -- right. split; [intros Hf; split; [apply (O3 Hf)|intros _; apply (O3 Hf)]|]. replace true with (nonempty (l ++ r1)); [exact AE|].
           rewrite nonempty_app. destruct l; [|reflexivity]. cbn. symmetry. exact (O8 eq_refl).
        -- split; [reflexivity|]. split; [exact O3|]. split; [auto|]. split; [discriminate|]. replace (nonempty l) with (nonempty (l ++ r1)); [exact AE|].
           rewrite nonempty_app. destruct l; [|reflexivity]. cbn. symmetry. exact (O8 eq_refl).
      * destruct IO as [e [r1 [w1 [l2 [-> [O2 [O3 [O4 [O5 [O6 [O7 [O8 O9]]]]]]]]]]]]. left. split; [exact O2|]. split; [exact O3|]. exists r1. split; [exact O4|]. split; [exact O5|].
        split; [discriminate|]. intros g. right. exists done, x, its, w1, l2. split; [reflexivity|]. split; [exact O0|]. split; [exact O6|]. split; [exact O7|]. split; [apply O8|].
        intros Hc. destruct (O9 Hc); [discriminate|assumption].
      * destruct IO as [e [w1 [w2 [-> [O2 [O3 [O4 O5]]]]]]]. right. split; [exact O2|]. rewrite O3. apply (itr_always_err _ _ _ _ _ _ _ _ _ O0 O4 O5).
    + destruct IO as [r1 [O1 [O2 [O3 [O5 O6]]]]].
      assert (Fin : (exists r1, k ++ r' = r1 ++ rest i' /\ i' = Inp (rest i') (pos_after (pos_after pos l) r1) f /\
           always_ok f (fresh itr) pos (l ++ r1) (rest i') (buf ++ els) /\ (l = [] -> c' = nonempty r1)) /\
        icln f (None, false, [], s') /\ (h = true -> f = true -> k ++ r' <> [])).
      { split; [|split; [simpl; auto|intros Hh Hf Hn; destruct (IH Hh Hf Hn) as [x [its [e K]]]; discriminate]]. exists r1. split; [exact O1|]. split; [exact O2|]. split; [|exact O6].
        apply itr_always_ok. exact O3. }
      unfold fits. destruct c'; exact Fin.
Qed.
End Iterate.
End IterChunk.
