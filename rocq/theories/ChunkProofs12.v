(** Proofs for C29: lists whose separator may trail. *)
From Coq Require Import String List Bool Arith NArith Lia.
Import ListNotations.
From Verif Require Import Base Parser Token Combinator Sequence Choice Repeat RangeP Spec SeqSpec ChoiceSpec TidySpec RepeatSpec AgreeSpec.
From Verif Require Import ResultProofs SeqProofs CombProofs ChoiceProofs CombProofs2 RepeatProofs RepeatProofs2 ChunkSpec ChunkProofs ChunkProofs2 ChunkProofs3
  ChunkProofs4 ChunkProofs5 ChunkProofs6.
Unset Implicit Arguments.

Section SepEndChunk.
Context {C : Cfg} (EL : eoi_laws C) (L : lawful C) (D : pos_distinct C).
Notation T := (tok C).
Notation E := (Err C).
Notation nonempty := consumed_some.

(** * The iteration which stops at the first [None] *)
Section Scan.
Context {S A : Type} (a n h : bool) (Cln : bool -> S -> Prop) (Res : bool -> Pos C -> list T -> list T -> S -> Prop) (p : parser C S (option A)).
Hypothesis H : chunk_by true a n h Cln Res p.
Notation b := (fresh p).
Notation some_ok := (fun i c v i' => succeeds b i c (Some v) i').

Lemma scan_det f pos w tail vs m : chain f b pos w tail (List.map Some vs) -> exts f m ->
  (forall r j c v, b (Inp (tail ++ m) (pos_after pos w) false) = Done (r, j) -> r <> okr c (Some v)) ->
  forall c l i', reps some_ok (Inp (w ++ tail ++ m) pos false) c l i' -> (exists r j, b i' = Done (r, j) /\ forall c v, r <> okr c (Some v)) ->
  l = vs /\ c = nonempty w /\ i' = Inp (tail ++ m) (pos_after pos w) false.
Proof.
  intros HC Hm. remember (List.map Some vs) as ovs eqn:HV. revert vs HV. induction HC as [pos tail|pos w0 w tail v ovs H1 H2 IH]; intros vs HV HE c l i' HR HS.
  - destruct vs; [|discriminate]. simpl in *. inversion HR as [i0 Q|i0 c2 v2 i1 c' l' i2 Q1 Q2]; subst.
    + auto.
    + destruct (HE _ _ c2 v2 Q1). reflexivity.
  - destruct vs as [|u vs]; [discriminate|]. inversion HV; subst v ovs. clear HV. rewrite <- app_assoc in HR. inversion HR as [i0 Q|i0 c2 v2 i1 c' l' i2 Q1 Q2]; subst.
    + destruct HS as [r [j [F1 F2]]]. rewrite (app_assoc w) in F1. destruct (H1 m Hm _ _ F1) as [K _]. destruct (F2 _ _ K).
    + unfold succeeds in Q1. rewrite (app_assoc w) in Q1. destruct (H1 m Hm _ _ Q1) as [K1 K2]. apply okr_inj in K1. destruct K1 as [-> K1]. inversion K1; subst v2 i1.
      rewrite <- app_assoc in Q2. destruct (IH vs eq_refl) with (c := c') (l := l') (i' := i') as [K3 [K4 K5]]; auto.
      * intros r j c0 v0 Q. apply (HE r j). rewrite pos_after_app. exact Q.
      * subst. rewrite nonempty_app, pos_after_app. auto.
Qed.

Definition sout (f cb : bool) (pos : Pos C) (l r : list T) (out : list A * iter_state * bool * input C * S) : Prop :=
  match out with (els, is, c', i', s') =>
    match is with
    | ISOk => exists r1 w wl, r = r1 ++ rest i' /\ i' = Inp (rest i') (pos_after (pos_after pos l) r1) f /\ l ++ r1 = w ++ wl /\
        chain f b pos w (wl ++ rest i') (List.map Some els) /\ always_ok f b (pos_after pos w) wl (rest i') None /\ Cln f s' /\
        (l = [] -> c' = cb || nonempty r1) /\ (h = true -> f = true -> r <> [])
    | ISPeek _ => exists r1, r = r1 ++ rest i' /\ i' = Inp (rest i') (pos_after (pos_after pos l) r1) f /\
        chain f b pos (l ++ r1) (rest i') (List.map Some els) /\ always_err f b (pos_after pos (l ++ r1)) (rest i') false /\ Cln f s' /\
        (l = [] -> c' = cb || nonempty r1) /\ (f = true -> r <> [])
    | ISCommit e =>
        (f = true /\ e_is_eoi C e = true /\ exists r1, r = r1 ++ rest i' /\ i' = Inp (rest i') (pos_after (pos_after pos l) r1) f /\
           exists w1 l2, l ++ r1 = w1 ++ l2 /\ (c' = true -> cb = true \/ w1 <> []) /\ chain true b pos w1 (l2 ++ rest i') (List.map Some els) /\
             forall g, Res g (pos_after pos w1) l2 (rest i') s') \/
        ((f = true -> e_is_eoi C e = false /\ (h = true -> r <> [])) /\
         exists w1 w2, l ++ r = w1 ++ w2 /\ chain f b pos w1 w2 (List.map Some els) /\ always_err f b (pos_after pos w1) w2 true)
    end
  end.

(** One more element in front. *)
Lemma sout_cons f cb c pos l r1 rr v els is c' i' s' :
  always_ok f b pos (l ++ r1) rr (Some v) -> (c = true -> cb = true \/ l ++ r1 <> []) -> (l = [] -> c = cb || nonempty r1) ->
  sout f c (pos_after pos (l ++ r1)) [] rr (els, is, c', i', s') -> sout f cb pos l (r1 ++ rr) (v :: els, is, c', i', s').
Proof.
  intros HA HW HC HO. unfold sout in *. destruct is as [|e|e].
  - destruct HO as [r2 [w [wl [O1 [O2 [O3 [O4 [O5 [O6 [O7 O8]]]]]]]]]]. simpl in O2, O3. exists (r1 ++ r2), ((l ++ r1) ++ w), wl.
    split; [rewrite O1, app_assoc; reflexivity|]. split; [rewrite O2 at 1; f_equal; rewrite <- !pos_after_app; f_equal; rewrite <- app_assoc; reflexivity|].
    split; [rewrite O3, <- !app_assoc; reflexivity|]. split; [simpl; constructor; [rewrite app_assoc, <- O3, <- O1; exact HA|exact O4]|].
    split; [rewrite pos_after_app; exact O5|]. split; [exact O6|].
    split; [intros Hl; rewrite (O7 eq_refl), (HC Hl), nonempty_app, orb_assoc; reflexivity|].
    intros Hh Hf Hn. apply app_eq_nil in Hn. apply (O8 Hh Hf). apply Hn.
  - destruct HO as [r2 [O1 [O2 [O3 [O4 [O5 [O6 O7]]]]]]]. simpl in O2, O3, O4. exists (r1 ++ r2). split; [rewrite O1, app_assoc; reflexivity|].
    split; [rewrite O2 at 1; f_equal; rewrite <- !pos_after_app; f_equal; rewrite <- app_assoc; reflexivity|]. rewrite app_assoc.
    split; [simpl; constructor; [rewrite <- O1; exact HA|exact O3]|]. split; [rewrite pos_after_app; exact O4|]. split; [exact O5|].
    split; [intros Hl; rewrite (O6 eq_refl), (HC Hl), nonempty_app, orb_assoc; reflexivity|].
    intros Hf Hn. apply app_eq_nil in Hn. apply (O7 Hf). apply Hn.
  - destruct HO as [[O1 [O2 [r2 [O3 [O4 [w2 [l3 [O5 [O5' [O6 O7]]]]]]]]]]|[O1 [w2 [w3 [O2 [O3 O4]]]]]].
    + simpl in O4, O5. left. split; [exact O1|]. split; [exact O2|]. exists (r1 ++ r2). split; [rewrite O3, app_assoc; reflexivity|].
      split; [rewrite O4 at 1; f_equal; rewrite <- !pos_after_app; f_equal; rewrite <- app_assoc; reflexivity|].
      exists ((l ++ r1) ++ w2), l3. split; [rewrite O5, <- !app_assoc; reflexivity|]. subst f.
      split; [intros Hc; destruct (O5' Hc) as [K|K]; [destruct (HW K) as [K'|K']; [left; exact K'|right]|right]; intros Hn; apply app_eq_nil in Hn; destruct Hn; congruence|].
      split; [simpl; constructor; [rewrite app_assoc, <- O5, <- O3; exact HA|exact O6]|]. intros g. rewrite pos_after_app. apply O7.
    + simpl in O2. right. split.
      * intros Hf. destruct (O1 Hf) as [K1 K2]. split; [exact K1|]. intros Hh Hn. apply app_eq_nil in Hn. apply (K2 Hh). apply Hn.
      * exists ((l ++ r1) ++ w2), w3. split; [rewrite O2, <- !app_assoc; reflexivity|]. split; [|rewrite pos_after_app; exact O4].
        simpl. constructor; [rewrite <- O2; exact HA|exact O3].
Qed.

Lemma iter_scan_out f : forall fuel first cb pos l k r' s, started Cln Res f first pos l k s -> forall out,
  iter_scan fuel p first cb (Inp (k ++ r') (pos_after pos l) f) s = Done out -> sout f cb pos l (k ++ r') out.
Proof.
  induction fuel as [|fuel IH]; intros first cb pos l k r' s St out E0; [discriminate|]. simpl in E0.
  destruct (p_run p first (Inp (k ++ r') (pos_after pos l) f) s) as [[[r i1] s1]| |] eqn:E1; try discriminate.
  pose proof (cb_run H _ _ _ _ _ _ _ St _ E1) as F. simpl in E0. unfold fits in F. destruct r as [v|v|e|e].
  - destruct F as [[r1 [F1 [F2 [F3 F4]]]] [F5 F6]].
    assert (HN : l ++ r1 <> []).
    { intros Hn. apply app_eq_nil in Hn. destruct Hn as [-> ->]. discriminate (F4 eq_refl). }
    destruct v as [v|].
    + destruct (iter_scan fuel p true true i1 s1) as [[[[[els is] c'] i'] s']| |] eqn:E2; try discriminate.
      inversion E0; subst out. rewrite F1. apply (sout_cons f cb true pos l r1 (rest i1)); auto.
      * intros Hl. rewrite <- (F4 Hl). simpl. rewrite orb_true_r. reflexivity.
      * rewrite F2, <- pos_after_app in E2. apply (IH true true (pos_after pos (l ++ r1)) [] [] (rest i1) s1); [|exact E2]. simpl. auto.
    + inversion E0; subst out. unfold sout. exists r1, [], (l ++ r1). split; [exact F1|]. split; [exact F2|]. split; [reflexivity|]. split; [constructor|].
      split; [exact F3|]. split; [exact F5|]. split; [intros Hl; rewrite <- (F4 Hl); simpl; rewrite orb_true_r; reflexivity|exact F6].
  - destruct F as [[r1 [F1 [F2 [F3 F4]]]] [F5 F6]]. destruct v as [v|].
    + destruct (iter_scan fuel p true cb i1 s1) as [[[[[els is] c'] i'] s']| |] eqn:E2; try discriminate.
      inversion E0; subst out. rewrite F1. apply (sout_cons f cb cb pos l r1 (rest i1)); auto.
      * intros Hl. rewrite <- (F4 Hl). simpl. rewrite orb_false_r. reflexivity.
      * rewrite F2, <- pos_after_app in E2. apply (IH true cb (pos_after pos (l ++ r1)) [] [] (rest i1) s1); [|exact E2]. simpl. auto.
    + inversion E0; subst out. unfold sout. exists r1, [], (l ++ r1). split; [exact F1|]. split; [exact F2|]. split; [reflexivity|]. split; [constructor|].
      split; [exact F3|]. split; [exact F5|]. split; [intros Hl; rewrite <- (F4 Hl); simpl; rewrite orb_false_r; reflexivity|exact F6].
  - inversion E0; subst out. unfold sout. destruct F as [[F1 [F2 [r1 [F3 [F4 [F5 F6]]]]]]|[F1 F2]].
    + left. split; [exact F1|]. split; [exact F2|]. exists r1. split; [exact F3|]. split; [exact F4|]. exists [], (l ++ r1). split; [reflexivity|].
      split; [auto|]. split; [constructor|]. exact F6.
    + right. split; [exact F1|]. exists [], (l ++ k ++ r'). split; [reflexivity|]. split; [constructor|]. exact F2.
  - inversion E0; subst out. unfold sout. destruct F as [F1 [F2 [F3 [F4 F5]]]]. destruct F3 as [F3|F3]; [|discriminate]. subst l. simpl in *.
    exists []. simpl. split; [reflexivity|]. split; [reflexivity|]. split; [constructor|]. split; [exact F5|]. split; [apply F4; reflexivity|].
    split; [intros _; rewrite orb_false_r; reflexivity|]. intros Hf. apply F2. exact Hf.
Qed.
End Scan.

(** * sep_end_by1 *)
Section SepEnd.
Context {S1 S2 A B : Type} (a1 n1 h1 a2 n2 h2 : bool) (Cln1 : bool -> S1 -> Prop) (Res1 : bool -> Pos C -> list T -> list T -> S1 -> Prop)
  (Cln2 : bool -> S2 -> Prop) (Res2 : bool -> Pos C -> list T -> list T -> S2 -> Prop) (p : parser C S1 A) (sep : parser C S2 B).
Hypothesis H1 : chunk_by true a1 n1 h1 Cln1 Res1 p.
Hypothesis H2 : chunk_by true a2 n2 h2 Cln2 Res2 sep.
Hypothesis Hp : history_free false p.
Hypothesis Hs : history_free false sep.
Notation w := (with_ (by_ref sep) (optional (by_ref p))).
Notation bp := (fresh p).
Notation some_ok := (fun i c v i' => succeeds (fresh w) i c (Some v) i').

Definition wcln (f : bool) (ch : sep_state S1 S2 (option A)) : Prop := qcln Cln2 (q1cln Cln1) f (fst ch).
Definition wres (f : bool) (pos : Pos C) (l k : list T) (ch : sep_state S1 S2 (option A)) : Prop :=
  qres Cln2 Res2 (q1cln Cln1) (q1res Res1) (ignore (by_ref sep)) f pos l k (fst ch).

Lemma chunk_w : chunk_by true false n2 (h2 && h1) wcln wres w.
Proof.
  assert (K : chunk_by (true && true) false (n2 && true) (h2 && h1) wcln wres w).
  { eapply (chunk_with EL); [eapply chunk_by_ref; exact H2|eapply chunk_optional; eapply chunk_by_ref; exact H1]. }
  rewrite !andb_true_r in K. exact K.
Qed.

Lemma seb_ok i c l i' : succeeds (fresh (sep_end_by1 p sep)) i c l i' ->
  exists c1 a j c2 l' ib, succeeds bp i c1 a j /\ reps some_ok j c2 l' ib /\ l = a :: l' /\
    ((fails (fresh w) ib false /\ i' = ib /\ c = c1 || c2) \/ (exists c3, succeeds (fresh w) ib c3 None i' /\ c = c1 || c2 || c3)).
Proof.
  intros Q. apply (sep_end_by1_ok p sep Hp Hs) in Q. destruct Q as [c1 [a [j [c2 [l' [ib [c3 [Q1 [Q2 [Q3 [_ [Q4 Q5]]]]]]]]]]]].
  exists c1, a, j, c2, l', ib. split; [exact Q1|]. split; [apply (proj2 (sew_reps p sep _ _ _ _)); exact Q2|]. split; [exact Q4|].
  destruct Q3 as [[Q3 [Q6 Q7]]|Q3].
  - left. split; [apply sew_fails_peek; exact Q3|]. split; [exact Q6|]. rewrite Q5, Q7, orb_false_r. reflexivity.
  - right. exists c3. split; [apply sew_none; exact Q3|exact Q5].
Qed.
Lemma seb_fails i c : fails (fresh (sep_end_by1 p sep)) i c ->
  fails bp i c \/ (c = true /\ exists c1 a j c2 l' ib, succeeds bp i c1 a j /\ reps some_ok j c2 l' ib /\ fails (fresh w) ib true).
Proof.
  intros Q. apply (sep_end_by1_fails p sep Hp Hs) in Q. destruct Q as [Q|[Q0 [c1 [a [j [c2 [l' [ib [Q1 [Q2 [Q3 _]]]]]]]]]]]; [left; exact Q|right].
  split; [exact Q0|]. exists c1, a, j, c2, l', ib. split; [exact Q1|]. split; [apply (proj2 (sew_reps p sep _ _ _ _)); exact Q2|].
  apply sew_fails_commit. exact Q3.
Qed.

(** Whatever a run on everything does follows the words already cut. *)
Lemma seb_follow f pos w0 w1 tail a vs m : always_ok f bp pos w0 (w1 ++ tail) a -> chain f (fresh w) (pos_after pos w0) w1 tail (List.map Some vs) -> exts f m ->
  (forall r j c v, fresh w (Inp (tail ++ m) (pos_after pos (w0 ++ w1)) false) = Done (r, j) -> r <> okr c (Some v)) ->
  let ib := Inp (tail ++ m) (pos_after pos (w0 ++ w1)) false in
  let i := Inp (w0 ++ w1 ++ tail ++ m) pos false in
  (forall c l i', succeeds (fresh (sep_end_by1 p sep)) i c l i' -> l = a :: vs /\
     ((fails (fresh w) ib false /\ i' = ib /\ c = nonempty (w0 ++ w1)) \/ (exists c3, succeeds (fresh w) ib c3 None i' /\ c = nonempty (w0 ++ w1) || c3))) /\
  (forall c, fails (fresh (sep_end_by1 p sep)) i c -> c = true /\ fails (fresh w) ib true).
Proof.
  intros HA HC Hm HE ib i.
  assert (HP : forall r j, bp i = Done (r, j) -> r = okr (nonempty w0) a /\ j = Inp (w1 ++ tail ++ m) (pos_after pos w0) false).
  { intros r j Q. unfold i in Q. rewrite (app_assoc w1) in Q. destruct (HA m Hm _ _ Q) as [K1 K2]. split; [exact K1|]. rewrite K2, <- app_assoc. reflexivity. }
  assert (HD : forall c2 l' i', reps some_ok (Inp (w1 ++ tail ++ m) (pos_after pos w0) false) c2 l' i' ->
    (exists r j, fresh w i' = Done (r, j) /\ forall c v, r <> okr c (Some v)) -> l' = vs /\ c2 = nonempty w1 /\ i' = ib).
  { intros c2 l' i' Q1 Q2. unfold ib. rewrite pos_after_app. apply (scan_det w f (pos_after pos w0) w1 tail vs m HC Hm); auto.
    intros r j c v Q. apply (HE r j). rewrite pos_after_app. exact Q. }
  assert (HX : forall j c, fails (fresh w) j c -> exists r j', fresh w j = Done (r, j') /\ forall c v, r <> okr c (Some v)).
  { intros j c Q. destruct (fails_inv _ _ _ Q) as [r [j' [F1 [F2 _]]]]. exists r, j'. split; [exact F1|]. intros c0 v K. rewrite K, okr_is_ok in F2. discriminate. }
  split.
  - intros c l i' Q. destruct (seb_ok _ _ _ _ Q) as [c1 [a' [j [c2 [l' [ib' [Q1 [Q2 [Q3 Q4]]]]]]]]]. destruct (HP _ _ Q1) as [K1 K2].
    apply okr_inj in K1. destruct K1 as [-> ->]. subst j. rewrite nonempty_app. destruct Q4 as [[Q4 [Q5 Q6]]|[c3 [Q4 Q5]]].
    + destruct (HD _ _ _ Q2 (HX _ _ Q4)) as [-> [-> ->]]. split; [exact Q3|]. left. subst i'. auto.
    + destruct (HD _ _ _ Q2) as [-> [-> ->]].
      * exists (okr c3 None), i'. split; [exact Q4|]. intros c0 v K. apply okr_inj in K. destruct K as [_ K]. discriminate.
      * split; [exact Q3|]. right. exists c3. auto.
  - intros c Q. destruct (seb_fails _ _ Q) as [K|[-> [c1 [a' [j [c2 [l' [ib' [Q1 [Q2 Q3]]]]]]]]]].
    + destruct (fails_inv _ _ _ K) as [r [j' [F1 [F2 _]]]]. destruct (HP _ _ F1) as [K1 _]. rewrite K1, okr_is_ok in F2. discriminate.
    + split; [reflexivity|]. destruct (HP _ _ Q1) as [_ K2]. subst j. destruct (HD _ _ _ Q2 (HX _ _ Q3)) as [_ [_ ->]]. exact Q3.
Qed.

Lemma seb_always_ok f pos w0 w1 wl tail a vs :
  always_ok f bp pos w0 (w1 ++ wl ++ tail) a -> chain f (fresh w) (pos_after pos w0) w1 (wl ++ tail) (List.map Some vs) ->
  (always_ok f (fresh w) (pos_after pos (w0 ++ w1)) wl tail None \/ (wl = [] /\ always_err f (fresh w) (pos_after pos (w0 ++ w1)) tail false)) ->
  always_ok f (fresh (sep_end_by1 p sep)) pos (w0 ++ w1 ++ wl) tail (a :: vs).
Proof.
  intros HA HC HE m Hm r i' Q.
  assert (EW : (w0 ++ w1 ++ wl) ++ tail ++ m = w0 ++ w1 ++ (wl ++ tail) ++ m) by (rewrite <- !app_assoc; reflexivity). rewrite EW in Q. clear EW.
  destruct (seb_follow f pos w0 w1 (wl ++ tail) a vs m HA HC Hm) as [K1 K2].
  { intros r0 j0 c0 v0 Q0 ->. rewrite <- app_assoc in Q0. destruct HE as [HE|[-> HE]].
    - destruct (HE m Hm _ _ Q0) as [K _]. apply okr_inj in K. destruct K. discriminate.
    - destruct (HE m Hm _ _ Q0) as [K _]. rewrite okr_is_ok in K. discriminate. }
  rewrite <- app_assoc in K1, K2, Q. simpl in K1, K2.
  destruct (value_of r) as [l|] eqn:V.
  - pose proof (okr_value _ _ V) as O. rewrite O in Q. destruct (K1 _ _ _ Q) as [-> K3]. rewrite O. destruct HE as [HE|[-> HE]].
    + destruct K3 as [[F [-> ->]]|[c3 [F ->]]].
      * destruct (fails_inv _ _ _ F) as [r3 [i3 [F1 [F2 _]]]]. destruct (HE m Hm _ _ F1) as [K _]. rewrite K, okr_is_ok in F2. discriminate.
      * destruct (HE m Hm _ _ F) as [K3 K4]. apply okr_inj in K3. destruct K3 as [-> _]. rewrite K4, !nonempty_app, <- pos_after_app, <- app_assoc, orb_assoc. auto.
    + destruct K3 as [[F [-> ->]]|[c3 [F ->]]].
      * rewrite app_nil_r. simpl. auto.
      * destruct (HE m Hm _ _ F) as [K3 _]. rewrite okr_is_ok in K3. discriminate.
  - assert (Hn : is_ok r = false) by (rewrite value_ok, V; reflexivity). destruct (fails_done _ _ _ _ Q Hn) as [e Fe].
    destruct (K2 _ (ex_intro _ e Fe)) as [_ K3]. destruct (fails_inv _ _ _ K3) as [r3 [i3 [F1 [F2 [F3 _]]]]]. destruct HE as [HE|[-> HE]].
    + destruct (HE m Hm _ _ F1) as [K _]. rewrite K, okr_is_ok in F2. discriminate.
    + destruct (HE m Hm _ _ F1) as [_ K]. congruence.
Qed.

Lemma seb_always_err f pos w0 w1 tail a vs :
  always_ok f bp pos w0 (w1 ++ tail) a -> chain f (fresh w) (pos_after pos w0) w1 tail (List.map Some vs) ->
  always_err f (fresh w) (pos_after pos (w0 ++ w1)) tail true -> always_err f (fresh (sep_end_by1 p sep)) pos (w0 ++ w1 ++ tail) true.
Proof.
  intros HA HC HE m Hm r i' Q. rewrite <- !app_assoc in Q. destruct (seb_follow f pos w0 w1 tail a vs m HA HC Hm) as [K1 K2].
  { intros r0 j0 c0 v0 Q0 ->. destruct (HE m Hm _ _ Q0) as [K _]. rewrite okr_is_ok in K. discriminate. }
  simpl in K1, K2. destruct (value_of r) as [l|] eqn:V.
  - pose proof (okr_value _ _ V) as O. rewrite O in Q. destruct (K1 _ _ _ Q) as [_ [[F [-> ->]]|[c3 [F ->]]]].
    + destruct (fails_inv _ _ _ F) as [r3 [i3 [F1 [F2 [F3 _]]]]]. destruct (HE m Hm _ _ F1) as [_ K]. congruence.
    + destruct (HE m Hm _ _ F) as [K3 _]. rewrite okr_is_ok in K3. discriminate.
  - assert (Hn : is_ok r = false) by (rewrite value_ok, V; reflexivity). split; [exact Hn|]. destruct (fails_done _ _ _ _ Q Hn) as [e Fe].
    apply (K2 _ (ex_intro _ e Fe)).
Qed.

Lemma seb_always_err0 f pos l c : always_err f bp pos l c -> always_err f (fresh (sep_end_by1 p sep)) pos l c.
Proof.
  intros HE m Hm r i' Q. destruct (value_of r) as [v|] eqn:V.
  - pose proof (okr_value _ _ V) as O. rewrite O in Q. destruct (seb_ok _ _ _ _ Q) as [c1 [a' [j [c2 [l' [ib' [Q1 _]]]]]]].
    destruct (HE m Hm _ _ Q1) as [K _]. rewrite okr_is_ok in K. discriminate.
  - assert (Hn : is_ok r = false) by (rewrite value_ok, V; reflexivity). split; [exact Hn|]. destruct (fails_done _ _ _ _ Q Hn) as [e Fe].
    destruct (seb_fails _ _ (ex_intro _ e Fe)) as [K|[K [c1 [a' [j [c2 [l' [ib' [Q1 _]]]]]]]]].
    + destruct (fails_inv _ _ _ K) as [r3 [i3 [F1 [F2 [F3 _]]]]]. destruct (HE m Hm _ _ F1) as [_ K3]. congruence.
    + destruct (HE m Hm _ _ Q1) as [K3 _]. rewrite okr_is_ok in K3. discriminate.
Qed.

Definition ecln (f : bool) (st : option (commit unit) * list A * sep_state S1 S2 (option A)) : Prop :=
  match st with (one, els, ch) => one = None /\ els = [] /\ wcln f ch end.
Definition eres (f : bool) (pos : Pos C) (l k : list T) (st : option (commit unit) * list A * sep_state S1 S2 (option A)) : Prop :=
  match st with (one, els, ch) =>
    (one = None /\ els = [] /\ (fst (fst (fst ch)) = None /\ Cln2 f (snd (fst (fst ch)))) /\ fst (snd (fst ch)) = None /\ Res1 f pos l k (sep_get ch)) \/
    (exists c a vs w0 w1 l2, one = Some c /\ els = a :: vs /\ l = w0 ++ w1 ++ l2 /\ (c = Commit tt -> w0 ++ w1 <> []) /\
       always_ok true bp pos w0 (w1 ++ l2 ++ k) a /\ chain true (fresh w) (pos_after pos w0) w1 (l2 ++ k) (List.map Some vs) /\
       wres f (pos_after pos (w0 ++ w1)) l2 k ch)
  end.

(** From the point where the first element is known: [l0] was consumed in earlier chunks, [q] in this one, and
    [w0 ++ w1 ++ l2] is the same text cut by what it is. *)
Lemma seb_go f first c pos l0 q k r' w0 w1 l2 a vs ch out :
  l0 ++ q = w0 ++ w1 ++ l2 -> (c = Commit tt -> w0 ++ w1 <> []) -> (l0 = [] -> l2 = [] /\ (c = Commit tt <-> nonempty q = true)) ->
  always_ok f bp pos w0 (w1 ++ l2 ++ k ++ r') a -> chain f (fresh w) (pos_after pos w0) w1 (l2 ++ k ++ r') (List.map Some vs) ->
  started wcln wres f first (pos_after pos (w0 ++ w1)) l2 k ch ->
  sep_end_by1_rest p sep first (Inp (k ++ r') (pos_after (pos_after pos (w0 ++ w1)) l2) f) c (a :: vs) ch = Done out ->
  fits true false n1 (h2 && h1) f ecln eres (fresh (sep_end_by1 p sep)) pos l0 (q ++ k ++ r') out.
Proof.
  intros HL HCW HC HA HCh St E0. unfold sep_end_by1_rest in E0.
  destruct (iter_scan (fuel C) w first false (Inp (k ++ r') (pos_after (pos_after pos (w0 ++ w1)) l2) f) ch) as [[[[[els is] c'] i'] ch']| |] eqn:E1; try discriminate.
  pose proof (iter_scan_out _ _ _ _ _ _ chunk_w f _ _ _ _ _ _ _ _ St _ E1) as IO.
  simpl in E0. unfold sout in IO.
  assert (HP : forall r1, pos_after (pos_after (pos_after pos (w0 ++ w1)) l2) r1 = pos_after (pos_after pos l0) (q ++ r1)).
  { intros r1. rewrite <- !pos_after_app. f_equal. rewrite (app_assoc l0), HL, <- !app_assoc. reflexivity. }
  assert (HN : forall r1, l0 = [] -> c' = nonempty r1 -> committed (combine_commit c (fun _ : unit => (if c' then CommitOk (a :: vs ++ els) else PeekOk (a :: vs ++ els)) : PR (list A) E)) = nonempty (q ++ r1)).
  { intros r1 Hl0 ->. rewrite nonempty_app. destruct (HC Hl0) as [_ Hq]. destruct c as [[]|[]].
    - rewrite (proj1 Hq eq_refl). destruct (nonempty r1); reflexivity.
    - destruct (nonempty q); [discriminate (proj2 Hq eq_refl)|]. destruct (nonempty r1); reflexivity. }
  destruct is as [|e|e].
  - destruct IO as [r1 [w2 [wl [O1 [O2 [O3 [O4 [O5 [O6 [O7 O8]]]]]]]]]].
    assert (Fin : (exists r2, q ++ k ++ r' = r2 ++ rest i' /\ i' = Inp (rest i') (pos_after (pos_after pos l0) r2) f /\
         always_ok f (fresh (sep_end_by1 p sep)) pos (l0 ++ r2) (rest i') (a :: vs ++ els) /\
         (l0 = [] -> committed (combine_commit c (fun _ : unit => (if c' then CommitOk (a :: vs ++ els) else PeekOk (a :: vs ++ els)) : PR (list A) E)) = nonempty r2)) /\
       ecln f (None, [], ch') /\ (h2 && h1 = true -> f = true -> q ++ k ++ r' <> [])).
    { split; [|split; [simpl; auto|intros Hh Hf Hn; apply app_eq_nil in Hn; apply (O8 Hh Hf); apply Hn]].
      exists (q ++ r1). split; [rewrite O1, app_assoc; reflexivity|]. split; [rewrite O2 at 1; rewrite HP; reflexivity|]. split.
      - replace (l0 ++ q ++ r1) with (w0 ++ (w1 ++ w2) ++ wl) by (rewrite (app_assoc l0), HL, <- !app_assoc, O3; reflexivity).
        apply seb_always_ok.
        + replace ((w1 ++ w2) ++ wl ++ rest i') with (w1 ++ l2 ++ k ++ r'); [exact HA|].
          rewrite O1, <- !app_assoc. f_equal. rewrite (app_assoc w2), <- O3, <- app_assoc. reflexivity.
        + rewrite List.map_app. apply chain_app.
          * replace (w2 ++ wl ++ rest i') with (l2 ++ k ++ r'); [exact HCh|]. rewrite (app_assoc w2), <- O3, <- app_assoc, O1. reflexivity.
          * rewrite <- pos_after_app. exact O4.
        + left. rewrite app_assoc, pos_after_app. exact O5.
      - intros Hl0. apply HN; [exact Hl0|]. destruct (HC Hl0) as [Hl2 _]. rewrite (O7 Hl2). reflexivity. }
    unfold fits. destruct c as [[]|[]]; destruct c'; inversion E0; subst out; exact Fin.
  - destruct IO as [r1 [O1 [O2 [O3 [O4 [O5 [O6 O7]]]]]]].
    assert (Fin : (exists r2, q ++ k ++ r' = r2 ++ rest i' /\ i' = Inp (rest i') (pos_after (pos_after pos l0) r2) f /\
         always_ok f (fresh (sep_end_by1 p sep)) pos (l0 ++ r2) (rest i') (a :: vs ++ els) /\
         (l0 = [] -> committed (combine_commit c (fun _ : unit => (if c' then CommitOk (a :: vs ++ els) else PeekOk (a :: vs ++ els)) : PR (list A) E)) = nonempty r2)) /\
       ecln f (None, [], ch') /\ (h2 && h1 = true -> f = true -> q ++ k ++ r' <> [])).
    { split; [|split; [simpl; auto|intros Hh Hf Hn; apply app_eq_nil in Hn; apply (O7 Hf); apply Hn]].
      exists (q ++ r1). split; [rewrite O1, app_assoc; reflexivity|]. split; [rewrite O2 at 1; rewrite HP; reflexivity|]. split.
      - replace (l0 ++ q ++ r1) with (w0 ++ (w1 ++ l2 ++ r1) ++ []) by (rewrite (app_assoc l0), HL, app_nil_r, <- !app_assoc; reflexivity).
        apply seb_always_ok.
        + replace ((w1 ++ l2 ++ r1) ++ [] ++ rest i') with (w1 ++ l2 ++ k ++ r'); [exact HA|].
          rewrite O1. simpl. rewrite <- !app_assoc. reflexivity.
        + rewrite List.map_app. apply chain_app.
          * simpl. rewrite <- app_assoc, <- O1. exact HCh.
          * rewrite <- pos_after_app. exact O3.
        + right. split; [reflexivity|]. rewrite app_assoc, pos_after_app. exact O4.
      - intros Hl0. apply HN; [exact Hl0|]. destruct (HC Hl0) as [Hl2 _]. rewrite (O6 Hl2). reflexivity. }
    unfold fits. destruct c as [[]|[]]; destruct c'; inversion E0; subst out; exact Fin.
  - assert (E2 : out = (CommitErr e, i', (match c' with true => Some (Commit tt) | false => Some c end, a :: vs ++ els, ch'))).
    { destruct c as [[]|[]]; simpl in E0; inversion E0; reflexivity. }
    subst out. unfold fits. destruct IO as [[O1 [O2 [r1 [O3 [O4 [w2 [l3 [O5 [O5' [O6 O7]]]]]]]]]]|[O1 [w2 [w3 [O2 [O3 O4]]]]]].
    + left. split; [exact O1|]. split; [exact O2|]. exists (q ++ r1). split; [rewrite O3, app_assoc; reflexivity|]. split; [rewrite O4 at 1; rewrite HP; reflexivity|].
      split; [discriminate|]. intros g. unfold eres. right. exists (if c' then Commit tt else c), a, (vs ++ els), w0, (w1 ++ w2), l3. subst f.
      split; [destruct c'; reflexivity|]. split; [reflexivity|]. split; [rewrite (app_assoc l0), HL, <- !app_assoc, O5; reflexivity|].
      split.
      { intros Hc Hn. rewrite app_assoc in Hn. apply app_eq_nil in Hn. destruct Hn as [Hn1 Hn2].
        destruct c'; [destruct (O5' eq_refl) as [K|K]; congruence|]. apply (HCW Hc). exact Hn1. }
      split.
      { replace ((w1 ++ w2) ++ l3 ++ rest i') with (w1 ++ l2 ++ k ++ r'); [exact HA|].
        rewrite O3, <- !app_assoc. f_equal. rewrite (app_assoc w2), <- O5, <- app_assoc. reflexivity. }
      split.
      { rewrite List.map_app. apply chain_app.
        - replace (w2 ++ l3 ++ rest i') with (l2 ++ k ++ r'); [exact HCh|]. rewrite (app_assoc w2), <- O5, <- app_assoc, O3. reflexivity.
        - rewrite <- pos_after_app. exact O6. }
      rewrite app_assoc, pos_after_app. apply O7.
    + right. split; [intros Hf; destruct (O1 Hf) as [K1 K2]; split; [exact K1|]; intros Hh Hn; apply app_eq_nil in Hn; apply (K2 Hh); apply Hn|].
      replace (l0 ++ q ++ k ++ r') with (w0 ++ (w1 ++ w2) ++ w3) by (rewrite (app_assoc l0), HL, <- !app_assoc, O2; reflexivity).
      apply (seb_always_err f pos w0 (w1 ++ w2) w3 a (vs ++ els)).
      * replace ((w1 ++ w2) ++ w3) with (w1 ++ l2 ++ k ++ r'); [exact HA|]. rewrite <- app_assoc, O2. reflexivity.
      * rewrite List.map_app. apply chain_app.
        -- rewrite <- O2. exact HCh.
        -- rewrite <- pos_after_app. exact O3.
      * rewrite app_assoc, pos_after_app. exact O4.
Qed.

Lemma chunk_sep_end_by1 : chunk_by true false n1 (h2 && h1) ecln eres (sep_end_by1 p sep).
Proof.
  constructor; simpl; auto; try apply (cb_adderr H1).
  - intros f. split; [reflexivity|]. split; [reflexivity|]. exact (cb_init chunk_w f).
  - intros [[one els] ch] [K1 [K2 K3]]. split; [exact K1|]. split; [exact K2|]. apply (cb_cln chunk_w). exact K3.
  - intros f pos [[one els] ch] [K1 [K2 [K3 [K4 [K5 K6]]]]]. left. split; [exact K1|]. split; [exact K2|]. split; [auto|]. split; [exact K5|].
    apply (cb_res H1). exact K6.
  - discriminate.
  - apply noneoi_no.
  - intros f first pos l k r' [[one els] ch] St out E0.
    assert (Hcase : (one = None /\ els = [] /\ (fst (fst (fst ch)) = None /\ Cln2 f (snd (fst (fst ch)))) /\ fst (snd (fst ch)) = None /\
        started Cln1 Res1 f first pos l k (sep_get ch)) \/
      (first = false /\ exists c a vs w0 w1 l2, one = Some c /\ els = a :: vs /\ l = w0 ++ w1 ++ l2 /\ (c = Commit tt -> w0 ++ w1 <> []) /\
       always_ok true bp pos w0 (w1 ++ l2 ++ k) a /\ chain true (fresh w) (pos_after pos w0) w1 (l2 ++ k) (List.map Some vs) /\
       wres f (pos_after pos (w0 ++ w1)) l2 k ch)).
    { destruct first; simpl in St.
      - destruct St as [K1 [K2 [K3 [K4 [K5 [K6 [K7 K8]]]]]]]. left. split; [exact K3|]. split; [exact K4|]. split; [split; [exact K5|exact K6]|]. split; [exact K7|].
        simpl. split; [exact K1|]. split; [exact K2|exact K8].
      - destruct St as [K|K]; [left; exact K|right; split; [reflexivity|exact K]]. }
    clear St. destruct Hcase as [[-> [-> [[K1 K2] [K3 K4]]]]|[-> [c [a [vs [w0 [w1 [l2 [-> [-> [-> [K4 [K5 [K6 K7]]]]]]]]]]]]]].
    + unfold sep_end_by1_run in E0.
      destruct (p_run p first (Inp (k ++ r') (pos_after pos l) f) (sep_get ch)) as [[[r i1] s1]| |] eqn:E1; try discriminate.
      pose proof (cb_run H1 _ _ _ _ _ _ _ K4 _ E1) as F. unfold fits in F. cbn [obind] in E0.
      assert (CH : Cln1 f s1 -> wcln f (sep_set ch s1)).
      { intros K. unfold wcln, qcln, q1cln, sep_set. simpl. auto. }
      assert (Go : forall c v, (exists r1, k ++ r' = r1 ++ rest i1 /\ i1 = Inp (rest i1) (pos_after (pos_after pos l) r1) f /\
           always_ok f bp pos (l ++ r1) (rest i1) v /\ (l = [] -> (c = Commit tt <-> nonempty r1 = true))) -> Cln1 f s1 ->
         (c = Commit tt -> l = [] -> committed r = true) ->
         sep_end_by1_rest p sep first i1 c [v] (sep_set ch s1) = Done out ->
         fits true false n1 (h2 && h1) f ecln eres (fresh (sep_end_by1 p sep)) pos l (k ++ r') out).
      { intros c v [r1 [F1 [F2 [F3 F4]]]] HS1 HCm Q. rewrite F1. rewrite F2 in Q.
        apply (seb_go f first c pos l r1 [] (rest i1) (l ++ r1) [] [] v [] (sep_set ch s1)).
        - rewrite !app_nil_r. reflexivity.
        - intros Hc Hn. rewrite app_nil_r in Hn. apply app_eq_nil in Hn. destruct Hn as [Hn1 Hn2]. apply (F4 Hn1) in Hc. rewrite Hn2 in Hc. discriminate.
        - intros Hl. split; [reflexivity|]. apply F4. exact Hl.
        - exact F3.
        - constructor.
        - rewrite app_nil_r. destruct first; simpl; [auto|]. apply (cb_res chunk_w). apply CH. exact HS1.
        - rewrite app_nil_r. simpl. rewrite pos_after_app. exact Q. }
      destruct r as [v|v|e|e].
      * destruct F as [[r1 [F1 [F2 [F3 F4]]]] [F5 F6]]. apply (Go (Commit tt) v); auto. exists r1. split; [exact F1|]. split; [exact F2|]. split; [exact F3|].
        intros Hl. rewrite <- (F4 Hl). simpl. tauto.
      * destruct F as [[r1 [F1 [F2 [F3 F4]]]] [F5 F6]]. apply (Go (Peek tt) v); auto; [|discriminate]. exists r1. split; [exact F1|]. split; [exact F2|]. split; [exact F3|].
        intros Hl. rewrite <- (F4 Hl). simpl. split; discriminate.
      * inversion E0; subst out. unfold fits. destruct F as [[F1 [F2 [r1 [F3 [F4 [F5 F6]]]]]]|[F1 F2]].
        -- left. split; [exact F1|]. split; [exact F2|]. exists r1. split; [exact F3|]. split; [exact F4|]. split; [discriminate|]. intros g. left.
           split; [reflexivity|]. split; [reflexivity|]. split; [split; [exact K1|]|split; [exact K3|apply F6]].
           simpl. subst f. destruct g; [exact K2|apply (cb_cln H2); exact K2].
        -- right. split; [|apply seb_always_err0; exact F2]. intros Hf. destruct (F1 Hf) as [G1 G2]. split; [exact G1|]. intros Hh. apply G2.
           apply andb_true_iff in Hh. apply Hh.
      * inversion E0; subst out. unfold fits. destruct F as [F1 [F2 [F3 [F4 F5]]]]. split; [exact F1|]. split; [exact F2|]. split; [exact F3|].
        split; [intros Hx; split; [reflexivity|split; [reflexivity|apply CH; apply F4; exact Hx]]|]. apply seb_always_err0. exact F5.
    + simpl in E0. change (k ++ r') with ([] ++ k ++ r').
      apply (seb_go f false c pos (w0 ++ w1 ++ l2) [] k r' w0 w1 l2 a vs ch).
      * rewrite app_nil_r. reflexivity.
      * exact K4.
      * intros Hl. apply app_eq_nil in Hl. destruct Hl as [Hl0 Hl]. apply app_eq_nil in Hl. destruct Hl as [Hl1 Hl2]. subst. split; [reflexivity|].
        split; [intros Hc; destruct (K4 Hc eq_refl)|discriminate].
      * replace (w1 ++ l2 ++ k ++ r') with ((w1 ++ l2 ++ k) ++ r') by (rewrite <- !app_assoc; reflexivity). apply always_ok_ext. exact K5.
      * rewrite app_assoc. apply chain_ext. exact K6.
      * exact K7.
      * rewrite <- pos_after_app. rewrite <- app_assoc. exact E0.
Qed.

(** * sep_end_by *)
Lemma chunk_sep_end_by : exists Res, chunk_by true false true false chcln Res (sep_end_by p sep).
Proof.
  pose proof (alt_cons L D _ _ _ _ _ _ _ _ _ _ _ _ _ chunk_sep_end_by1 (alt_one L D _ _ _ _ _ _ _ (chunk_value (@nil A)))) as HT.
  simpl in HT. rewrite ?andb_false_r, ?orb_true_r in HT.
  eexists. eapply (chunk_same _ _ _ _ _ _ (choice (AC (sep_end_by1 p sep) (AL (value (@nil A)))))).
  - apply (chunk_choice EL). exact HT.
  - reflexivity.
  - reflexivity.
  - apply (cb_adderr H1).
  - apply noneoi_no.
  - left. reflexivity.
  - left. reflexivity.
Qed.
End SepEnd.
End SepEndChunk.
