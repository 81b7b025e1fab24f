(** Proofs for C74: lists ended by separators and operator chains return. *)
From Coq Require Import String List Bool Arith NArith Lia.
Import ListNotations.
From Verif Require Import Base Parser Token Combinator Sequence Choice Repeat RangeP ByteP Spec SeqSpec ChoiceSpec TidySpec RepeatSpec AgreeSpec.
From Verif Require Import ResultProofs SeqProofs CombProofs ChoiceProofs CombProofs2 RepeatProofs RepeatProofs2 ChunkSpec ChunkProofs ChunkProofs2 ChunkProofs3 ChunkProofs4 ChunkProofs5 ChunkProofs6 ChunkProofs12 ChunkProofs13.
From Verif Require Import TotalSpec TotalProofs TotalProofs2 SteadyProofs SteadyProofs2.
Unset Implicit Arguments.

Section Steady5.
Context {C : Cfg}.
Notation T := (tok C).
Notation E := (Err C).
Variable z : nat.
Variable EL : eoi_laws C.
Variable L : lawful C.
Variable D : pos_distinct C.
Notation few := (TotalSpec.fits z).

Lemma ok_next x a n h {S A} Cln Res (p : parser C S A) f first pos l k r' s r i' s' : chunk_by x a n h Cln Res p ->
  started Cln Res f first pos l k s -> few (Inp (k ++ r') (pos_after pos l) f) ->
  p_run p first (Inp (k ++ r') (pos_after pos l) f) s = Done (r, i', s') -> is_ok r = true ->
  few i' /\ exists r1 v, k ++ r' = r1 ++ rest i' /\ i' = Inp (rest i') (pos_after (pos_after pos l) r1) f /\ Cln f s' /\ always_ok f (fresh p) pos (l ++ r1) (rest i') v.
Proof.
  intros K St Hf R Hr. pose proof (cb_run K _ _ _ _ _ _ _ St _ R) as F.
  assert (F' : exists r1 v, k ++ r' = r1 ++ rest i' /\ i' = Inp (rest i') (pos_after (pos_after pos l) r1) f /\ Cln f s' /\ always_ok f (fresh p) pos (l ++ r1) (rest i') v).
  { destruct r as [w|w|e|e]; try discriminate; cbn in F; destruct F as [[r1 [F1 [F2 [F3 _]]]] [F5 _]]; exists r1, w; auto. }
  split; [|exact F']. destruct F' as [r1 [v [F1 _]]]. eapply few_next; [exact Hf|exact F1].
Qed.

Section Scan.
Context {S A : Type} (a n h b : bool) (Cln : bool -> S -> Prop) (Res : bool -> Pos C -> list T -> list T -> S -> Prop) (p : parser C S (option A)).
Hypothesis K : chunk_by true a n h Cln Res p.
Hypothesis H : ret_by z Cln Res p.
Hypothesis HS : solid z b true p.

Lemma iter_scan_ret f : forall m first cb pos l k r' s, started Cln Res f first pos l k s -> few (Inp (k ++ r') (pos_after pos l) f) ->
  length (k ++ r') + (if first then 1 else 2) <= m -> returns (iter_scan m p first cb (Inp (k ++ r') (pos_after pos l) f) s).
Proof.
  induction m as [|m IH]; intros first cb pos l k r' s St Hf Hm; [destruct first; lia|]. cbn [iter_scan].
  destruct (H _ _ _ _ _ _ _ St Hf) as [[[r i'] s'] R]. rewrite R. cbn [obind].
  assert (G : is_ok r = true -> forall cb', returns (iter_scan m p true cb' i' s')).
  { intros Hr cb'. destruct (ok_next _ _ _ _ _ _ _ _ _ _ _ _ _ _ _ _ _ K St Hf R Hr) as [Hf' [r1 [v [F1 [F2 [F3 F4]]]]]].
    assert (Hl : length (rest i') + 1 <= m).
    { rewrite F1, app_length in Hm. destruct first; [|lia]. destruct St as [-> [-> _]]. cbn [app] in F1, F4.
      apply (step_eats z p L HS) in F4; [|rewrite <- F1; eapply few_plain; exact Hf].
      destruct r1; [congruence|]. cbn [length] in Hm. lia. }
    rewrite F2 in Hf' |- *. apply (IH true cb' (pos_after (pos_after pos l) r1) [] [] (rest i') s'); [cbn; auto|exact Hf'|exact Hl]. }
  destruct r as [[v|]|[v|]|e|e]; try apply returns_done; apply returns_omap; apply G; reflexivity.
Qed.
Lemma scan_fuel_ret f first cb pos l k r' s : started Cln Res f first pos l k s -> few (Inp (k ++ r') (pos_after pos l) f) ->
  returns (iter_scan (fuel C) p first cb (Inp (k ++ r') (pos_after pos l) f) s).
Proof. intros St Hf. apply iter_scan_ret; auto. destruct Hf as [_ Hf]. cbn [rest] in Hf. destruct first; lia. Qed.
End Scan.

Lemma solid_false c n {S A} (p : parser C S A) : solid z c n p -> solid z false n p.
Proof. destruct c; auto. apply sol_weak_b. Qed.

Section SepEnd.
Context {S1 S2 A B : Type} (a1 n1 h1 a2 n2 h2 c1 m1 c2 : bool) (Cln1 : bool -> S1 -> Prop) (Res1 : bool -> Pos C -> list T -> list T -> S1 -> Prop)
  (Cln2 : bool -> S2 -> Prop) (Res2 : bool -> Pos C -> list T -> list T -> S2 -> Prop) (p : parser C S1 A) (sep : parser C S2 B).
Hypothesis H1 : chunk_by true a1 n1 h1 Cln1 Res1 p.
Hypothesis H2 : chunk_by true a2 n2 h2 Cln2 Res2 sep.
Hypothesis R1 : ret_by z Cln1 Res1 p.
Hypothesis R2 : ret_by z Cln2 Res2 sep.
Hypothesis Q1 : solid z c1 m1 p.
Hypothesis Q2 : solid z c2 true sep.
Notation w := (with_ (by_ref sep) (optional (by_ref p))).

Lemma ret_w : ret_by z (wcln Cln1 Cln2 (A:=A)) (wres Cln1 Res1 Cln2 Res2 sep) w.
Proof.
  eapply ret_with; [eapply chunk_by_ref; exact H2|eapply chunk_optional; eapply chunk_by_ref; exact H1|apply ret_by_ref; exact R2|].
  apply ret_optional. apply ret_by_ref. exact R1.
Qed.
Lemma solid_w : solid z false true w.
Proof.
  apply (@sol_with C z false true false); [apply sol_by_ref; exact (solid_false _ _ _ Q2)|].
  eapply sol_optional. apply sol_by_ref. eapply sol_weak_z; [|exact (solid_false _ _ _ Q1)]. cbn. lia.
Qed.

Lemma ret_sep_end_by1 : ret_by z (ecln Cln1 Cln2) (eres Cln1 Res1 Cln2 Res2 p sep) (sep_end_by1 p sep).
Proof.
  intros f first pos l k r' [[one els] ch] St Hf. cbn [p_run sep_end_by1 mk_mode sep_end_by1_run].
  assert (Hcase : (one = None /\ (fst (fst (fst ch)) = None /\ Cln2 f (snd (fst (fst ch)))) /\ fst (snd (fst ch)) = None /\
        started Cln1 Res1 f first pos l k (sep_get ch)) \/
      (first = false /\ exists c w1 l2, one = Some c /\ l = w1 ++ l2 /\ wres Cln1 Res1 Cln2 Res2 sep f (pos_after pos w1) l2 k ch)).
  { destruct first; simpl in St.
    - destruct St as [K1 [K2 [K3 [K4 [K5 [K6 [K7 K8]]]]]]]. left. split; [exact K3|]. split; [split; [exact K5|exact K6]|]. split; [exact K7|].
      simpl. split; [exact K1|]. split; [exact K2|exact K8].
    - destruct St as [[K1 [K2 [K3 [K4 K5]]]]|K]; [left; split; [exact K1|]; split; [exact K3|]; split; [exact K4|exact K5]|right; split; [reflexivity|]].
      destruct K as [c [a [vs [w0 [w1 [l2 [K1 [_ [K2 [_ [_ [_ K3]]]]]]]]]]]]. exists c, (w0 ++ w1), l2. rewrite <- app_assoc. auto. }
  clear St. destruct Hcase as [[-> [[K1 K2] [K3 K4]]]|[-> [c [w1 [l2 [-> [-> K5]]]]]]].
  - destruct (R1 _ _ _ _ _ _ _ K4 Hf) as [[[r i1] s1] R]. rewrite R. cbn [obind].
    assert (Go : is_ok r = true -> forall c e, returns (sep_end_by1_rest p sep first i1 c e (sep_set ch s1))).
    { intros Hr c e. destruct (ok_next _ _ _ _ _ _ _ _ _ _ _ _ _ _ _ _ _ H1 K4 Hf R Hr) as [Hf' [r1 [v [F1 [F2 [F3 F4]]]]]].
      assert (CH : wcln Cln1 Cln2 (A:=A) f (sep_set ch s1)) by (unfold wcln, qcln, q1cln, sep_set; simpl; auto).
      rewrite F2 in Hf' |- *. unfold sep_end_by1_rest. apply returns_omap.
      apply (scan_fuel_ret false n2 (h2 && h1) false _ _ w (chunk_w EL a1 n1 h1 a2 n2 h2 Cln1 Res1 Cln2 Res2 p sep H1 H2) ret_w solid_w f first false (pos_after (pos_after pos l) r1) [] [] (rest i1)).
      - destruct first; simpl; [auto|]. apply (cb_res (chunk_w EL a1 n1 h1 a2 n2 h2 Cln1 Res1 Cln2 Res2 p sep H1 H2)). exact CH.
      - exact Hf'. }
    destruct r as [v|v|e|e]; try apply returns_done; apply Go; reflexivity.
  - unfold sep_end_by1_rest. apply returns_omap. rewrite pos_after_app in Hf |- *.
    apply (scan_fuel_ret false n2 (h2 && h1) false _ _ w (chunk_w EL a1 n1 h1 a2 n2 h2 Cln1 Res1 Cln2 Res2 p sep H1 H2) ret_w solid_w f false false (pos_after pos w1) l2 k r' ch K5 Hf).
Qed.

Lemma both_sep_end_by : history_free false p -> history_free false sep ->
  exists Res, chunk_by true false true false chcln Res (sep_end_by p sep) /\ ret_by z chcln Res (sep_end_by p sep).
Proof.
  intros Hp Hs. pose proof (chunk_sep_end_by1 EL a1 n1 h1 a2 n2 h2 Cln1 Res1 Cln2 Res2 p sep H1 H2 Hp Hs) as K.
  pose proof (alt_cons L D _ _ _ _ _ _ _ _ _ _ _ _ _ K (alt_one L D _ _ _ _ _ _ _ (chunk_value (@nil A)))) as HT.
  simpl in HT. rewrite ?andb_false_r, ?orb_true_r in HT.
  eexists. split.
  - eapply (chunk_same _ _ _ _ _ _ (choice (AC (sep_end_by1 p sep) (AL (value (@nil A)))))).
    + apply (chunk_choice EL). exact HT.
    + reflexivity.
    + reflexivity.
    + apply (cb_adderr H1).
    + apply noneoi_no.
    + left. reflexivity.
    + left. reflexivity.
  - apply ret_choice. eapply ret_alt_cons; [exact K|exact ret_sep_end_by1|]. eapply ret_alt_one; [apply chunk_value|].
    apply (ret_lz _ L true false); apply sol_value.
Qed.
End SepEnd.

Section Chainl.
Context {S1 S2 A : Type} (x1 a1 h1 a2 n2 h2 c1 m1 c2 : bool) (Cln1 : bool -> S1 -> Prop) (Res1 : bool -> Pos C -> list T -> list T -> S1 -> Prop)
  (Cln2 : bool -> S2 -> Prop) (Res2 : bool -> Pos C -> list T -> list T -> S2 -> Prop) (p : parser C S1 A) (op : parser C S2 (A -> A -> A)).
Hypothesis H1 : chunk_by x1 a1 true h1 Cln1 Res1 p.
Hypothesis H2 : chunk_by true a2 n2 h2 Cln2 Res2 op.
Hypothesis R1 : ret_by z Cln1 Res1 p.
Hypothesis R2 : ret_by z Cln2 Res2 op.
Hypothesis Q1 : solid z c1 m1 p.
Hypothesis Q2 : solid z c2 true op.
Notation w := (pair2 (by_ref op) (by_ref p)).
Notation CV := (chunk_v EL x1 a1 h1 a2 n2 h2 Cln1 Res1 Cln2 Res2 p op H1 H2).

Lemma ret_v : ret_by z (vcln Cln1 Cln2 (A:=A)) (vres Cln1 Res1 Cln2 Res2 op) w.
Proof.
  eapply ret_tuple; [eapply tail_cons; eauto using chunk_by_ref, tail_one|].
  eapply ret_tail_cons; eauto using chunk_by_ref, tail_one, ret_by_ref, ret_tail_one.
Qed.
Lemma solid_v : solid z false true w.
Proof.
  apply sol_tuple. apply (@sol_TC C z false true m1); [apply sol_by_ref; exact (solid_false _ _ _ Q2)|].
  apply sol_T1. apply sol_by_ref. eapply sol_weak_z; [|exact (solid_false _ _ _ Q1)]. cbn. lia.
Qed.

Lemma chainl_loop_ret f : forall m first v0 c pos l k r' ch, started (vcln Cln1 Cln2 (A:=A)) (vres Cln1 Res1 Cln2 Res2 op) f first pos l k ch ->
  few (Inp (k ++ r') (pos_after pos l) f) -> length (k ++ r') + (if first then 1 else 2) <= m ->
  returns (chainl_loop m p op first v0 c (Inp (k ++ r') (pos_after pos l) f) ch).
Proof.
  induction m as [|m IH]; intros first v0 c pos l k r' ch St Hf Hm; [destruct first; lia|]. cbn [chainl_loop].
  destruct (ret_v _ _ _ _ _ _ _ St Hf) as [[[r i'] s'] R]. rewrite R. cbn [obind].
  assert (G : is_ok r = true -> forall v c', returns (chainl_loop m p op true v c' i' s')).
  { intros Hr v' c'. destruct (ok_next _ _ _ _ _ _ _ _ _ _ _ _ _ _ _ _ _ CV St Hf R Hr) as [Hf' [r1 [v [F1 [F2 [F3 F4]]]]]].
    assert (Hl : length (rest i') + 1 <= m).
    { rewrite F1, app_length in Hm. destruct first; [|lia]. destruct St as [-> [-> _]]. cbn [app] in F1, F4.
      apply (step_eats z w L solid_v) in F4; [|rewrite <- F1; eapply few_plain; exact Hf].
      destruct r1; [congruence|]. cbn [length] in Hm. lia. }
    rewrite F2 in Hf' |- *. apply (IH true v' c' (pos_after (pos_after pos l) r1) [] [] (rest i') s'); [cbn; auto|exact Hf'|exact Hl]. }
  destruct r as [[g v]|[g v]|e|e]; cbn [into_std]; try apply returns_done; apply G; reflexivity.
Qed.

Lemma ret_chainl1 : ret_by z (lcln Cln1 Cln2) (lres_ Cln1 Res1 Cln2 Res2 p op) (chainl1 p op).
Proof.
  intros f first pos l k r' [ls ch] St Hf. cbn [p_run chainl1 mk_mode]. unfold chainl1_run.
  assert (Hcase : (ls = None /\ (fst (fst (fst ch)) = None /\ Cln2 f (snd (fst (fst ch)))) /\ fst (snd (fst ch)) = None /\
        started Cln1 Res1 f false pos l k (snd (snd (fst ch)))) \/
      (first = false /\ exists v c w1 l2, ls = Some (v, c) /\ l = w1 ++ l2 /\ vres Cln1 Res1 Cln2 Res2 op f (pos_after pos w1) l2 k ch)).
  { destruct first; simpl in St.
    - destruct St as [K1 [K2 [K3 [K4 [K5 [K6 K7]]]]]]. simpl in *. left. split; [exact K3|]. split; [split; [exact K4|exact K5]|]. split; [exact K6|].
      subst l k. apply (cb_res H1). exact K7.
    - destruct St as [K|K]; [left; exact K|right; split; [reflexivity|]].
      destruct K as [c [a [vs [w0 [w1 [l2 [K1 [K2 [_ [_ [_ K3]]]]]]]]]]]. exists (foldl_chain a vs), c, (w0 ++ w1), l2. rewrite <- app_assoc. auto. }
  clear St. destruct Hcase as [[-> [[K1 K2] [K3 K4]]]|[-> [v [c [w1 [l2 [-> [-> K5]]]]]]]].
  - destruct (R1 _ _ _ _ _ _ _ K4 Hf) as [[[r i1] s1] R]. rewrite R. cbn [obind].
    assert (Go : is_ok r = true -> forall c v ch1, vcln Cln1 Cln2 (A:=A) f ch1 -> returns (chainl_loop (fuel C) p op true v c i1 ch1)).
    { intros Hr c v ch1 CH. destruct (ok_next _ _ _ _ _ _ _ _ _ _ _ _ _ _ _ _ _ H1 K4 Hf R Hr) as [Hf' [r1 [v' [F1 [F2 [F3 F4]]]]]].
      rewrite F2 in Hf' |- *. apply (chainl_loop_ret f (fuel C) true v c (pos_after (pos_after pos l) r1) [] [] (rest i1)); [simpl; auto|exact Hf'|].
      destruct Hf' as [_ Hf']. cbn [rest] in Hf'. simpl. lia. }
    assert (CH : is_ok r = true -> vcln Cln1 Cln2 (A:=A) f ((fst (fst ch), (fst (snd (fst ch)), s1)), snd ch)).
    { intros Hr. destruct (ok_next _ _ _ _ _ _ _ _ _ _ _ _ _ _ _ _ _ H1 K4 Hf R Hr) as [_ [r1 [v' [_ [_ [F3 _]]]]]]. unfold vcln, qcln, q1cln. simpl. auto. }
    destruct r as [v|v|e|e]; try apply returns_done; apply Go; try reflexivity; apply CH; reflexivity.
  - rewrite pos_after_app in Hf |- *. apply (chainl_loop_ret f (fuel C) false v c (pos_after pos w1) l2 k r' ch K5 Hf).
    destruct Hf as [_ Hf]. cbn [rest] in Hf. lia.
Qed.
End Chainl.
End Steady5.
