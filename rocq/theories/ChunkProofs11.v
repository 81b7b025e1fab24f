(** Proofs for C29: [recognize]. *)
From Coq Require Import String List Bool Arith NArith Lia.
Import ListNotations.
From Verif Require Import Base Parser Token Combinator Sequence Choice Repeat RangeP Spec SeqSpec ChoiceSpec TidySpec RepeatSpec AgreeSpec TidyProofs.
From Verif Require Import ResultProofs SeqProofs CombProofs ChoiceProofs CombProofs2 RepeatProofs ChunkSpec ChunkProofs ChunkProofs2.
Unset Implicit Arguments.

Section RecChunk.
Context {C : Cfg}.
Notation T := (tok C).
Notation E := (Err C).
Notation nonempty := consumed_some.
Variable EL : eoi_laws C.
Variable L : lawful C.
Variable D : pos_distinct C.
Context {S A : Type} (x a n h : bool) (Cln : bool -> S -> Prop) (Res : bool -> Pos C -> list T -> list T -> S -> Prop) (p : parser C S A).
Hypothesis H : chunk_by x a n h Cln Res p.
Hypothesis HF : forward p.

Definition rcln (f : bool) (st : list T * S) : Prop := fst st = [] /\ Cln f (snd st).
Definition rres (f : bool) (pos : Pos C) (l k : list T) (st : list T * S) : Prop := fst st = l /\ Res f pos l k (snd st).

(** Used at once: the value is what was read. *)
Lemma fresh_recognize i r i' : fresh (recognize p) i = Done (r, i') -> exists r0 i0, fresh p i = Done (r0, i0) /\ committed r = committed r0 /\ is_ok r = is_ok r0 /\
  (forall w, rest i = w ++ rest i0 -> ipos i0 = pos_after (ipos i) w -> ipart i0 = ipart i -> is_ok r0 = true -> r = okr (committed r0) w /\ i' = i0).
Proof.
  unfold fresh, recognize, recognize_run. simpl. destruct (p_run p true i (p_init p)) as [[[r0 i0] s0]| |] eqn:E0; try discriminate. cbn [omap fst].
  destruct (HF _ _ _ _ _ _ E0) as [w [W1 [W2 W3]]].
  pose proof (replay_exact L D w (rest i0) (ipos i)) as R. rewrite <- W1, <- W2 in R. rewrite R. intros Q. exists r0, i0. split; [reflexivity|].
  assert (J : Inp (rest i0) (ipos i0) (ipart i) = i0) by (destruct i0; cbn in *; congruence). rewrite J in Q.
  assert (U : forall w', rest i = w' ++ rest i0 -> w' = w) by (intros w' K; rewrite W1 in K; apply app_inv_tail in K; auto).
  destruct r0; inversion Q; subst; cbn; repeat split; try discriminate; try (rewrite (U _ H0)); auto.
Qed.

Lemma rec_always_ok f pos w tail v : always_ok f (fresh p) pos w tail v -> always_ok f (fresh (recognize p)) pos w tail w.
Proof.
  intros K m Hm r i' Q. destruct (fresh_recognize _ _ _ Q) as [r0 [i0 [Q1 [Q2 [Q3 Q4]]]]]. destruct (K m Hm _ _ Q1) as [K1 K2]. subst.
  rewrite committed_okr in *. apply Q4; auto. apply okr_is_ok.
Qed.
Lemma rec_always_err f pos w c : always_err f (fresh p) pos w c -> always_err f (fresh (recognize p)) pos w c.
Proof.
  intros K m Hm r i' Q. destruct (fresh_recognize _ _ _ Q) as [r0 [i0 [Q1 [Q2 [Q3 _]]]]]. destruct (K m Hm _ _ Q1) as [K1 K2]. split; congruence.
Qed.

Lemma chunk_recognize : chunk_by x a n h rcln rres (recognize p).
Proof.
  constructor; simpl; auto; try apply noneoi_no.
  - intros f. split; [reflexivity|apply (cb_init H)].
  - intros st [K1 K2]. split; auto. apply (cb_cln H). exact K2.
  - intros f pos st [K1 K2]. split; auto. apply (cb_res H). exact K2.
  - intros Ha f pos l k st [K1 K2]. apply (cb_atomic H Ha _ _ _ _ _ K2).
  - apply (cb_adderr H).
  - intros f first pos l k r' [els s] St out E0. unfold recognize_run in E0.
    assert (ST : started Cln Res f first pos l k s /\ els = l).
    { destruct first; simpl in St; [destruct St as [-> [-> [K1 K2]]]; cbn in *; auto|destruct St as [K1 K2]; cbn in *; auto]. }
    destruct ST as [ST ->]. clear St.
    destruct (p_run p first (Inp (k ++ r') (pos_after pos l) f) s) as [[[r0 i0] s0]| |] eqn:E1; try discriminate.
    pose proof (cb_run H _ _ _ _ _ _ _ ST _ E1) as Q. cbn [omap rest ipos ipart] in E0.
    destruct (HF _ _ _ _ _ _ E1) as [w [W1 [W2 W3]]]. cbn [rest ipos ipart] in W1, W2, W3.
    assert (R : replay (ipos i0) (k ++ r') (pos_after pos l) = (w, rest i0, ipos i0, true)) by (rewrite W1, W2; apply (replay_exact L D)).
    rewrite R in E0. assert (J : Inp (rest i0) (ipos i0) f = i0) by (destruct i0; cbn in *; congruence). rewrite J in E0.
    assert (U : forall w', k ++ r' = w' ++ rest i0 -> w' = w) by (intros w' K; rewrite W1 in K; apply app_inv_tail in K; auto).
    unfold fits in *. destruct r0 as [v|v|e|e]; inversion E0; subst out; clear E0.
    + destruct Q as [[r1 [F1 [F2 [F3 F4]]]] [F5 F6]]. rewrite (U _ F1) in *. split; [|split; [split; auto|exact F6]].
      exists w. split; [exact W1|]. split; [exact F2|]. split; [eapply rec_always_ok; eauto|exact F4].
    + destruct Q as [[r1 [F1 [F2 [F3 F4]]]] [F5 F6]]. rewrite (U _ F1) in *. split; [|split; [split; auto|exact F6]].
      exists w. split; [exact W1|]. split; [exact F2|]. split; [eapply rec_always_ok; eauto|exact F4].
    + destruct Q as [[F1 [F2 [r1 [F3 [F4 [F5 F6]]]]]]|[F1 F2]]; [left|right; split; [exact F1|apply rec_always_err; exact F2]].
      rewrite (U _ F3) in *. split; [exact F1|]. split; [exact F2|]. exists w. split; [exact W1|]. split; [exact F4|]. split; [exact F5|]. intros g. split; cbn; auto.
    + destruct Q as [F1 [F2 [F3 [F4 F5]]]]. split; [exact F1|]. split; [exact F2|]. split; [exact F3|]. split; [|apply rec_always_err; exact F5].
      intros Hx. split; [|apply F4; exact Hx]. cbn. destruct F3; congruence.
Qed.
End RecChunk.
