(** Proofs for C29: [either]; every parser of the class; whole sessions; the laws hold for the library's error types. *)
From Coq Require Import String List Bool Arith NArith Lia.
Import ListNotations.
From Verif Require Import Base Errors Instances Parser Token Combinator Sequence Choice Repeat RangeP Spec SeqSpec ChoiceSpec TidySpec RepeatSpec AgreeSpec.
From Verif Require Import ResultProofs SeqProofs CombProofs ChoiceProofs CombProofs2 RepeatProofs ChunkSpec ChunkProofs ChunkProofs2 ChunkProofs3 ChunkProofs4 ChunkProofs5 ChunkProofs6 ChunkProofs12 ChunkProofs13 ChunkProofs14 ChunkProofs15 ChunkProofs8 ChunkProofs9 ChunkProofs10 ChunkProofs11.
From Verif Require Import DecodeSpec.
Unset Implicit Arguments.

Section Sound.
Context {C : Cfg}.
Notation T := (tok C).
Notation E := (Err C).
Notation nonempty := consumed_some.

(** * Another state around the same parser *)
Lemma fits_state x a n h f {S S' A} (Cln : bool -> S -> Prop) (Res : bool -> Pos C -> list T -> list T -> S -> Prop)
    (Cln' : bool -> S' -> Prop) (Res' : bool -> Pos C -> list T -> list T -> S' -> Prop) (b : @beh C A) pos l r res i' s s' :
  (Cln f s -> Cln' f s') -> (forall g l k, Res g pos l k s -> Res' g pos l k s') ->
  fits x a n h f Cln Res b pos l r (res, i', s) -> fits x a n h f Cln' Res' b pos l r (res, i', s').
Proof.
  intros H1 H2. unfold fits. destruct res.
  - intros [K1 [K2 K3]]. auto.
  - intros [K1 [K2 K3]]. auto.
  - intros [[K1 [K2 [r1 [K3 [K4 [K5 K6]]]]]]|K]; [|right; exact K]. left. split; [exact K1|]. split; [exact K2|]. exists r1. auto 10.
  - intros [K1 [K2 [K3 [K4 K5]]]]. split; [exact K1|]. split; [exact K2|]. split; [exact K3|]. split; [auto|exact K5].
Qed.

Definition eicln {S1 S2} (Cln1 : bool -> S1 -> Prop) (Cln2 : bool -> S2 -> Prop) (f : bool) (st : option (S1 + S2)) : Prop :=
  match st with None => True | Some (inl s) => Cln1 f s | Some (inr s) => Cln2 f s end.
Definition lres {S1 S2} (Res : bool -> Pos C -> list T -> list T -> S1 -> Prop) (f : bool) (pos : Pos C) (l k : list T) (st : option (S1 + S2)) : Prop :=
  match st with Some (inl s) => Res f pos l k s | _ => l = [] /\ k = [] end.
Definition rres_ {S1 S2} (Res : bool -> Pos C -> list T -> list T -> S2 -> Prop) (f : bool) (pos : Pos C) (l k : list T) (st : option (S1 + S2)) : Prop :=
  match st with Some (inr s) => Res f pos l k s | _ => l = [] /\ k = [] end.

Lemma chunk_left x a n h {S1 S2 A} Cln1 Res1 (Cln2 : bool -> S2 -> Prop) (p : parser C S1 A) : chunk_by x a n h Cln1 Res1 p ->
  (forall s, Cln2 true s -> Cln2 false s) -> chunk_by x a n h (eicln Cln1 Cln2) (lres Res1) (either (inl p)).
Proof.
  intros H HC. constructor; simpl; auto; try apply (cb_adderr H).
  - intros [[s|s]|]; simpl; auto. apply (cb_cln H).
  - intros f pos [[s|s]|]; simpl; auto. apply (cb_res H).
  - intros Ha f pos l k [[s|s]|]; simpl; [apply (cb_atomic H Ha)|tauto|tauto].
  - intros t Ht. exact Ht.
  - intros i. destruct (cb_lazy H i) as [Q|Q]; rewrite Q; [left|right].
    + unfold default_lazy, either_run. destruct (p_run p true i (p_init p)) as [[[r j] s]| |]; simpl; auto.
    + unfold fresh, either_run. simpl. destruct (p_run p true i (p_init p)) as [[[r j] s]| |]; simpl; auto.
  - intros f first pos l k r' st St out E0. unfold either_run in E0. simpl in E0.
    set (s := match st with Some (inl s) => s | _ => p_init p end) in *.
    assert (St' : started Cln1 Res1 f first pos l k s).
    { destruct first; simpl in *.
      - destruct St as [K1 [K2 K3]]. split; [exact K1|]. split; [exact K2|]. unfold s. destruct st as [[s1|s1]|]; [exact K3|apply (cb_init H)|apply (cb_init H)].
      - unfold s. destruct st as [[s1|s1]|]; [exact St| |]; destruct St as [-> ->]; apply (cb_res H); apply (cb_init H). }
    destruct (p_run p first (Inp (k ++ r') (pos_after pos l) f) s) as [[[r i1] s1]| |] eqn:E1; try discriminate. inversion E0; subst out.
    pose proof (cb_run H _ _ _ _ _ _ _ St' _ E1) as F. apply fits_beh with (b := fresh p).
    { intros i. unfold fresh, either_run. simpl. destruct (p_run p true i (p_init p)) as [[[r0 j] s0]| |]; simpl; auto. }
    eapply fits_state; [| |exact F]; simpl; auto.
Qed.
Lemma chunk_right x a n h {S1 S2 A} Cln1 Res1 (Cln2 : bool -> S2 -> Prop) (p : parser C S1 A) : chunk_by x a n h Cln1 Res1 p ->
  (forall s, Cln2 true s -> Cln2 false s) -> chunk_by x a n h (eicln Cln2 Cln1) (rres_ Res1) (either (inr p)).
Proof.
  intros H HC. constructor; simpl; auto; try apply (cb_adderr H).
  - intros [[s|s]|]; simpl; auto. apply (cb_cln H).
  - intros f pos [[s|s]|]; simpl; auto. apply (cb_res H).
  - intros Ha f pos l k [[s|s]|]; simpl; [tauto|apply (cb_atomic H Ha)|tauto].
  - intros t Ht. exact Ht.
  - intros i. destruct (cb_lazy H i) as [Q|Q]; rewrite Q; [left|right].
    + unfold default_lazy, either_run. destruct (p_run p true i (p_init p)) as [[[r j] s]| |]; simpl; auto.
    + unfold fresh, either_run. simpl. destruct (p_run p true i (p_init p)) as [[[r j] s]| |]; simpl; auto.
  - intros f first pos l k r' st St out E0. unfold either_run in E0. simpl in E0.
    set (s := match st with Some (inr s) => s | _ => p_init p end) in *.
    assert (St' : started Cln1 Res1 f first pos l k s).
    { destruct first; simpl in *.
      - destruct St as [K1 [K2 K3]]. split; [exact K1|]. split; [exact K2|]. unfold s. destruct st as [[s1|s1]|]; [apply (cb_init H)|exact K3|apply (cb_init H)].
      - unfold s. destruct st as [[s1|s1]|]; [|exact St|]; destruct St as [-> ->]; apply (cb_res H); apply (cb_init H). }
    destruct (p_run p first (Inp (k ++ r') (pos_after pos l) f) s) as [[[r i1] s1]| |] eqn:E1; try discriminate. inversion E0; subst out.
    pose proof (cb_run H _ _ _ _ _ _ _ St' _ E1) as F. apply fits_beh with (b := fresh p).
    { intros i. unfold fresh, either_run. simpl. destruct (p_run p true i (p_init p)) as [[[r0 j] s0]| |]; simpl; auto. }
    eapply fits_state; [| |exact F]; simpl; auto.
Qed.

Definition dcln {S SS} (Cln1 : bool -> S -> Prop) (Cln2 : bool -> option SS -> Prop) (f : bool) (st : option (S + SS)) : Prop :=
  match st with None => True | Some (inl s) => Cln1 f s | Some (inr s) => Cln2 f (Some s) end.
Definition dres {S SS} (Res : bool -> Pos C -> list T -> list T -> option SS -> Prop) (f : bool) (pos : Pos C) (l k : list T) (st : option (S + SS)) : Prop :=
  match st with Some (inr s) => Res f pos l k (Some s) | _ => l = [] /\ k = [] end.
Lemma disp_run_some {A SS} (d : disp (C:=C) A SS) : forall first i st r i' s, disp_run d first i st = Done (r, i', s) -> s <> None.
Proof.
  induction d as [S SS p|S SS d IH]; intros first i st r i' s H; cbn [disp_run] in H.
  - destruct (p_run p first i _) as [[[r0 j] s0]| |]; inversion H. discriminate.
  - destruct (disp_run d first i _) as [[[r0 j] s0]| |] eqn:E0; inversion H. apply IH in E0. destruct s0; [discriminate|congruence].
Qed.
Lemma chunk_disp_here x a n h {S SS A} Cln1 Res1 (Cln2 : bool -> option SS -> Prop) (p : parser C S A) : chunk_by x a n h Cln1 Res1 p ->
  (forall s, Cln2 true s -> Cln2 false s) -> chunk_by x a n h (dcln Cln1 Cln2) (lres Res1) (dispatch (DC p)).
Proof.
  intros H HC. constructor; simpl; auto; try apply (cb_adderr H).
  - intros [[s|s]|]; simpl; auto. apply (cb_cln H).
  - intros f pos [[s|s]|]; simpl; auto. apply (cb_res H).
  - intros Ha f pos l k [[s|s]|]; simpl; [apply (cb_atomic H Ha)|tauto|tauto].
  - intros t Ht. exact Ht.
  - intros f first pos l k r' st St out E0.
    set (s := match st with Some (inl s) => s | _ => p_init p end) in *.
    assert (St' : started Cln1 Res1 f first pos l k s).
    { destruct first; simpl in *.
      - destruct St as [K1 [K2 K3]]. split; [exact K1|]. split; [exact K2|]. unfold s. destruct st as [[s1|s1]|]; [exact K3|apply (cb_init H)|apply (cb_init H)].
      - unfold s. destruct st as [[s1|s1]|]; [exact St| |]; destruct St as [-> ->]; apply (cb_res H); apply (cb_init H). }
    destruct (p_run p first (Inp (k ++ r') (pos_after pos l) f) s) as [[[r i1] s1]| |] eqn:E1; try discriminate. inversion E0; subst out.
    pose proof (cb_run H _ _ _ _ _ _ _ St' _ E1) as F. apply fits_beh with (b := fresh p).
    { intros i. unfold fresh. simpl. destruct (p_run p true i (p_init p)) as [[[r0 j] s0]| |]; simpl; auto. }
    eapply fits_state; [| |exact F]; simpl; auto.
Qed.
Lemma chunk_disp_later x a n h {S SS A} (Cln1 : bool -> S -> Prop) Cln2 Res2 (d : disp (C:=C) A SS) : chunk_by x a n h Cln2 Res2 (dispatch d) ->
  (forall s, Cln1 true s -> Cln1 false s) -> chunk_by x a n h (dcln Cln1 Cln2) (dres Res2) (dispatch (DN d)).
Proof.
  intros H HC. constructor; simpl; auto; try apply (cb_adderr H).
  - intros [[s|s]|]; simpl; auto. apply (cb_cln H).
  - intros f pos [[s|s]|]; simpl; auto. apply (cb_res H).
  - intros Ha f pos l k [[s|s]|]; simpl; [tauto|apply (cb_atomic H Ha)|tauto].
  - intros t Ht. exact Ht.
  - intros f first pos l k r' st St out E0.
    set (s := match st with Some (inr s) => Some s | _ => None end) in *.
    assert (St' : started Cln2 Res2 f first pos l k s).
    { destruct first; simpl in *.
      - destruct St as [K1 [K2 K3]]. split; [exact K1|]. split; [exact K2|]. unfold s. destruct st as [[s1|s1]|]; [apply (cb_init H)|exact K3|apply (cb_init H)].
      - unfold s. destruct st as [[s1|s1]|]; [|exact St|]; destruct St as [-> ->]; apply (cb_res H); apply (cb_init H). }
    destruct (disp_run d first (Inp (k ++ r') (pos_after pos l) f) s) as [[[r i1] s1]| |] eqn:E1; try discriminate. inversion E0; subst out.
    pose proof (cb_run H _ _ _ _ _ _ _ St' _ E1) as F. apply disp_run_some in E1. destruct s1 as [s1|]; [|congruence].
    apply fits_beh with (b := fresh (dispatch d)).
    { intros i. unfold fresh. simpl. destruct (disp_run d true i None) as [[[r0 j] s0]| |]; simpl; auto. }
    eapply fits_state; [| |exact F]; simpl; auto.
Qed.

Lemma chunk_cln x a n h {S A} Cln Cln' Res (p : parser C S A) : (forall f s, Cln' f s <-> Cln f s) -> chunk_by x a n h Cln Res p ->
  chunk_by x a n h Cln' Res p.
Proof.
  intros HE H. constructor; try apply H.
  - intros f. apply HE. apply (cb_init H).
  - intros s Hs. apply HE. apply (cb_cln H). apply HE. exact Hs.
  - intros f pos s Hs. apply (cb_res H). apply HE. exact Hs.
  - intros f first pos l k r' s St out E0.
    assert (St' : started Cln Res f first pos l k s) by (destruct first; simpl in *; [rewrite <- HE; exact St|exact St]).
    pose proof (cb_run H _ _ _ _ _ _ _ St' _ E0) as F. destruct out as [[res i'] s']. eapply fits_state; [| |exact F]; auto. apply HE.
Qed.

(** The largest of the predicates on suspended states. *)
Definition big x a n h {S A} Cln (p : parser C S A) : bool -> Pos C -> list T -> list T -> S -> Prop :=
  fun f pos l k s => exists Res, chunk_by x a n h Cln Res p /\ Res f pos l k s.
Lemma chunk_big x a n h {S A} Cln Res (p : parser C S A) : chunk_by x a n h Cln Res p -> chunk_by x a n h Cln (big x a n h Cln p) p.
Proof.
  intros H. constructor; try apply H.
  - intros f pos s Hs. exists Res. split; [exact H|]. apply (cb_res H). exact Hs.
  - intros Ha f pos l k s [R [H1 H2]]. apply (cb_atomic H1 Ha _ _ _ _ _ H2).
  - intros f first pos l k r' s St out E0.
    assert (K : exists R, chunk_by x a n h Cln R p /\ started Cln R f first pos l k s).
    { destruct first; [exists Res; auto|exact St]. }
    destruct K as [R [K1 K2]]. pose proof (cb_run K1 _ _ _ _ _ _ _ K2 _ E0) as F. destruct out as [[res i'] s'].
    eapply fits_state; [| |exact F]; auto. intros g l0 k0 HR. exists R. auto.
Qed.

Variable EL : eoi_laws C.
Variable L : lawful C.
Variable D : pos_distinct C.

Definition sound x a n h {J S A} (f : J -> parser C S A) : Prop := exists Cln, forall j, exists Res, chunk_by x a n h Cln Res (f j).
Definition sound_tup x n h {J SS B} (t : J -> tup (C:=C) SS B) : Prop := exists Cln, forall j, exists Res, tail_by x n h Cln Res (t j).
Definition sound_alts x a n h {J A SS} (t : J -> alts (C:=C) A SS) : Prop := forall j, exists Res, alt_by x a n h Res (t j).

Ltac one := let Cln := fresh "Cln" in let IH := fresh "IH" in let j := fresh "j" in let Res := fresh "Res" in let K := fresh "K" in
  intros; match goal with Q : sound _ _ _ _ ?f |- _ => destruct Q as [Cln IH] end; eexists; intros j; destruct (IH j) as [Res K]; eexists.

Lemma chunkable_sound :
  (forall x a n h J S A (f : J -> parser C S A), chunkable x a n h f -> sound x a n h f) /\
  (forall x n h J SS B (t : J -> tup (C:=C) SS B), chunkable_tup x n h t -> sound_tup x n h t) /\
  (forall x a n h J A SS (t : J -> alts (C:=C) A SS), chunkable_alts x a n h t -> sound_alts x a n h t).
Proof.
  apply chunkable_ind3.
  - one. eapply chunk_weak; [| | | |exact K]; auto.
  - intros x a n h J K0 S A f g _ [Cln IH]. exists Cln. intros k. apply IH.
  - intros. eexists. intros j. eexists. apply chunk_any; auto.
  - intros. eexists. intros j. eexists. apply chunk_satisfy; auto.
  - intros. eexists. intros j. eexists. apply chunk_satisfy_map; auto.
  - intros. eexists. intros j. eexists. apply chunk_token; auto.
  - intros. eexists. intros j. eexists. apply chunk_one_of; auto.
  - intros. eexists. intros j. eexists. apply chunk_none_of; auto.
  - intros. eexists. intros j. eexists. apply chunk_value; auto.
  - intros. eexists. intros j. eexists. apply chunk_produce; auto.
  - intros. eexists. intros j. eexists. apply chunk_position; auto.
  - intros. eexists. intros j. eexists. apply chunk_take_while; auto.
  - intros. eexists. intros j. eexists. apply chunk_take_while1; auto.
  - intros J g SL. eexists. intros j. eexists. eapply chunk_weak; [| | | |apply chunk_take; auto]; auto; discriminate.
  - intros J g SL HN. eexists. intros j. eexists. eapply chunk_weak; [| | | |apply chunk_take; auto]; auto. intros _. apply negb_true_iff. apply Nat.eqb_neq. apply HN.
  - intros J g SL HN. eexists. intros j. eexists. apply chunk_range; auto.
  - intros J A code k dec HN. eexists. intros j. eexists. apply chunk_num_parser; auto.
  - intros J g SL H1 H2. eexists. intros j. eexists. apply (chunk_take_fn EL SL (g j)); auto.
  - intros J g SL HN. eexists. intros j. eexists. apply chunk_take_until_range; auto.
  - intros J code needle SL HN. exists zcln. intros j. exact (chunk_take_until_bytes EL SL (code j) (needle j) (HN j)).
  - intros n h J S A f _ [Cln IH] HF. eexists. intros j. destruct (IH j) as [Res K]. eexists. eapply chunk_recognize_with_value; eauto.
  - intros x a n h J S A f _ [Cln IH] HF. eexists. intros j. destruct (IH j) as [Res K]. eexists. eapply chunk_recognize; eauto.
  - one. eapply chunk_message; eauto.
  - one. eapply chunk_expected; eauto.
  - one. eapply chunk_silent; eauto.
  - one. eapply chunk_map; eauto.
  - one. eapply chunk_flat_map; eauto.
  - one. eapply chunk_and_then; eauto.
  - one. eapply chunk_from_str; eauto.
  - one. eapply chunk_ignore; eauto.
  - one. eapply chunk_lazy_; eauto.
  - one. eapply chunk_factory; eauto.
  - one. eapply chunk_opaque; eauto.
  - one. eapply chunk_by_ref; eauto.
  - one. eapply chunk_parser_fn; eauto.
  - one. eapply chunk_parser_fn0; eauto.
  - intros J text g cmp HN. eexists. intros j. eexists. apply chunk_string_cmp; auto.
  - intros J g cmp HN. eexists. intros j. eexists. apply chunk_bytes_cmp; auto.
  - intros J g HN. eexists. intros j. eexists. apply chunk_bytes; auto.
  - one. eapply chunk_any_partial_state; eauto.
  - one. eapply chunk_spanned; eauto.
  - one. eapply chunk_look_ahead; eauto.
  - one. eapply chunk_no_partial; eauto.
  - one. eapply chunk_optional; eauto.
  - intros x a n h J J1 J2 S1 S2 A p q g _ [Cln1 IH1] _ [Cln2 IH2]. exists (eicln (fun f s => Cln1 f s /\ inhabited J1) (fun f s => Cln2 f s /\ inhabited J2)).
    intros j. destruct (g j) as [k|k].
    + destruct (IH1 k) as [Res K]. exists (lres Res).
      apply chunk_left.
      * apply (chunk_cln _ _ _ _ Cln1); [|exact K]. intros f s. split; [tauto|]. intros Hs. split; [exact Hs|constructor; exact k].
      * intros s [Hs [k2]]. destruct (IH2 k2) as [R2 K2]. split; [apply (cb_cln K2); exact Hs|constructor; exact k2].
    + destruct (IH2 k) as [Res K]. exists (rres_ Res). apply chunk_right.
      * apply (chunk_cln _ _ _ _ Cln2); [|exact K]. intros f s. split; [tauto|]. intros Hs. split; [exact Hs|constructor; exact k].
      * intros s [Hs [k2]]. destruct (IH1 k2) as [R2 K2]. split; [apply (cb_cln K2); exact Hs|constructor; exact k2].
  - intros x a n h J S A f f' _ [Cln IH] HE. exists Cln. intros j. rewrite HE. apply IH.
  - intros x a n h J S A f HJ. exists (fun _ _ => True). intros j. destruct (HJ j).
  - intros x a n h J J1 J2 S SS A p d g _ [Cln1 IH1] _ [Cln2 IH2]. exists (dcln (fun f s => Cln1 f s /\ inhabited J1) (fun f s => Cln2 f s /\ inhabited J2)).
    intros j. destruct (g j) as [k|k].
    + destruct (IH1 k) as [Res K]. exists (lres Res).
      apply chunk_disp_here.
      * apply (chunk_cln _ _ _ _ Cln1); [|exact K]. intros f s. split; [tauto|]. intros Hs. split; [exact Hs|constructor; exact k].
      * intros s [Hs [k2]]. destruct (IH2 k2) as [R2 K2]. split; [apply (cb_cln K2); exact Hs|constructor; exact k2].
    + destruct (IH2 k) as [Res K]. exists (dres Res). apply chunk_disp_later.
      * apply (chunk_cln _ _ _ _ Cln2); [|exact K]. intros f s. split; [tauto|]. intros Hs. split; [exact Hs|constructor; exact k].
      * intros s [Hs [k2]]. destruct (IH1 k2) as [R2 K2]. split; [apply (cb_cln K2); exact Hs|constructor; exact k2].
  - intros x n h J SS B t _ [Cln IH]. eexists. intros j. destruct (IH j) as [Res K]. eexists. eapply chunk_tuple; eauto.
  - intros x1 a1 n1 h1 x2 a2 n2 h2 J S1 A S2 B p q _ [Cln1 IH1] _ [Cln2 IH2]. eexists. intros j. destruct (IH1 j) as [Res1 K1]. destruct (IH2 j) as [Res2 K2].
    eexists. eapply chunk_with; eauto.
  - intros x1 a1 n1 h1 x2 a2 n2 h2 J S1 A S2 B p q _ [Cln1 IH1] _ [Cln2 IH2]. eexists. intros j. destruct (IH1 j) as [Res1 K1]. destruct (IH2 j) as [Res2 K2].
    eexists. eapply chunk_skip; eauto.
  - intros x1 a1 n1 h1 x2 a2 n2 h2 J S1 A S2 B p s0 q _ [Cln1 IH1] _ [Cln2 IH2] HI. eexists. intros j. destruct (IH1 j) as [Res1 K1].
    eexists. eapply (chunk_then EL); [exact K1| |intros v; apply HI].
    intros v. destruct (IH2 (j, v)) as [Res2 K2]. exact (chunk_big _ _ _ _ _ _ _ K2).
  - intros x1 a1 n1 h1 x2 a2 n2 h2 J S1 A S2 B p s0 q _ [Cln1 IH1] _ [Cln2 IH2] HI. eexists. intros j. destruct (IH1 j) as [Res1 K1].
    eexists. unfold then_ref. eapply (chunk_then EL); [exact K1| |intros v; apply HI].
    intros v. destruct (IH2 (j, v)) as [Res2 K2]. eapply chunk_big. eapply chunk_pair. exact K2.
  - intros x a n h J A SS t _ IH. exists chcln. intros j. destruct (IH j) as [R K]. eexists. eapply chunk_choice; eauto.
  - intros x1 a1 n1 h1 x2 a2 n2 h2 J S1 S2 A p q _ [Cln1 IH1] _ [Cln2 IH2]. eexists. intros j. destruct (IH1 j) as [Res1 K1]. destruct (IH2 j) as [Res2 K2].
    eexists. eapply chunk_or; eauto.
  - intros a n h J S A f _ [Cln IH] HF. eexists. intros j. destruct (IH j) as [Res K]. eexists. eapply chunk_many; eauto.
  - intros a n h J S A f _ [Cln IH] HF. eexists. intros j. destruct (IH j) as [Res K]. eexists. eapply chunk_many1; eauto.
  - intros a n h J S A f mn mx _ [Cln IH] HF Hm. eexists. intros j. destruct (IH j) as [Res K]. eexists. eapply chunk_count_min_max; eauto.
  - intros a n h J S A f mn mx _ [Cln IH] HF Hm. eexists. intros j. destruct (IH j) as [Res K]. eexists.
    eapply chunk_weak; [| | | |eapply chunk_count_min_max; eauto]; discriminate.
  - intros x a n h J X S A q items s0 Clean _ [Cln IH] HN H0 HI HR. eexists. intros j. eexists.
    eapply (chunk_iterate x a n h Cln (fun v => big x a n h Cln (q (j, v)))) with (Clean := Clean); auto.
    intros v. destruct (IH (j, v)) as [Res K]. eapply chunk_big. exact K.
  - intros a1 n1 h1 a2 n2 h2 J S1 S2 A B p s _ [Cln1 IH1] _ [Cln2 IH2] HP HS. eexists. intros j. destruct (IH1 j) as [Res1 K1]. destruct (IH2 j) as [Res2 K2].
    eexists. eapply (chunk_sep_end_by1 EL); eauto.
  - intros a1 n1 h1 a2 n2 h2 J S1 S2 A B p s _ [Cln1 IH1] _ [Cln2 IH2] HP HS. exists chcln. intros j. destruct (IH1 j) as [Res1 K1]. destruct (IH2 j) as [Res2 K2].
    eapply (chunk_sep_end_by EL L D); eauto.
  - intros x1 a1 h1 a2 n2 h2 J S1 S2 A p op _ [Cln1 IH1] _ [Cln2 IH2] HP HS HST. eexists. intros j. destruct (IH1 j) as [Res1 K1]. destruct (IH2 j) as [Res2 K2].
    eexists. eapply (chunk_chainl1 EL); eauto.
  - intros x a n h J S A f _ [Cln IH]. eexists. intros j. destruct (IH j) as [Res K]. eexists. eapply tail_one; eauto.
  - intros x a n h x2 n2 h2 J S A SS B f t _ [Cln1 IH1] _ [Cln2 IH2]. eexists. intros j. destruct (IH1 j) as [Res1 K1]. destruct (IH2 j) as [Res2 K2].
    eexists. eapply tail_cons; eauto.
  - intros x a n h J S A f _ [Cln IH] j. destruct (IH j) as [Res K]. eexists. eapply alt_one; eauto.
  - intros x a n h x2 a2 n2 h2 J S A SS f t _ [Cln IH] _ IH2 j. destruct (IH j) as [Res K]. destruct (IH2 j) as [Ralt K2]. eexists. eapply alt_cons; eauto.
Qed.

(** * Sessions *)
Lemma augment_eoi x a n h {S A} Cln Res (p : parser C S A) : chunk_by x a n h Cln Res p -> forall t r pos, e_is_eoi C (terr t) = false -> r <> [] ->
  e_is_eoi C (terr (augment_err (p_adderr p) (Inp r pos true) t)) = false.
Proof.
  intros H t r pos Ht Hr. unfold augment_err. destruct r as [|u r]; [congruence|]. simpl. apply (cb_adderr H). destruct t as [e o]. simpl in *.
  unfold e_add_unexpected. rewrite (el_add EL), Ht, (el_unexpected EL). reflexivity.
Qed.

Section Session.
Context {S A : Type} (x a n h : bool) (Cln : bool -> S -> Prop) (Res : bool -> Pos C -> list T -> list T -> S -> Prop) (p : parser C S A).
Hypothesis H : chunk_by x a n h Cln Res p.
Variable IoE : Type.

Lemma session_chunk st pos0 l k st1 pos b c cs used (fin : ending (C:=C) IoE A) st' pos' b' eof eof' :
  session p st pos b eof cs used fin st' pos' b' eof' -> pos = pos_after pos0 l -> b = k ++ c -> st = st1 -> (forall g, (eof = true -> g = false) -> Res g pos0 l k st1) ->
  (forall more, (eof' = true -> more = []) -> whole_answer p pos0 (l ++ b ++ concat cs) fin b' more) /\
  match fin with EndValue _ => forall g, (eof' = true -> g = false) -> Cln g st' | _ => True end.
Proof.
  intros HS. revert l k c st1. induction HS as [st pos b eof used v st' b' E1 E2|st pos b eof e st' b' pos' E1 E2|st pos b used e st' b' ioe E1 E2 E3
    |st pos b used e st1 b1 bs cs used2 fin st' pos' b' eof' E1 E2 E3 E4 HS IH|st pos b used e st1 b1 cs used2 fin st' pos' b' eof' E1 E2 E3 HS IH];
    intros l k c st2 HP HB HST HR; subst st2 pos; simpl.
  - unfold call_value, parse_with_state, parse_stream_partial in E2. rewrite HB in E2.
    destruct (p_run p false (Inp (k ++ c) (pos_after pos0 l) (negb eof)) st) as [[[r i'] s']| |] eqn:Q; try discriminate. simpl in E2.
    assert (HE : eof = true -> negb eof = false) by (intros ->; reflexivity).
    pose proof (cb_run H _ false _ _ _ _ _ (HR (negb eof) HE) _ Q) as F. unfold fits in F.
    assert (K : value_of r = Some v /\ i' = Inp b' (pos_after (pos_after pos0 l) used) (negb eof) /\ s' = st').
    { destruct r as [w|w|e|e]; simpl in E2; inversion E2; subst; auto. }
    destruct K as [K1 [K2 KS]]. subst s'. split.
    2: { assert (KC : Cln (negb eof) st') by (destruct r; try discriminate; apply F).
         intros [] Hg; destruct eof; simpl in KC; try exact KC; [discriminate (Hg eq_refl)|]. apply (cb_cln H). exact KC. }
    intros more HM.
    assert (K3 : exists r1, k ++ c = r1 ++ rest i' /\ always_ok (negb eof) (fresh p) pos0 (l ++ r1) (rest i') v).
    { destruct r as [w|w|e|e]; try discriminate; inversion K1; subst w; destruct F as [[r1 [F1 [F2 [F3 F4]]]] _]; exists r1; auto. }
    destruct K3 as [r1 [K3 K4]]. subst i'. simpl in *. assert (used = r1). { rewrite <- HB, E1 in K3. apply app_inv_tail in K3. exact K3. } subst r1 b.
    intros r3 i3 R. rewrite app_nil_r in R. replace ((l ++ used ++ b') ++ more) with ((l ++ used) ++ b' ++ more) in R by (rewrite <- !app_assoc; reflexivity).
    destruct (K4 more) with (r := r3) (i' := i3) as [R1 R2]; [destruct eof; [right; auto|left; reflexivity]|exact R|].
    exists (l ++ used). rewrite app_nil_r, <- app_assoc. auto.
  - unfold call_error, parse_with_state, parse_stream_partial in E1. rewrite HB in E1.
    destruct (p_run p false (Inp (k ++ c) (pos_after pos0 l) (negb eof)) st) as [[[r i'] s']| |] eqn:Q; try discriminate. simpl in E1.
    assert (HE : eof = true -> negb eof = false) by (intros ->; reflexivity).
    pose proof (cb_run H _ false _ _ _ _ _ (HR (negb eof) HE) _ Q) as F. unfold fits in F.
    assert (K : exists c0, always_err (negb eof) (fresh p) pos0 (l ++ k ++ c) c0).
    { destruct r as [w|w|e0|e0]; simpl in E1; try discriminate.
      - inversion E1; subst. destruct F as [[F1 [F2 _]]|[_ F]]; [|exists true; exact F]. destruct E2 as [E2|E2]; [subst eof; discriminate|congruence].
      - destruct F as [_ [_ [_ [_ F]]]]. eauto. }
    destruct K as [c0 K]. split; [|exact I]. intros more HM r3 i3 R. rewrite app_nil_r, HB in R. destruct (K more) with (r := r3) (i' := i3) as [R1 R2]; auto.
    destruct eof; [right; auto|left; reflexivity].
  - split; [|exact I]. intros more _ r i' _. exact I.
  - unfold call_error, parse_with_state, parse_stream_partial in E2. rewrite HB in E2.
    destruct (p_run p false (Inp (k ++ c) (pos_after pos0 l) true) st) as [[[r i'] s']| |] eqn:Q; try discriminate. simpl in E2.
    assert (HE : false = true -> true = false) by discriminate.
    pose proof (cb_run H _ false _ _ _ _ _ (HR true HE) _ Q) as F. unfold fits in F.
    destruct r as [w|w|e0|e0]; simpl in E2; try discriminate.
    + inversion E2; subst. destruct F as [[F1 [F2 [r1 [F3 [F4 [F5 F6]]]]]]|[F _]]; [|destruct (F eq_refl); congruence]. simpl in *.
      assert (used = r1). { rewrite <- HB in F3. apply app_inv_tail in F3. exact F3. } subst r1.
      specialize (IH (l ++ used) b1 bs st1). rewrite pos_after_app in IH. specialize (IH eq_refl eq_refl eq_refl (fun g _ => F6 g)).
      rewrite <- !app_assoc in *. exact IH.
    + exfalso. destruct F as [_ [F _]]. destruct (F eq_refl) as [F1 F2]. inversion E2; subst. rewrite (augment_eoi _ _ _ _ _ _ _ H) in E3; auto. discriminate.
  - unfold call_error, parse_with_state, parse_stream_partial in E2. rewrite HB in E2.
    destruct (p_run p false (Inp (k ++ c) (pos_after pos0 l) true) st) as [[[r i'] s']| |] eqn:Q; try discriminate. simpl in E2.
    assert (HE : false = true -> true = false) by discriminate.
    pose proof (cb_run H _ false _ _ _ _ _ (HR true HE) _ Q) as F. unfold fits in F.
    destruct r as [w|w|e0|e0]; simpl in E2; try discriminate.
    + inversion E2; subst. destruct F as [[F1 [F2 [r1 [F3 [F4 [F5 F6]]]]]]|[F _]]; [|destruct (F eq_refl); congruence]. simpl in *.
      assert (used = r1). { rewrite <- HB in F3. apply app_inv_tail in F3. exact F3. } subst r1.
      specialize (IH (l ++ used) b1 [] st1). rewrite pos_after_app, app_nil_r in IH. specialize (IH eq_refl eq_refl eq_refl (fun g _ => F6 g)).
      rewrite <- !app_assoc in *. exact IH.
    + exfalso. destruct F as [_ [F _]]. destruct (F eq_refl) as [F1 F2]. inversion E2; subst. rewrite (augment_eoi _ _ _ _ _ _ _ H) in E3; auto. discriminate.
Qed.
End Session.

Lemma ready_cln {S A} x a n h Cln Res (p : parser C S A) IoE : chunk_by x a n h Cln Res p -> forall st eof, ready IoE p st eof ->
  forall g, (eof = true -> g = false) -> Cln g st.
Proof.
  intros H st eof HR. induction HR as [eof|st eof pos b cs used v st' pos' b' eof' HR IH HS].
  - intros g _. apply (cb_init H).
  - assert (K : forall g, (eof = true -> g = false) -> Res g pos [] [] st) by (intros g Hg; apply (cb_res H); auto).
    apply (session_chunk _ _ _ _ _ _ _ H IoE _ pos [] [] st pos b b cs used _ _ _ _ _ _ HS eq_refl eq_refl eq_refl K).
Qed.

Lemma session_whole x a n h {S A} (p : parser C S A) IoE : chunkable x a n h (fun _ : unit => p) ->
  forall st pos b cs used (fin : ending (C:=C) IoE A) st' pos' b' eof eof', ready IoE p st eof -> session p st pos b eof cs used fin st' pos' b' eof' ->
  forall more, (eof' = true -> more = []) -> whole_answer p pos (b ++ concat cs) fin b' more.
Proof.
  intros HC. destruct chunkable_sound as [CS _]. destruct (CS _ _ _ _ _ _ _ _ HC) as [Cln HK]. destruct (HK tt) as [Res H].
  intros st pos b cs used fin st' pos' b' eof eof' HR HS.
  apply (session_chunk _ _ _ _ _ _ _ H IoE _ pos [] [] st pos b b cs used fin st' pos' b' eof eof' HS); auto.
  intros g Hg. apply (cb_res H). eapply ready_cln; eauto.
Qed.
End Sound.

(** * The library's error types satisfy the laws *)
Lemma eoi_laws_unexpected T fl d : eoi_laws (cfg_unexpected T fl d).
Proof. constructor; simpl; auto. intros [] []; reflexivity. Qed.
Lemma eoi_laws_string T fl d : eoi_laws (cfg_string T fl d).
Proof.
  constructor; simpl; auto.
  - intros x. destruct x; simpl; auto. destruct (String.eqb s char_boundary_msg); reflexivity.
  - intros [] []; reflexivity.
Qed.

Section EasyLaws.
Variable T : TokCfg.
Notation is1 := (easy1_is_eoi T).
Lemma easy1_eoi_iff e : is1 e = true <-> e = EUnexpected (IStatic "end of input") \/ e = EUnexpected (IFormat "end of input").
Proof.
  unfold easy1_is_eoi, easy_eoi. destruct e as [x|x|x|s]; simpl; try (split; [discriminate|intros [K|K]; discriminate]).
  destruct x; simpl; try (split; [discriminate|intros [K|K]; discriminate]).
  - rewrite String.eqb_eq. split; [intros ->; auto|intros [K|K]; inversion K; auto].
  - rewrite String.eqb_eq. split; [intros ->; auto|intros [K|K]; inversion K; auto].
Qed.
Lemma easy_add_eoi es e : easy_is_eoi T (easy_add T es e) = easy_is_eoi T es || is1 e.
Proof.
  unfold easy_add. destruct (forallb _ _) eqn:F; unfold easy_is_eoi; simpl.
  - rewrite existsb_app. simpl. rewrite orb_false_r. reflexivity.
  - destruct (is1 e) eqn:He; [|rewrite orb_false_r; reflexivity]. rewrite orb_true_r.
    apply not_true_iff_false in F. rewrite forallb_forall in F. apply easy1_eoi_iff in He.
    destruct (existsb is1 (elist es)) eqn:X; [reflexivity|]. exfalso. apply F. intros y Hy.
    assert (is1 y = false). { apply not_true_iff_false. intros K. apply not_true_iff_false in X. apply X. apply existsb_exists. eauto. }
    rewrite negb_true_iff. apply not_true_iff_false. intros K. apply not_true_iff_false in H. apply H.
    unfold easy1_is_eoi, easy_eoi. destruct He as [-> | ->]; destruct y as [z|z|z|z]; simpl in *; try discriminate; destruct z; simpl in *; auto.
Qed.
Lemma eoi_laws_easy fl d : eoi_laws (cfg_easy T fl d).
Proof.
  constructor; try (simpl; auto; fail).
  - simpl. intros p s. unfold easy_is_eoi. simpl. apply orb_false_r.
  - exact easy_add_eoi.
  - simpl. intros a b Ha Hb. unfold easy_merge. destruct (t_pos_cmp T (eposition a) (eposition b)); auto.
    unfold easy_is_eoi in Hb. revert a Ha. induction (elist b) as [|e l IH]; simpl in *; auto. apply orb_false_iff in Hb. destruct Hb as [H1 H2].
    intros a Ha. apply IH; auto. rewrite easy_add_eoi, Ha, H1. reflexivity.
  - simpl. intros t s f Ht Hs Hf. unfold easy_set_expected. cbn [terr]. rewrite easy_add_eoi, Hs, orb_false_r.
    specialize (Hf t Ht). unfold easy_is_eoi in *. cbn [elist]. apply not_true_iff_false. intros K. apply existsb_exists in K. destruct K as [y [K1 K2]].
    apply not_true_iff_false in Hf. apply Hf. apply existsb_exists. exists y. split; [|exact K2]. apply in_app_or in K1.
    rewrite <- (firstn_skipn (length (elist (terr t))) (elist (terr (f t)))). apply in_or_app. destruct K1 as [K1|K1]; [left; exact K1|right].
    apply filter_In in K1. apply K1.
  - simpl. intros e. unfold easy_is_eoi, easy_clear_expected. simpl. induction (elist e) as [|y l IH]; simpl; auto.
    destruct y; simpl; rewrite ?IH; auto.
Qed.
End EasyLaws.
