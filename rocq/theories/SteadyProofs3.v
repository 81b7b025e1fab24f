(** Proofs for C74: every parser of the class; sessions that come to an end. *)
From Coq Require Import String List Bool Arith NArith Lia.
Import ListNotations.
From Verif Require Import Base Parser Token Combinator Sequence Choice Repeat RangeP ByteP Spec SeqSpec ChoiceSpec TidySpec RepeatSpec AgreeSpec.
From Verif Require Import ResultProofs SeqProofs CombProofs ChoiceProofs CombProofs2 RepeatProofs ForwardProofs ChunkSpec ChunkProofs ChunkProofs2 ChunkProofs3 ChunkProofs4 ChunkProofs5 ChunkProofs6 ChunkProofs7 ChunkProofs8 ChunkProofs9 ChunkProofs10 ChunkProofs11.
From Verif Require Import DecodeSpec TotalSpec TotalProofs TotalProofs2 SteadySpec SteadyProofs SteadyProofs2 SteadyProofs5 ChunkProofs12 ChunkProofs13 ChunkProofs14 ChunkProofs15.
Unset Implicit Arguments.

Section Steady3.
Context {C : Cfg}.
Notation T := (tok C).
Notation E := (Err C).
Notation few := (TotalSpec.fits).

(** The class is part of C29's. *)
Lemma steady_chunkable z :
  (forall x a n h J S A (f : J -> parser C S A), steady z x a n h f -> chunkable x a n h f) /\
  (forall x n h J SS B (t : J -> tup (C:=C) SS B), steady_tup z x n h t -> chunkable_tup x n h t) /\
  (forall x a n h J A SS (t : J -> alts (C:=C) A SS), steady_alts z x a n h t -> chunkable_alts x a n h t).
Proof.
  apply steady_ind3; intros.
  - eapply ck_weak; eauto.
  - eapply ck_index; eauto.
  - eapply ck_any; eauto.
  - eapply ck_satisfy; eauto.
  - eapply ck_satisfy_map; eauto.
  - eapply ck_token; eauto.
  - eapply ck_one_of; eauto.
  - eapply ck_none_of; eauto.
  - eapply ck_value; eauto.
  - eapply ck_produce; eauto.
  - eapply ck_position; eauto.
  - eapply ck_take_while; eauto.
  - eapply ck_take_while1; eauto.
  - eapply ck_take; eauto.
  - eapply ck_take_some; eauto.
  - eapply ck_range; eauto.
  - eapply ck_num_parser; eauto.
  - eapply ck_take_fn; eauto.
  - eapply ck_take_until_range; eauto.
  - eapply ck_take_until_bytes; eauto.
  - eapply ck_recognize_with_value; eauto.
  - eapply ck_recognize; eauto.
  - eapply ck_message; eauto.
  - eapply ck_expected; eauto.
  - eapply ck_silent; eauto.
  - eapply ck_map; eauto.
  - eapply ck_flat_map; eauto.
  - eapply ck_and_then; eauto.
  - eapply ck_from_str; eauto.
  - eapply ck_ignore; eauto.
  - eapply ck_lazy; eauto.
  - eapply ck_factory; eauto.
  - eapply ck_opaque; eauto.
  - eapply ck_by_ref; eauto.
  - eapply ck_parser_fn; eauto.
  - eapply ck_parser_fn0; eauto.
  - eapply ck_string; eauto.
  - eapply ck_bytes_cmp; eauto.
  - eapply ck_bytes; eauto.
  - eapply ck_any_partial_state; eauto.
  - eapply ck_spanned; eauto.
  - eapply ck_look_ahead; eauto.
  - eapply ck_no_partial; eauto.
  - eapply ck_optional; eauto.
  - eapply ck_either; eauto.
  - eapply ck_ext; eauto.
  - eapply ck_none; eauto.
  - eapply ck_dispatch; eauto.
  - eapply ck_tuple; eauto.
  - eapply ck_with; eauto.
  - eapply ck_skip; eauto.
  - eapply ck_then; eauto.
  - eapply ck_then_ref; eauto.
  - eapply ck_choice; eauto.
  - eapply ck_or; eauto.
  - eapply ck_many; eauto.
  - eapply ck_many1; eauto.
  - eapply ck_count_min_max; eauto.
  - eapply ck_count_by; eauto.
  - eapply ck_iterate; eauto.
  - eapply ck_sep_end_by1; eauto.
  - eapply ck_sep_end_by; eauto.
  - eapply ck_chainl1; eauto.
  - eapply ck_T1; eauto.
  - eapply ck_TC; eauto.
  - eapply ck_AL; eauto.
  - eapply ck_AC; eauto.
Qed.

Variable z : nat.
(** The largest of the predicates on suspended states from which runs return. *)
Definition bigr x a n h {S A} Cln (p : parser C S A) : bool -> Pos C -> list T -> list T -> S -> Prop :=
  fun f pos l k s => exists Res, chunk_by x a n h Cln Res p /\ ret_by z Cln Res p /\ Res f pos l k s.
Lemma chunk_bigr x a n h {S A} Cln Res (p : parser C S A) : chunk_by x a n h Cln Res p -> ret_by z Cln Res p -> chunk_by x a n h Cln (bigr x a n h Cln p) p.
Proof.
  intros H HR. constructor; try apply H.
  - intros f pos s Hs. exists Res. split; [exact H|]. split; [exact HR|]. apply (cb_res H). exact Hs.
  - intros Ha f pos l k s [R [H1 [_ H2]]]. apply (cb_atomic H1 Ha _ _ _ _ _ H2).
  - intros f first pos l k r' s St out E0.
    assert (K : exists R, chunk_by x a n h Cln R p /\ ret_by z Cln R p /\ started Cln R f first pos l k s).
    { destruct first; [exists Res; auto|exact St]. }
    destruct K as [R [K1 [K0 K2]]]. pose proof (cb_run K1 _ _ _ _ _ _ _ K2 _ E0) as F. destruct out as [[res i'] s'].
    eapply fits_state; [| |exact F]; auto. intros g l0 k0 HS. exists R. auto.
Qed.
Lemma ret_bigr x a n h {S A} Cln Res (p : parser C S A) : chunk_by x a n h Cln Res p -> ret_by z Cln Res p -> ret_by z Cln (bigr x a n h Cln p) p.
Proof.
  intros H HR f first pos l k r' s St Hf. destruct first.
  - apply HR; [exact St|exact Hf].
  - destruct St as [R [_ [K1 K2]]]. apply K1; [exact K2|exact Hf].
Qed.

Variable EL : eoi_laws C.
Variable L : lawful C.
Variable D : pos_distinct C.

Definition both x a n h {S A} Cln Res (p : parser C S A) : Prop := chunk_by x a n h Cln Res p /\ ret_by z Cln Res p.
Definition well x a n h {J S A} (f : J -> parser C S A) : Prop := exists Cln, forall j, exists Res, both x a n h Cln Res (f j).
Definition well_tup x n h {J SS B} (t : J -> tup (C:=C) SS B) : Prop := exists Cln, forall j, exists Res, tail_by x n h Cln Res (t j) /\ ret_tail z Cln Res (t j).
Definition well_alts x a n h {J A SS} (t : J -> alts (C:=C) A SS) : Prop := forall j, exists Res, alt_by x a n h Res (t j) /\ ret_alts z Res (t j).

Ltac one := let Cln := fresh "Cln" in let IH := fresh "IH" in let j := fresh "j" in let Res := fresh "Res" in let K := fresh "K" in let R := fresh "R" in
  intros; match goal with Q : well _ _ _ _ ?f |- _ => destruct Q as [Cln IH] end; eexists; intros j; destruct (IH j) as [Res [K R]]; eexists; split.
Ltac leaf := intros; eexists; intros ?j; eexists; split.

Lemma steady_sound :
  (forall x a n h J S A (f : J -> parser C S A), steady z x a n h f -> well x a n h f) /\
  (forall x n h J SS B (t : J -> tup (C:=C) SS B), steady_tup z x n h t -> well_tup x n h t) /\
  (forall x a n h J A SS (t : J -> alts (C:=C) A SS), steady_alts z x a n h t -> well_alts x a n h t).
Proof.
  apply steady_ind3.
  - one; [eapply chunk_weak; [| | | |exact K]; auto|exact R].
  - intros x a n h J K0 S A f g _ [Cln IH]. exists Cln. intros k. apply IH.
  - leaf; [apply chunk_any; auto|apply (ret_lz _ L true true); apply sol_any].
  - leaf; [apply chunk_satisfy; auto|apply (ret_lz _ L true true); apply sol_satisfy].
  - leaf; [apply chunk_satisfy_map; auto|apply (ret_lz _ L true true); apply sol_satisfy_map].
  - leaf; [apply chunk_token; auto|apply (ret_lz _ L true true); apply sol_token].
  - leaf; [apply chunk_one_of; auto|apply (ret_lz _ L true true); apply sol_one_of].
  - leaf; [apply chunk_none_of; auto|apply (ret_lz _ L true true); apply sol_none_of].
  - leaf; [apply chunk_value; auto|apply (ret_lz _ L true false); apply sol_value].
  - leaf; [apply chunk_produce; auto|apply (ret_lz _ L true false); apply sol_produce].
  - leaf; [apply chunk_position; auto|apply (ret_lz _ L true false); apply sol_position].
  - leaf; [apply chunk_take_while; auto|apply (ret_tw _ L false)].
  - leaf; [apply chunk_take_while1; auto|apply (ret_tw _ L true)].
  - intros J g SL. eexists. intros j. eexists. split; [eapply chunk_weak; [| | | |apply chunk_take; auto]; auto; discriminate|].
    eapply (ret_lz _ L true); apply sol_take.
  - intros J g SL HN. eexists. intros j. eexists. split.
    { eapply chunk_weak; [| | | |apply chunk_take; auto]; auto. intros _. apply negb_true_iff. apply Nat.eqb_neq. apply HN. }
    eapply (ret_lz _ L true); apply sol_take.
  - intros J g SL HN. eexists. intros j. eexists. split; [apply chunk_range; auto|]. eapply (ret_lz _ L true); apply sol_range.
  - intros J A code k dec HN. eexists. intros j. eexists. split; [apply chunk_num_parser; auto|]. eapply (ret_lz _ L true); apply sol_num_parser.
  - intros J g SL H1 H2. eexists. intros j. eexists. split; [apply (chunk_take_fn EL SL (g j)); auto|]. apply ret_take_fn.
  - intros J g SL HN. eexists. intros j. eexists. split; [apply chunk_take_until_range; auto|]. apply (ret_take_until_range _ L).
  - intros J code needle SL HN. exists zcln. intros j. destruct (chunk_take_until_bytes EL SL (code j) (needle j) (HN j)) as [Res K]. exists Res. split; [exact K|]. apply (ret_take_fn _ _ zcln Res).
  - intros n h J S A f _ [Cln IH] HF. eexists. intros j. destruct (IH j) as [Res [K R]]. eexists. split; [eapply chunk_recognize_with_value; eauto|]. apply (ret_recognize_with_value _ L). exact R.
  - intros x a n h J S A f _ [Cln IH] HF. eexists. intros j. destruct (IH j) as [Res [K R]]. eexists. split; [eapply chunk_recognize; eauto|]. apply ret_recognize. exact R.
  - one; [eapply chunk_message; eauto|eapply ret_message; eauto].
  - one; [eapply chunk_expected; eauto|eapply ret_expected; eauto].
  - one; [eapply chunk_silent; eauto|eapply ret_silent; eauto].
  - one; [eapply chunk_map; eauto|eapply ret_map; eauto].
  - one; [eapply chunk_flat_map; eauto|eapply ret_flat_map; eauto].
  - one; [eapply chunk_and_then; eauto|eapply ret_and_then; eauto].
  - one; [eapply chunk_from_str; eauto|eapply ret_from_str; eauto].
  - one; [eapply chunk_ignore; eauto|eapply ret_ignore; eauto].
  - one; [eapply chunk_lazy_; eauto|eapply ret_lazy; eauto].
  - one; [eapply chunk_factory; eauto|eapply ret_factory; eauto].
  - one; [eapply chunk_opaque; eauto|eapply ret_opaque; eauto].
  - one; [eapply chunk_by_ref; eauto|eapply ret_by_ref; eauto].
  - one; [eapply chunk_parser_fn; eauto|eapply ret_parser_fn; eauto].
  - one; [eapply chunk_parser_fn0; eauto|eapply ret_parser_fn0; eauto].
  - intros J text g cmp HN. eexists. intros j. eexists. split; [apply chunk_string_cmp; auto|]. apply ret_literal. intros i. cbn. unfold default_lazy, lazy_run. cbn. destruct (tokens_loop (cmp j) (fun e => e) (ipos i) false (g j) i) as [[] ?]; apply returns_done.
  - intros J g cmp HN. eexists. intros j. eexists. split; [apply chunk_bytes_cmp; auto|]. apply ret_literal. intros i. cbn. unfold default_lazy, lazy_run. cbn. destruct (tokens_loop (cmp j) (fun e => e) (ipos i) false (g j) i) as [[] ?]; apply returns_done.
  - intros J g HN. eexists. intros j. eexists. split; [apply chunk_bytes; auto|]. apply ret_literal. intros i. cbn. unfold default_lazy, lazy_run. cbn. destruct (tokens_loop (tok_eqb C) (fun e => e) (ipos i) false (g j) i) as [[] ?]; apply returns_done.
  - one; [eapply chunk_any_partial_state; eauto|eapply ret_any_partial_state; eauto].
  - one; [eapply chunk_spanned; eauto|eapply ret_spanned; eauto].
  - one; [eapply chunk_look_ahead; eauto|eapply ret_look_ahead; eauto].
  - one; [eapply chunk_no_partial; eauto|eapply ret_no_partial; eauto].
  - one; [eapply chunk_optional; eauto|eapply ret_optional; eauto].
  - intros x a n h J J1 J2 S1 S2 A p q g _ [Cln1 IH1] _ [Cln2 IH2]. exists (eicln (fun f s => Cln1 f s /\ inhabited J1) (fun f s => Cln2 f s /\ inhabited J2)).
    intros j. destruct (g j) as [k|k].
    + destruct (IH1 k) as [Res [K R]]. exists (lres Res).
      assert (Q : forall f s, Cln1 f s /\ inhabited J1 <-> Cln1 f s) by (intros f s; split; [tauto|]; intros Hs; split; [exact Hs|constructor; exact k]).
      split.
      * apply chunk_left; [apply (chunk_cln _ _ _ _ Cln1); [exact Q|exact K]|].
        intros s [Hs [k2]]. destruct (IH2 k2) as [R2 [K2 _]]. split; [apply (cb_cln K2); exact Hs|constructor; exact k2].
      * eapply ret_left; [apply (ret_cln _ Cln1); [exact Q|exact R]|apply (chunk_cln _ _ _ _ Cln1); [exact Q|exact K]].
    + destruct (IH2 k) as [Res [K R]]. exists (rres_ Res).
      assert (Q : forall f s, Cln2 f s /\ inhabited J2 <-> Cln2 f s) by (intros f s; split; [tauto|]; intros Hs; split; [exact Hs|constructor; exact k]).
      split.
      * apply chunk_right; [apply (chunk_cln _ _ _ _ Cln2); [exact Q|exact K]|].
        intros s [Hs [k2]]. destruct (IH1 k2) as [R2 [K2 _]]. split; [apply (cb_cln K2); exact Hs|constructor; exact k2].
      * eapply ret_right; [apply (ret_cln _ Cln2); [exact Q|exact R]|apply (chunk_cln _ _ _ _ Cln2); [exact Q|exact K]].
  - intros x a n h J S A f f' _ [Cln IH] HE. exists Cln. intros j. rewrite HE. apply IH.
  - intros x a n h J S A f HJ. exists (fun _ _ => True). intros j. destruct (HJ j).
  - intros x a n h J J1 J2 S SS A p d g _ [Cln1 IH1] _ [Cln2 IH2]. exists (dcln (fun f s => Cln1 f s /\ inhabited J1) (fun f s => Cln2 f s /\ inhabited J2)).
    intros j. destruct (g j) as [k|k].
    + destruct (IH1 k) as [Res [K R]]. exists (lres Res).
      assert (Q : forall f s, Cln1 f s /\ inhabited J1 <-> Cln1 f s) by (intros f s; split; [tauto|]; intros Hs; split; [exact Hs|constructor; exact k]).
      split.
      * apply chunk_disp_here; [apply (chunk_cln _ _ _ _ Cln1); [exact Q|exact K]|].
        intros s [Hs [k2]]. destruct (IH2 k2) as [R2 [K2 _]]. split; [apply (cb_cln K2); exact Hs|constructor; exact k2].
      * eapply ret_disp_here; [apply (ret_cln _ Cln1); [exact Q|exact R]|apply (chunk_cln _ _ _ _ Cln1); [exact Q|exact K]].
    + destruct (IH2 k) as [Res [K R]]. exists (dres Res).
      assert (Q : forall f s, Cln2 f s /\ inhabited J2 <-> Cln2 f s) by (intros f s; split; [tauto|]; intros Hs; split; [exact Hs|constructor; exact k]).
      split.
      * apply chunk_disp_later; [apply (chunk_cln _ _ _ _ Cln2); [exact Q|exact K]|].
        intros s [Hs [k2]]. destruct (IH1 k2) as [R2 [K2 _]]. split; [apply (cb_cln K2); exact Hs|constructor; exact k2].
      * eapply ret_disp_later; [apply (chunk_cln _ _ _ _ Cln2); [exact Q|exact K]|apply (ret_cln _ Cln2); [exact Q|exact R]].
  - intros x n h J SS B t _ [Cln IH]. eexists. intros j. destruct (IH j) as [Res [K R]]. eexists. split; [eapply chunk_tuple; eauto|eapply ret_tuple; eauto].
  - intros x1 a1 n1 h1 x2 a2 n2 h2 J S1 A S2 B p q _ [Cln1 IH1] _ [Cln2 IH2]. eexists. intros j. destruct (IH1 j) as [Res1 [K1 R1]]. destruct (IH2 j) as [Res2 [K2 R2]].
    eexists. split; [eapply chunk_with; eauto|eapply ret_with; eauto].
  - intros x1 a1 n1 h1 x2 a2 n2 h2 J S1 A S2 B p q _ [Cln1 IH1] _ [Cln2 IH2]. eexists. intros j. destruct (IH1 j) as [Res1 [K1 R1]]. destruct (IH2 j) as [Res2 [K2 R2]].
    eexists. split; [eapply chunk_skip; eauto|eapply ret_skip; eauto].
  - intros x1 a1 n1 h1 x2 a2 n2 h2 J S1 A S2 B p s0 q _ [Cln1 IH1] _ [Cln2 IH2] HI. eexists. intros j. destruct (IH1 j) as [Res1 [K1 R1]].
    assert (Q : forall v, both x2 a2 n2 h2 Cln2 (bigr x2 a2 n2 h2 Cln2 (q (j, v))) (q (j, v))).
    { intros v. destruct (IH2 (j, v)) as [Res2 [K2 R2]]. split; [exact (chunk_bigr _ _ _ _ _ _ _ K2 R2)|exact (ret_bigr _ _ _ _ _ _ _ K2 R2)]. }
    eexists. split.
    + eapply (chunk_then EL); [exact K1| |intros v; apply HI]. intros v. apply Q.
    + eapply ret_then; [exact K1| |intros v; apply HI|exact R1|]; intros v; apply Q.
  - intros x1 a1 n1 h1 x2 a2 n2 h2 J S1 A S2 B p s0 q _ [Cln1 IH1] _ [Cln2 IH2] HI. eexists. intros j. destruct (IH1 j) as [Res1 [K1 R1]].
    eexists. unfold then_ref. split.
    + eapply (chunk_then EL); [exact K1| |intros v; apply HI].
      intros v. destruct (IH2 (j, v)) as [Res2 [K2 R2]]. eapply chunk_bigr; [eapply chunk_pair; exact K2|eapply ret_pair; exact R2].
    + eapply ret_then; [exact K1| |intros v; apply HI|exact R1|].
      * intros v. destruct (IH2 (j, v)) as [Res2 [K2 R2]]. eapply chunk_bigr; [eapply chunk_pair; exact K2|eapply ret_pair; exact R2].
      * intros v. destruct (IH2 (j, v)) as [Res2 [K2 R2]]. eapply ret_bigr; [eapply chunk_pair; exact K2|eapply ret_pair; exact R2].
  - intros x a n h J A SS t _ IH. exists chcln. intros j. destruct (IH j) as [R [K Q]]. eexists. split; [eapply chunk_choice; eauto|apply ret_choice; exact Q].
  - intros x1 a1 n1 h1 x2 a2 n2 h2 J S1 S2 A p q _ [Cln1 IH1] _ [Cln2 IH2]. eexists. intros j. destruct (IH1 j) as [Res1 [K1 R1]]. destruct (IH2 j) as [Res2 [K2 R2]].
    eexists. split; [eapply chunk_or; eauto|]. apply ret_choice. eapply ret_alt_cons; eauto. eapply ret_alt_one; eauto.
  - intros a n h c J S A f _ [Cln IH] HF HS. eexists. intros j. destruct (IH j) as [Res [K R]]. eexists. split; [eapply chunk_many; eauto|eapply ret_many; eauto].
  - intros a n h c J S A f _ [Cln IH] HF HS. eexists. intros j. destruct (IH j) as [Res [K R]]. eexists. split; [eapply chunk_many1; eauto|eapply ret_many1; eauto].
  - intros a n h J S A f mn mx _ [Cln IH] HF Hm. eexists. intros j. destruct (IH j) as [Res [K R]]. eexists. split; [eapply chunk_count_min_max; eauto|eapply ret_count_min_max; eauto].
  - intros a n h J S A f mn mx _ [Cln IH] HF Hm. eexists. intros j. destruct (IH j) as [Res [K R]]. eexists.
    split; [eapply chunk_weak; [| | | |eapply chunk_count_min_max; eauto]; discriminate|eapply ret_count_min_max; eauto].
  - intros x a n h J X S A q items s0 Clean _ [Cln IH] HN H0 HI HR. eexists. intros j. eexists. split.
    + eapply (chunk_iterate x a n h Cln (fun v => bigr x a n h Cln (q (j, v)))) with (Clean := Clean); auto.
      intros v. destruct (IH (j, v)) as [Res [K R]]. eapply chunk_bigr; eauto.
    + eapply ret_iterate.
      * intros v. destruct (IH (j, v)) as [Res [K R]]. eapply chunk_bigr; eauto.
      * intros v. destruct (IH (j, v)) as [Res [K R]]. eapply ret_bigr; eauto.
  - intros a1 n1 h1 a2 n2 h2 c1 m1 c2 J S1 S2 A B p s _ [Cln1 IH1] _ [Cln2 IH2] Hp Hs Q1 Q2. eexists. intros j. destruct (IH1 j) as [Res1 [K1 R1]]. destruct (IH2 j) as [Res2 [K2 R2]].
    eexists. split; [eapply (chunk_sep_end_by1 EL); eauto|eapply (ret_sep_end_by1 z EL L); eauto].
  - intros a1 n1 h1 a2 n2 h2 c1 m1 c2 J S1 S2 A B p s _ [Cln1 IH1] _ [Cln2 IH2] Hp Hs Q1 Q2. eexists. intros j. destruct (IH1 j) as [Res1 [K1 R1]]. destruct (IH2 j) as [Res2 [K2 R2]].
    exact (both_sep_end_by z EL L D _ _ _ _ _ _ _ _ _ _ _ _ _ _ _ K1 K2 R1 R2 (Q1 j) (Q2 j) (Hp j) (Hs j)).
  - intros x1 a1 h1 a2 n2 h2 c1 m1 c2 J S1 S2 A p op _ [Cln1 IH1] _ [Cln2 IH2] Hp Ho Hst Q1 Q2. eexists. intros j. destruct (IH1 j) as [Res1 [K1 R1]]. destruct (IH2 j) as [Res2 [K2 R2]].
    eexists. split; [eapply (chunk_chainl1 EL); eauto|eapply (ret_chainl1 z EL L); eauto].
  - intros x a n h J S A f _ [Cln IH]. eexists. intros j. destruct (IH j) as [Res [K R]]. eexists. split; [eapply tail_one; eauto|eapply ret_tail_one; eauto].
  - intros x a n h x2 n2 h2 J S A SS B f t _ [Cln1 IH1] _ [Cln2 IH2]. eexists. intros j. destruct (IH1 j) as [Res1 [K1 R1]]. destruct (IH2 j) as [Res2 [K2 R2]].
    eexists. split; [eapply tail_cons; eauto|eapply ret_tail_cons; eauto].
  - intros x a n h J S A f _ [Cln IH] j. destruct (IH j) as [Res [K R]]. eexists. split; [eapply alt_one; eauto|eapply ret_alt_one; eauto].
  - intros x a n h x2 a2 n2 h2 J S A SS f t _ [Cln IH] _ IH2 j. destruct (IH j) as [Res [K R]]. destruct (IH2 j) as [Ralt [K2 R2]]. eexists.
    split; [eapply alt_cons; eauto|eapply ret_alt_cons; eauto].
Qed.
End Steady3.
