(** Property C27: a success reported as uncommitted has consumed nothing. *)
From Coq Require Import String List Bool Arith NArith Lia.
Import ListNotations.
From Verif Require Import Base Errors Instances Parser Token Combinator Sequence Choice Repeat RangeP ByteP Spec LibSpec AgreeSpec TidySpec StillSpec.
From Verif Require Import LawsProofs LawsProofs2 AgreeProofs TidyProofs ForwardProofs StillProofs Properties1 Properties3.
Unset Implicit Arguments.

Ltac honest_tac := repeat first [ constructor | progress intros | reflexivity ].

(** First or resumed, whatever state is given. *)
Theorem C27_still : forall C, lawful C -> forall S A (p : parser C S A), honest p -> still p.
Proof. intros C L S A p H. exact (stl_run _ (honest_still C L S A p H)). Qed.
Print Assumptions C27_still.
Theorem C27_lazy : forall C, lawful C -> forall S A (p : parser C S A), honest p ->
  forall i a i', p_lazy p i = Done (PeekOk a, i') \/ p_stream p i = Done (PeekOk a, i') -> i' = i.
Proof. intros C L S A p H i a i' [R|R]; [exact (stl_lazy _ (honest_still C L S A p H) _ _ _ R)|exact (stl_stream _ (honest_still C L S A p H) _ _ _ R)]. Qed.
Print Assumptions C27_lazy.

(** A list of items, each an optional pair and some digits: succeeds without having consumed anything although it tried. *)
Definition c27_p := sep_by (C:=BC) (tuple (TC (optional (attempt (tuple (TC (token (C:=BC) 49%N) (T1 (token (C:=BC) 50%N)))))) (T1 (recognize (many (token (C:=BC) 51%N)))))) (token (C:=BC) 44%N).
Example C27_ex : honest c27_p /\ exists v st, p_run c27_p true (bin [49; 53]%N) (p_init c27_p) = Done (PeekOk v, bin [49; 53]%N, st).
Proof. split; [unfold c27_p; honest_tac|]. eexists _, _. vm_compute. reflexivity. Qed.
(** The combination [escaped] is documented with. *)
Definition c27_q := escaped (C:=BC) (take_while1 (C:=BC) (fun t => negb (t =? 34)%N && negb (t =? 92)%N)) 92%N (one_of (C:=BC) [110; 34; 92]%N).
Example C27_ex_escaped : honest c27_q /\ fresh c27_q (bin [34]%N) = Done (PeekOk tt, bin [34]%N).
Proof.
  split; [|reflexivity]. unfold c27_q. constructor; try constructor. apply restoring_take_while1. apply commits_satisfy_impl.
Qed.

(** Without the conditions on [escaped] the claim is false.  The escape character is consumed without committing if the
    escape parser does not commit: *)
Theorem C27_escaped_refuted : ~ (forall S1 A S2 B (p : parser BC S1 A) c (q : parser BC S2 B), honest p -> honest q -> restoring p -> still (escaped p c q)).
Proof.
  intros H. specialize (H _ _ _ _ (take_while1 (C:=BC) (fun t => (t =? 97)%N)) 92%N (value tt) (hon_take_while1 _) (hon_value _) (restoring_take_while1 _ _)
    true (bin [92]%N) tt tt (@Inp BC [] 1 false) tt). vm_compute in H. discriminate (H eq_refl).
Qed.
Print Assumptions C27_escaped_refuted.
(** A parser of the normal characters that fails on a character it has taken from the input loses that character: here the
    closing quote. *)
Theorem C27_escaped_loses_refuted : ~ (forall S1 A S2 B (p : parser BC S1 A) c (q : parser BC S2 B), honest p -> honest q -> commits q -> still (escaped p c q)).
Proof.
  intros H. specialize (H _ _ _ _ (none_of (C:=BC) [34; 92]%N) 92%N any (hon_none_of _) hon_any).
  assert (K : commits (@any BC)). { apply commits_mk_lazy. intros i x i' R. apply (still_s_uncons i x i'). congruence. }
  specialize (H K true (bin [34; 97]%N) tt tt (@Inp BC [97]%N 1 false) tt). vm_compute in H. discriminate (H eq_refl).
Qed.
Print Assumptions C27_escaped_loses_refuted.

(** The converse is false: a success may be reported as committed although nothing was consumed. *)
Definition moves {C : Cfg} {S A} (p : parser C S A) : Prop := forall i a i', fresh p i = Done (CommitOk a, i') -> i' <> i.
Theorem C27_converse_take_until_refuted : ~ moves (take_until (token (C:=BC) 97%N)).
Proof. intros H. apply (H (bin [97]%N) [] (bin [97]%N)); vm_compute; reflexivity. Qed.
Print Assumptions C27_converse_take_until_refuted.
Theorem C27_converse_repeat_until_refuted : ~ moves (repeat_until (@any BC) (token (C:=BC) 97%N)).
Proof. intros H. apply (H (bin [97]%N) [] (bin [97]%N)); vm_compute; reflexivity. Qed.
Print Assumptions C27_converse_repeat_until_refuted.
Theorem C27_converse_range_refuted : ~ moves (range (C:=BC) []).
Proof. intros H. apply (H (bin [97]%N) [] (bin [97]%N)); vm_compute; reflexivity. Qed.
Print Assumptions C27_converse_range_refuted.

(** What C27 gives for C28: [recognize] of a library parser that does not mind its history does not mind it either. *)
Theorem C28_recognize : forall C, lawful C -> forall S A (p : parser C S A), honest p -> tidy false p -> history_free false (recognize p).
Proof.
  intros C L S A p H Ht. apply C28_tidy_history_free. apply td_recognize; auto. intros first i st a i' st' R.
  rewrite (C27_still C L S A p H first i st a i' st' R). apply (law_pos L). reflexivity.
Qed.
Print Assumptions C28_recognize.
Example C28_recognize_ex : honest (many (token (C:=BC) 51%N)) /\ tidy false (many (token (C:=BC) 51%N)) /\
  leftover false (recognize (many (token (C:=BC) 51%N))) ([], ([], tt)).
Proof.
  split; [honest_tac|]. split; [tidy_tac|].
  eapply left_run with (st := ([], ([], tt))) (i := bin [51; 51; 1]%N); [apply left_init|vm_compute; reflexivity|right; simpl; auto].
Qed.
