(** Theorems for C06-C08 (choice) and C25 (forward progress). *)
From Coq Require Import String List Bool Arith NArith.
Import ListNotations.
From Verif Require Import Base Parser Errors Token Combinator Sequence Choice Repeat RangeP ByteP Instances Spec SeqSpec LawsProofs
  ChoiceSpec ChoiceProofs LibSpec ForwardProofs Properties1.
Set Implicit Arguments.

Notation bt c := (@token BC c).

(** * C06 *)
Theorem C06_choice : forall C A SS (t : alts (C:=C) A SS), ordered_choice (alts_beh t) (fresh (choice t)).
Proof. exact (fun C A SS t => @choice_ordered C A SS t). Qed.
Print Assumptions C06_choice.

Theorem C06_or : forall C S1 S2 A (p : parser C S1 A) (q : parser C S2 A),
  ordered_choice [fresh p; fresh q] (fresh (or_ p q)).
Proof. exact (fun C S1 S2 A p q => @or_ordered C S1 S2 A p q). Qed.
Print Assumptions C06_or.

(** Also when the choice is started again with whatever state an earlier, failed use left behind. *)
Theorem C06_choice_any_state : forall C A SS (t : alts (C:=C) A SS) st,
  ordered_choice (alts_beh t) (fun i => omap fst (p_run (choice t) true i st)).
Proof. exact (fun C A SS t st => @choice_run_first C A SS t st). Qed.
Print Assumptions C06_choice_any_state.

(** If every alternative fails backtrackably the input is as before. *)
Theorem C06_none_input : forall C A SS (t : alts (C:=C) A SS) i r i',
  none_matches (alts_beh t) i -> fresh (choice t) i = Done (r, i') -> i' = i.
Proof. exact (fun C A SS t => @choice_none_input C A SS t). Qed.
Print Assumptions C06_none_input.

Definition c06_t := AC (attempt (pair2 (bt 1%N) (bt 2%N))) (AC (pair2 (bt 1%N) (bt 3%N)) (AL (pair2 (bt 1%N) (bt 4%N)))).
Example C06_ex_second : chosen (alts_beh c06_t) (bin [1; 3]%N) (CommitOk (1%N, 3%N)) (@Inp BC [] 2 false).
Proof. eapply chosen_later; [vm_compute; reflexivity|reflexivity|]. apply chosen_here; [vm_compute; reflexivity|reflexivity]. Qed.
Example C06_ex_committed : exists e i', chosen (alts_beh c06_t) (bin [1; 4]%N) (CommitErr e) i'.
Proof.
  do 2 eexists. eapply chosen_later; [vm_compute; reflexivity|reflexivity|].
  apply chosen_here; [vm_compute; reflexivity|reflexivity].
Qed.
Example C06_ex_none : none_matches (alts_beh c06_t) (bin [7]%N).
Proof. repeat constructor; do 3 eexists; (split; [vm_compute; reflexivity|split; reflexivity]). Qed.

(** * C07 *)
Theorem C07_slice : forall C S A (s0 : S) (Clean : S -> Prop) (ps : list (parser C S A)),
  Clean s0 -> Forall (fun p => p_init p = s0 /\ hyg_by Clean s0 (p_run p true)) ps ->
  ordered_choice (List.map (fun p => fresh p) ps) (fresh (choice_slice s0 ps)).
Proof. exact (fun C S A s0 Clean ps => @choice_slice_ordered C S A Clean s0 ps). Qed.
Print Assumptions C07_slice.

Theorem C07_slice_empty : forall C S A (s0 : S) i, fails (fresh (choice_slice s0 (@nil (parser C S A)))) i false.
Proof. intros. do 3 eexists. split; [reflexivity|split; reflexivity]. Qed.
Print Assumptions C07_slice_empty.

(** Parsers without partial state can always be used in a slice. *)
Theorem C07_slice_stateless : forall C A (ps : list (parser C unit A)),
  ordered_choice (List.map (fun p => fresh p) ps) (fresh (choice_slice tt ps)).
Proof.
  intros C A ps. apply (@C07_slice C unit A tt (fun _ => True) ps I). apply Forall_forall. intros p _. split.
  - destruct (p_init p). reflexivity.
  - split; auto. intros i [] _. auto.
Qed.
Print Assumptions C07_slice_stateless.
Example C07_slice_stateless_ex :
  chosen (List.map (fun p => fresh p) [no_partial (attempt (with_ (bt 1%N) (bt 2%N))); no_partial (with_ (bt 1%N) (bt 3%N))])
    (bin [1; 3]%N) (CommitOk 3%N) (@Inp BC [] 2 false).
Proof. eapply chosen_later; [vm_compute; reflexivity|reflexivity|]. apply chosen_here; [vm_compute; reflexivity|reflexivity]. Qed.

(** Without the side condition the claim is false: [choice] over the array
    [attempt(count_min_max(3, 3, token(1))), attempt(count_min_max(2, 2, token(1)))] on 1 1 2. *)
Definition c07_three := attempt (count_min_max 3 3 (bt 1%N)).
Definition c07_two := attempt (count_min_max 2 2 (bt 1%N)).
Theorem C07_slice_sharing_refuted :
  ~ ordered_choice [fresh c07_three; fresh c07_two] (fresh (choice_slice (p_init c07_three) [c07_three; c07_two])).
Proof.
  intros [H _]. specialize (H (bin [1; 1; 2]%N) (CommitOk [1; 1]%N) (@Inp BC [2]%N 2 false)).
  assert (Hc : chosen [fresh c07_three; fresh c07_two] (bin [1; 1; 2]%N) (CommitOk [1; 1]%N) (@Inp BC [2]%N 2 false)).
  { eapply chosen_later; [vm_compute; reflexivity|reflexivity|]. apply chosen_here; [vm_compute; reflexivity|reflexivity]. }
  specialize (H Hc). vm_compute in H. discriminate H.
Qed.
Print Assumptions C07_slice_sharing_refuted.
(** What comes out instead: two tokens are returned but none is consumed. *)
Example C07_slice_sharing_outcome :
  fresh (choice_slice (p_init c07_three) [c07_three; c07_two]) (bin [1; 1; 2]%N) = Done (PeekOk [1; 1]%N, bin [1; 1; 2]%N).
Proof. vm_compute. reflexivity. Qed.

(** * C08 *)
Theorem C08_optional : forall C S A (p : parser C S A) i,
  (forall c a i', succeeds (fresh p) i c a i' -> succeeds (fresh (optional p)) i c (Some a) i') /\
  (fails (fresh p) i false -> succeeds (fresh (optional p)) i false None i) /\
  (forall e, fails_with (fresh p) i true e -> fails_with (fresh (optional p)) i true e) /\
  (forall c o i', succeeds (fresh (optional p)) i c o i' ->
     (exists a, o = Some a /\ succeeds (fresh p) i c a i') \/ (o = None /\ c = false /\ i' = i /\ fails (fresh p) i false)) /\
  (forall c e, fails_with (fresh (optional p)) i c e -> c = true /\ fails_with (fresh p) i true e).
Proof. exact (fun C S A p i => @optional_spec C S A p i). Qed.
Print Assumptions C08_optional.
Example C08_ex : fails (fresh (bt 1%N)) (bin [2; 1]%N) false /\
  succeeds (fresh (optional (bt 1%N))) (bin [2; 1]%N) false None (bin [2; 1]%N) /\
  rest (match fresh (bt 1%N) (bin [2; 1]%N) with Done (_, i) => i | _ => bin [] end) = [1]%N.
Proof. split; [do 3 eexists; (split; [vm_compute; reflexivity|split; reflexivity])|split; vm_compute; reflexivity]. Qed.

(** * C25 *)
Theorem C25_forward : forall C S A (p : parser C S A), lib p -> forward p.
Proof. intros C S A p H. apply fwd_run. apply lib_fwd. exact H. Qed.
Print Assumptions C25_forward.

(** Also for the entry points [parse] and [parse_with_state]. *)
Theorem C25_parse : forall C S A (p : parser C S A), lib p -> forall i x i', parse p i = Done (x, i') -> advanced i i'.
Proof. intros C S A p H i x i'. apply fwd_parse. apply lib_fwd. exact H. Qed.
Print Assumptions C25_parse.
Theorem C25_parse_with_state : forall C S A (p : parser C S A), lib p ->
  forall i st x i' st', parse_with_state p i st = Done (x, i', st') -> advanced i i'.
Proof. intros C S A p H i st x i' st'. apply fwd_parse_with_state. apply lib_fwd. exact H. Qed.
Print Assumptions C25_parse_with_state.

(** A list of bracketed, comma separated numbers is such a parser. *)
Definition c25_p :=
  between (bt 91%N) (bt 93%N) (sep_by (many1 (b_digit (C:=BC) (fun x => x))) (skip (bt 44%N) (skip_many (bt 32%N)))).
Example C25_ex_lib : lib c25_p.
Proof. repeat constructor. Qed.
Example C25_ex_run : exists r, parse c25_p (bin [91; 49; 50; 44; 32; 51; 93; 7]%N) = Done (inl r, @Inp BC [7]%N 7 false).
Proof. eexists. vm_compute. reflexivity. Qed.
