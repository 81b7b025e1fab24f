(** Property C81: the decoders of tests/async.rs on any text. *)
From Coq Require Import String List Bool Arith NArith Lia.
Import ListNotations.
From Verif Require Import Base Errors Instances Parser Token Combinator Sequence Choice Repeat RangeP ByteP DecodeM.
From Verif Require Import Spec LibSpec RangeSpec ChunkSpec TotalSpec SteadySpec FramedM FramedM2 FramedSpec FramedSpec2 AgreeSpec RangeProofs FramedProofs FramedProofs2 FramedProofs3 FramedProofs5 Properties1 Properties29.
Unset Implicit Arguments.

(** Whatever the text and wherever it is cut: the values that come out are those of reading it message after message, up to
    where the parser fails; and an error that says the input came to an end never comes out between two messages. *)
Theorem C81_reads : forall C, decoder_stream C -> forall S A (p : parser C S A) x a n h, (forall z, steady z x a n h (fun _ : unit => p)) -> lib p ->
  forall pos cs m out, 2 * length (concat cs) + 1 < fuel C -> run_decoder m p pos cs = Done out ->
  exists vs tail, reads p pos (concat cs) vs tail /\ match out with inl vs' => vs' = vs | inr e => e_is_eoi C e = true -> tail <> [] end.
Proof.
  intros C [EL [L [D [SL SK]]]] S A p x a n h Hst HL pos cs m out Hf Q.
  destruct (run_decoder_reads (Datatypes.S (length (concat cs))) EL SL L D x a n h p (Hst _) HL pos cs m out) as [vs [tail [R1 R2]]]; [split; cbn [rest]; lia|exact Q|].
  exists vs, tail. split; [exact R1|]. destruct out; [exact (proj1 R2)|exact R2].
Qed.
Print Assumptions C81_reads.
(** The same values from any two cuts. *)
Theorem C81_cuts : forall C, decoder_stream C -> forall S A (p : parser C S A) x a n h, (forall z, steady z x a n h (fun _ : unit => p)) -> lib p ->
  forall pos cs cs' m m' vs vs', concat cs = concat cs' -> 2 * length (concat cs) + 1 < fuel C ->
  run_decoder m p pos cs = Done (inl vs) -> run_decoder m' p pos cs' = Done (inl vs') -> vs = vs'.
Proof.
  intros C DS S A p x a n h Hst HL pos cs cs' m m' vs vs' Hc Hf Q Q'.
  destruct (C81_reads C DS S A p x a n h Hst HL pos cs m _ Hf Q) as [v1 [t1 [R1 ->]]]. rewrite Hc in Hf, R1.
  destruct (C81_reads C DS S A p x a n h Hst HL pos cs' m' _ Hf Q') as [v2 [t2 [R2 ->]]]. symmetry. apply (reads_same p _ _ _ _ R1 _ _ R2).
Qed.
Print Assumptions C81_cuts.
(** A parser that leaves an unfinished message in the buffer: the decoder ends without an error only if nothing is left. *)
Theorem C81_whole : forall C, decoder_stream C -> forall S A (p : parser C S A) x n h, (forall z, steady z x true n h (fun _ : unit => p)) -> lib p ->
  forall pos cs m vs, 2 * length (concat cs) + 1 < fuel C -> run_decoder m p pos cs = Done (inl vs) -> reads p pos (concat cs) vs [].
Proof.
  intros C [EL [L [D [SL SK]]]] S A p x n h Hst HL pos cs m vs Hf Q.
  destruct (run_decoder_reads (Datatypes.S (length (concat cs))) EL SL L D x true n h p (Hst _) HL pos cs m (inl vs)) as [v1 [tail [R1 R2]]]; [split; cbn [rest]; lia|exact Q|].
  cbn in R2. destruct R2 as [-> R2]. rewrite (R2 eq_refl) in R1. exact R1.
Qed.
Print Assumptions C81_whole.
(** It comes to an end, in a value or an error, if every message takes a token. *)
Theorem C81_ends : forall C, decoder_stream C -> forall S A (p : parser C S A) x a n h, (forall z, steady z x a n h (fun _ : unit => p)) -> lib p -> productive (fresh p) ->
  forall pos cs m, 2 * length (concat cs) + 1 < fuel C -> length (concat cs) + length cs + 1 < m -> exists out, run_decoder m p pos cs = Done out.
Proof.
  intros C [EL [L [D [SL SK]]]] S A p x a n h Hst HL HP pos cs m Hf Hm.
  apply (run_decoder_ends (Datatypes.S (length (concat cs))) EL SL L D x a n h p (Hst _) HL HP); [split; cbn [rest]; lia|exact Hm].
Qed.
Print Assumptions C81_ends.

(* The failures of the examples, by computing. *)
Lemma c81_fails : forall (C : Cfg) A (b : @beh C A) i c, match b i with Done (r, _) => negb (is_ok r) && Bool.eqb (committed r) c | _ => false end = true -> fails b i c.
Proof.
  intros C A b i c H. destruct (b i) as [[r i']| |] eqn:Q; try discriminate H. apply andb_prop in H. destruct H as [H1 H2]. apply eqb_prop in H2.
  destruct (error_of r) as [e|] eqn:Qe; [|destruct r; discriminate]. exists e, r, i'. auto.
Qed.

(** Not so for a parser that keeps what it has read in its state: ["12"] without the line end, and ["#3a"], are dropped
    without an error (with the line end begun, the error is reported). *)
Theorem C81_silent_refuted :
  let bp := basic_parser (C:=BC) (fun n => n) (fun n => n) in let pm := prefix_many_then_parser (C:=BC) (fun n => n) (fun n => n) in
  (forall z, steady z false false false true (fun _ : unit => bp)) /\
  reads bp 0 [49; 13; 10; 49; 50]%N [[49%N]] [49; 50]%N /\ fails (fresh bp) (@Inp BC [49; 50]%N 3 false) true /\
  run_decoder 20 bp 0 [[49; 13; 10; 49; 50]%N] = Done (inl [[49%N]]) /\
  match run_decoder 20 bp 0 [[49; 13; 10; 49; 50; 13]%N] with Done (inr e) => eposition e = 5 | _ => False end /\
  run_decoder 20 pm 0 [[35; 51; 97]%N] = Done (inl []) /\ fails (fresh pm) (@Inp BC [35; 51; 97]%N 0 false) true.
Proof.
  intros bp pm. assert (F : fails (fresh bp) (@Inp BC [49; 50]%N 3 false) true) by (apply c81_fails; vm_compute; reflexivity).
  split; [|split; [|split; [|split; [|split; [|split]]]]].
  - apply (basic_steady (C:=BC)). intros t. reflexivity.
  - apply (@reads_msg BC _ _ bp 0 [49; 13; 10]%N [49; 50]%N true [49%N] [] [49; 50]%N); [vm_compute; reflexivity|]. eapply reads_stop. exact F.
  - exact F.
  - vm_compute. reflexivity.
  - vm_compute. reflexivity.
  - vm_compute. reflexivity.
  - apply c81_fails. vm_compute. reflexivity.
Qed.
Print Assumptions C81_silent_refuted.

(** Frames of three bytes: [take] leaves what it has seen of a frame in the buffer. *)
Definition c81_frame : parser BC unit (list N) := take (C:=BC) 3.
Example C81_ex_frame : (forall z, steady z true true false true (fun _ : unit => c81_frame)) /\ lib c81_frame /\ productive (fresh c81_frame).
Proof.
  split; [|split].
  - intros z. apply (@sd_take_some BC z unit (fun _ => 3)); [intros t; reflexivity|discriminate].
  - exact (@lib_take BC 3).
  - intros i r i' Q Hr. assert (K : exists c l, succeeds (fresh (take (C:=BC) 3)) i c l i').
    { destruct r as [v|v|e|e]; try discriminate Hr; [exists true, v; exact Q|exists false, v; exact Q]. }
    destruct K as [c [l K]]. apply (proj1 (take_spec BC_lawful 3)) in K. destruct K as [[K1 _] [K2 _]]. unfold shorter. rewrite K1, app_length.
    destruct l; [discriminate K2|cbn [length]; lia].
Qed.
Example C81_ex_frames : forall cs : list (list (tok BC)), concat cs = ([1; 2; 3; 4]%N : list N) -> length cs < 10 -> exists e, run_decoder 20 c81_frame 0 cs = Done (inr e).
Proof.
  intros cs Hc Hl. destruct C81_ex_frame as [H1 [H2 H3]].
  assert (Q : length (concat cs) = 4) by (rewrite Hc; reflexivity).
  destruct (C81_ends BC (C80_streams 100 true) _ _ c81_frame _ _ _ _ H1 H2 H3 0 cs 20) as [[vs|e] K]; [rewrite Q; apply Nat.ltb_lt; reflexivity|rewrite Q; cbn [Nat.add]; lia| |eauto].
  exfalso. apply (C81_whole BC (C80_streams 100 true) _ _ c81_frame _ _ _ H1 H2) in K; [|rewrite Q; apply Nat.ltb_lt; reflexivity]. 
  assert (R : reads c81_frame 0 (concat cs) [[1; 2; 3]]%N [4]%N).
  { assert (Ec : concat cs = (([1; 2; 3] ++ [4])%N : list N)) by exact Hc. rewrite Ec. apply (@reads_msg BC _ _ c81_frame 0 [1; 2; 3]%N [4]%N true [1; 2; 3]%N [] [4]%N); [reflexivity|]. refine (@reads_stop BC _ _ c81_frame _ _ false _).
    apply c81_fails. vm_compute. reflexivity. }
  destruct (reads_same c81_frame _ _ _ _ R _ _ K) as [_ K2]. discriminate K2.
Qed.
Example C81_ex_runs : run_decoder 20 c81_frame 0 [[1]; [2; 3; 4]; [5]; [6]]%N = Done (inl [[1; 2; 3]; [4; 5; 6]]%N) /\
  match run_decoder 20 c81_frame 0 [[1]; [2; 3; 4]]%N with Done (inr e) => eposition e = 3 | _ => False end.
Proof. split; vm_compute; reflexivity. Qed.
(** tests/async.rs:521-543: the text of [any_send_partial_state_do_not_forget_state] ends with a line end that belongs to no
    message; the test passes because the decoder drops it without an error.  With half of it there is one. *)
Definition c81_length : list N := [67; 111; 110; 116; 101; 110; 116; 45; 76; 101; 110; 103; 116; 104; 58; 32; 50; 13; 10; 13; 10; 97; 98]%N.
Example C81_ex_trailing : let p := map (content_length (C:=BC) (fun n => n) (fun n => n)) (fun l => length l) in
  run_decoder 20 p 0 [c81_length ++ [13; 10]%N] = Done (inl [2]) /\
  run_decoder 20 p 0 [c81_length; [13]%N; [10]%N] = Done (inl [2]) /\
  match run_decoder 20 p 0 [c81_length ++ [13]%N] with Done (inr e) => eposition e = 23 | _ => False end.
Proof. split; [|split]; vm_compute; reflexivity. Qed.
