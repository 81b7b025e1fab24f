(** Property C82: decoders that never see the end of the input. *)
From Coq Require Import String List Bool Arith NArith Lia.
Import ListNotations.
From Verif Require Import Base Errors Instances Parser Token Combinator Sequence Choice Repeat RangeP ByteP DecodeM.
From Verif Require Import Spec LibSpec RangeSpec ChunkSpec TotalSpec SteadySpec FramedM FramedM2 FramedSpec FramedSpec2 AgreeSpec RangeProofs FramedProofs FramedProofs2 FramedProofs3 FramedProofs5 FramedProofs6 Properties1 Properties29 Properties31.
Unset Implicit Arguments.

(** On any text, cut anywhere: the values are those of reading the text message after message, maybe not up to the last
    one.  "Bytes remaining" means that something is left; another error means that the parser fails there, on the text with its end,
    and for another reason than that end. *)
Theorem C82_begins : forall C, decoder_stream C -> forall S A (p : parser C S A) x a n h, (forall z, steady z x a n h (fun _ : unit => p)) -> lib p ->
  forall pos cs m out, 2 * length (concat cs) + 1 < fuel C -> run_byte_decoder m p pos cs = Done out ->
  exists vs tail, begins p pos (concat cs) vs tail /\
  match out with inl vs' => vs' = vs | inr None => tail <> [] | inr (Some e) => e_is_eoi C e = false /\ reads p pos (concat cs) vs tail end.
Proof.
  intros C [EL [L [D [SL SK]]]] S A p x a n h Hst HL pos cs m out Hf Q.
  destruct (run_byte_begins (Datatypes.S (length (concat cs))) EL SL L D x a n h p (Hst _) HL pos cs m out) as [vs [tail [R1 R2]]]; [split; cbn [rest]; lia|exact Q|].
  exists vs, tail. split; [exact R1|]. destruct out as [vs'|[e|]]; [exact (proj1 R2)|exact R2|exact R2].
Qed.
Print Assumptions C82_begins.
(** A parser that leaves an unfinished message in the buffer: without an error nothing is left. *)
Theorem C82_whole : forall C, decoder_stream C -> forall S A (p : parser C S A) x n h, (forall z, steady z x true n h (fun _ : unit => p)) -> lib p ->
  forall pos cs m vs, 2 * length (concat cs) + 1 < fuel C -> run_byte_decoder m p pos cs = Done (inl vs) -> begins p pos (concat cs) vs [].
Proof.
  intros C [EL [L [D [SL SK]]]] S A p x n h Hst HL pos cs m vs Hf Q.
  destruct (run_byte_begins (Datatypes.S (length (concat cs))) EL SL L D x true n h p (Hst _) HL pos cs m (inl vs)) as [v1 [tail [R1 R2]]]; [split; cbn [rest]; lia|exact Q|].
  cbn in R2. destruct R2 as [-> R2]. rewrite (R2 eq_refl) in R1. exact R1.
Qed.
Print Assumptions C82_whole.
(** The values come first among those of the decoder that is told of the end (C81). *)
Theorem C82_fewer : forall C, decoder_stream C -> forall S A (p : parser C S A) x a n h, (forall z, steady z x a n h (fun _ : unit => p)) -> lib p ->
  forall pos cs cs' m m' vs vs', concat cs = concat cs' -> 2 * length (concat cs) + 1 < fuel C ->
  run_byte_decoder m p pos cs = Done (inl vs) -> run_decoder m' p pos cs' = Done (inl vs') -> exists more, vs' = vs ++ more.
Proof.
  intros C DS S A p x a n h Hst HL pos cs cs' m m' vs vs' Hc Hf Q Q'.
  destruct (C82_begins C DS S A p x a n h Hst HL pos cs m _ Hf Q) as [v1 [t1 [R1 ->]]]. rewrite Hc in Hf, R1.
  destruct (C81_reads C DS S A p x a n h Hst HL pos cs' m' _ Hf Q') as [v2 [t2 [R2 ->]]]. exact (begins_reads p _ _ _ _ R1 _ _ R2).
Qed.
Print Assumptions C82_fewer.
(** It comes to an end, if every message takes a token. *)
Theorem C82_ends : forall C, decoder_stream C -> forall S A (p : parser C S A) x a n h, (forall z, steady z x a n h (fun _ : unit => p)) -> lib p -> productive (fresh p) ->
  forall pos cs m, 2 * length (concat cs) + 1 < fuel C -> length (concat cs) + length cs + 1 < m -> exists out, run_byte_decoder m p pos cs = Done out.
Proof.
  intros C [EL [L [D [SL SK]]]] S A p x a n h Hst HL HP pos cs m Hf Hm.
  apply (run_byte_ends (Datatypes.S (length (concat cs))) EL SL L D x a n h p (Hst _) HL HP); [split; cbn [rest]; lia|exact Hm].
Qed.
Print Assumptions C82_ends.

(** The numbers of two bytes of the test, cut anywhere, are given back. *)
Theorem C82_num : forall C, decoder_stream C -> forall (code : tok C -> N) (lit : N -> tok C), (forall n, (n < 256)%N -> code (lit n) = n) ->
  forall pos cs ms m, Forall (fun n => (n < 65536)%N) ms -> concat cs = concat (List.map (num_text lit) ms) -> 2 * length (concat cs) + 1 < fuel C -> length (concat cs) + length cs + 1 < m ->
  run_byte_decoder m (num_test_parser code) pos cs = Done (inl ms).
Proof. intros C [EL [L [D [SL SK]]]] code lit CL. exact (num_gives EL L D SL code lit CL). Qed.
Print Assumptions C82_num.
(** A number of any width and a field of any length after it, on any text: the values are those of reading message after message, and less
    than one message is left over; "bytes remaining" is the only error. *)
Theorem C82_fixed : forall C, decoder_stream C -> forall A (code : tok C -> N) (dec : list N -> A) k l, k <> 0 -> l <> 0 ->
  forall pos cs m out, 2 * length (concat cs) + 1 < fuel C -> run_byte_decoder m (skip (num_parser code k dec) (take l)) pos cs = Done out ->
  exists vs tail, begins (skip (num_parser code k dec) (take l)) pos (concat cs) vs tail /\ length tail < k + l /\ (out = inl vs \/ out = inr None /\ tail <> []).
Proof.
  intros C [EL [L [D [SL SK]]]] A code dec k l Hk Hl pos cs m out Hf Q. set (z := Datatypes.S (length (concat cs))).
  apply (run_byte_fixed z EL SL L D _ _ _ _ k l (num_parser code k dec) (take l) (fixed_steady SL code k l dec Hk Hl z) (lib_num_parser _ _ _) (lib_take _) (needs_num EL code k dec) (needs_take EL SL l) pos cs m out); [split; cbn [rest]; unfold z; lia|exact Q].
Qed.
Print Assumptions C82_fixed.
(** Of the values from two cuts, one list begins with the other. *)
Theorem C82_cuts : forall C, decoder_stream C -> forall S A (p : parser C S A) x a n h, (forall z, steady z x a n h (fun _ : unit => p)) -> lib p ->
  forall pos cs cs' m m' vs vs', concat cs = concat cs' -> 2 * length (concat cs) + 1 < fuel C ->
  run_byte_decoder m p pos cs = Done (inl vs) -> run_byte_decoder m' p pos cs' = Done (inl vs') -> exists more, vs' = vs ++ more \/ vs = vs' ++ more.
Proof.
  intros C DS S A p x a n h Hst HL pos cs cs' m m' vs vs' Hc Hf Q Q'.
  destruct (C82_begins C DS S A p x a n h Hst HL pos cs m _ Hf Q) as [v1 [t1 [R1 ->]]]. rewrite Hc in Hf, R1.
  destruct (C82_begins C DS S A p x a n h Hst HL pos cs' m' _ Hf Q') as [v2 [t2 [R2 ->]]]. exact (begins_prefix p _ _ _ _ R1 _ _ R2).
Qed.
Print Assumptions C82_cuts.

(** Messages are lost: a last one that ends where the text ends (["12"], digits), though [decode_tokio] told of the end gives it; and one that is
    cut short after its number, without an error, though there is one if it is cut inside the number or inside the line end. *)
Theorem C82_lost_refuted :
  let dg := many1 (c_digit (C:=BC) (fun n => n)) in let num := num_test_parser (C:=BC) (fun n => n) in
  (forall z, steady z true false false true (fun _ : unit => dg)) /\
  run_decoder 20 dg 0 [[49; 50]%N] = Done (inl [[49; 50]%N]) /\ run_byte_decoder 20 dg 0 [[49; 50]%N] = Done (inl []) /\
  run_byte_decoder 20 num 0 [[1; 2; 13; 10; 1; 2]%N] = Done (inl [258%N]) /\
  run_byte_decoder 20 num 0 [[1; 2; 13; 10; 1]%N] = Done (inr None) /\ run_byte_decoder 20 num 0 [[1; 2; 13; 10; 1; 2; 13]%N] = Done (inr None).
Proof.
  intros dg num. split; [|repeat split; vm_compute; reflexivity].
  intros z. apply (@st_many1 BC); [apply (@st_dig BC)|apply (@so_dig BC)].
Qed.
Print Assumptions C82_lost_refuted.

(** [num_test], in pieces. *)
Example C82_ex_num : forall cs : list (list (tok BC)), concat cs = ([1; 2; 13; 10; 255; 0; 13; 10]%N : list N) -> length cs < 10 ->
  run_byte_decoder 20 (num_test_parser (C:=BC) (fun n => n)) 0 cs = Done (inl [258; 65280]%N).
Proof.
  intros cs Hc Hl. assert (Q : length (concat cs) = 8) by (rewrite Hc; reflexivity).
  apply (C82_num BC (C80_streams 100 true) (fun n => n) (fun n => n) (fun n _ => eq_refl)); [repeat constructor|exact Hc|rewrite Q; apply Nat.ltb_lt; reflexivity|rewrite Q; cbn [Nat.add]; lia].
Qed.
(** Frames of three bytes (C81): a rest is reported. *)
Example C82_ex_frames : run_byte_decoder 20 c81_frame 0 [[1]; [2; 3; 4]; [5]; [6]]%N = Done (inl [[1; 2; 3]; [4; 5; 6]]%N) /\ run_byte_decoder 20 c81_frame 0 [[1]; [2; 3; 4]]%N = Done (inr None) /\
  forall cs : list (list (tok BC)), concat cs = ([1; 2; 3; 4]%N : list N) -> length cs < 10 -> exists e, run_byte_decoder 20 c81_frame 0 cs = Done (inr e).
Proof.
  split; [vm_compute; reflexivity|]. split; [vm_compute; reflexivity|]. intros cs Hc Hl. destruct C81_ex_frame as [H1 [H2 H3]]. assert (Q : length (concat cs) = 4) by (rewrite Hc; reflexivity).
  assert (Hf : 2 * length (concat cs) + 1 < fuel BC) by (rewrite Q; apply Nat.ltb_lt; reflexivity).
  assert (R : reads c81_frame 0 (concat cs) [[1; 2; 3]]%N [4]%N).
  { assert (Ec : concat cs = (([1; 2; 3] ++ [4])%N : list N)) by exact Hc. rewrite Ec. apply (@reads_msg BC _ _ c81_frame 0 [1; 2; 3]%N [4]%N true [1; 2; 3]%N [] [4]%N); [reflexivity|]. refine (@reads_stop BC _ _ c81_frame _ _ false _).
    apply c81_fails. vm_compute. reflexivity. }
  destruct (C82_ends BC (C80_streams 100 true) _ _ c81_frame _ _ _ _ H1 H2 H3 0 cs 20 Hf) as [out K]; [rewrite Q; cbn [Nat.add]; lia|]. destruct out as [vs|e]; [|eauto]. exfalso.
  apply (C82_whole BC (C80_streams 100 true) _ _ c81_frame _ _ _ H1 H2 _ _ _ _ Hf) in K. apply begins_all in K; [|intros pos'; exists false; eexists; do 2 eexists; split; [reflexivity|split; reflexivity]].
  destruct (reads_same c81_frame _ _ _ _ R _ _ K) as [_ K2]. discriminate K2.
Qed.
(** Messages of a little-endian number of four bytes and one more byte. *)
Example C82_ex_fixed : run_byte_decoder 20 (skip (num_parser (C:=BC) (fun n => n) 4 le_value) (take 1)) 0 [[1; 2; 0]; [0; 9; 0]; [0; 0; 1; 9; 7; 7]]%N = Done (inr None) /\
  run_byte_decoder 20 (skip (num_parser (C:=BC) (fun n => n) 4 le_value) (take 1)) 0 [[1; 2; 0]; [0; 9; 0]; [0; 0; 1; 9; 7; 7; 7; 7]]%N = Done (inl [513; 16777216]%N).
Proof. split; vm_compute; reflexivity. Qed.
