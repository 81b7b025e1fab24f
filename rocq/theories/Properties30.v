(** Property C80, continued: messages that begin with their length. *)
From Coq Require Import String List Bool Arith NArith Lia.
Import ListNotations.
From Verif Require Import Base Errors Instances Parser Token Combinator Sequence Choice Repeat RangeP ByteP DecodeM.
From Verif Require Import Spec LibSpec RangeSpec ChunkSpec TotalSpec SteadySpec FramedM FramedM2 LspSpec FramedSpec FramedSpec2 AgreeSpec FramedProofs FramedProofs2 FramedProofs3 FramedProofs4 FramedProofs6 Properties1 Properties29.
Unset Implicit Arguments.

Section Sizes.
Context {C : Cfg} (DS : decoder_stream C) (code : tok C -> N) (lit : N -> tok C) (CL : forall n, (n < 256)%N -> code (lit n) = n).
(** ["# 4abcd#0#3:?a"]: each body as long as its number says, cut anywhere. *)
Theorem C80_prefix_many_then : gives_back (prefix_many_then_parser code lit) (fun m => sized_ok m /\ told_apart code m) (hash_text lit) (@sz_body C).
Proof. destruct DS as [EL [L [D [SL SK]]]]. intros pos cs ms m. apply (prefix_decodes EL L D SL SK code lit CL). Qed.
(** ["Content-Length: 6"], an empty line, and the body, which may hold anything. *)
Theorem C80_content_length : gives_back (content_length code lit) (@sized_ok C) (length_text lit) (@sz_body C).
Proof. destruct DS as [EL [L [D [SL SK]]]]. intros pos cs ms m. apply (content_decodes EL L D SL SK code lit CL). Qed.
(** Lines found by their bytes. *)
Theorem C80_take_until_bytes : forall B (number : list (tok C) -> B), gives_back (until_bytes_parser code number) (line_bytes code) (with_crlf lit) number.
Proof.
  destruct DS as [EL [L [D [SL SK]]]]. intros B number. unfold gives_back.
  eapply (decodes EL L D SL SK); [apply (until_bytes_steady SL code number)|intros; apply (until_bytes_eats L SL code lit CL); auto|apply (until_bytes_stops L SL code number)].
Qed.
End Sizes.
Print Assumptions C80_take_until_bytes.
Print Assumptions C80_prefix_many_then.
Print Assumptions C80_content_length.

(** tests/async.rs:323-341, the first four messages, in three pieces. *)
Definition c80_sized : list (sized (C:=BC)) := [@Sized BC 1 [49] [97]; @Sized BC 1 [52] [97; 98; 99; 100]; @Sized BC 0 [48] []; @Sized BC 0 [51] [58; 63; 97]]%N.
Definition c80_hashes : list N := [35; 32; 49; 97; 35; 32; 52; 97; 98; 99; 100; 35; 48; 35; 51; 58; 63; 97]%N.
Example C80_ex_sized : Forall (fun m => sized_ok m /\ told_apart (C:=BC) (fun n => n) m) c80_sized /\
  c80_hashes = concat (List.map (hash_text (C:=BC) (fun n => n)) c80_sized).
Proof.
  assert (K : forall t : N, (57 < t)%N -> ~ (48 <= t <= 57)%N) by (intros; lia).
  split; [|reflexivity].
  constructor; [split; [split; [exact (@num_one 1%N eq_refl)|reflexivity]|apply K; reflexivity]|].
  constructor; [split; [split; [exact (@num_one 4%N eq_refl)|reflexivity]|apply K; reflexivity]|].
  constructor; [split; [split; [exact (@num_one 0%N eq_refl)|reflexivity]|exact I]|].
  constructor; [split; [split; [exact (@num_one 3%N eq_refl)|reflexivity]|apply K; reflexivity]|]. constructor.
Qed.
Example C80_ex_hashes : forall cs, concat cs = c80_hashes -> length cs < 10 ->
  run_decoder (C:=BC) 20 (prefix_many_then_parser (C:=BC) (fun n => n) (fun n => n)) 0 cs = Done (inl [[97]; [97; 98; 99; 100]; []; [58; 63; 97]]%N).
Proof.
  intros cs Hc Hl. refine (C80_prefix_many_then (C80_streams 100 true) (fun n => n) (fun n => n) (fun n _ => eq_refl) 0 cs c80_sized 20 (proj1 C80_ex_sized) _ _ _).
  - exact (eq_trans Hc (proj2 C80_ex_sized)).
  - assert (Q : length (concat cs) = 18) by (rewrite Hc; reflexivity). change (2 * length (concat cs) + 1 < 100). lia.
  - cbn. lia.
Qed.
(** The theorem asks for bodies that do not begin with a digit: ["#15"] is no message of one digit.  A body cut short is
    dropped without an error (see C81_silent_refuted); ["Content-Length: 2"] in pieces that split the header, the line ends and the body. *)
Example C80_ex_sizes :
  ~ told_apart (C:=BC) (fun n => n) (@Sized BC 0 [49]%N [53]%N) /\
  run_decoder (C:=BC) 20 (prefix_many_then_parser (C:=BC) (fun n => n) (fun n => n)) 0 [[35; 49]; [53]]%N = Done (inl []) /\
  run_decoder (C:=BC) 20 (prefix_many_then_parser (C:=BC) (fun n => n) (fun n => n)) 0 [[35]; [32; 49]; [48]; [97; 97; 97; 97; 97]; [97; 97; 97; 97]; [97]]%N = Done (inl [repeat 97%N 10]) /\
  run_decoder (C:=BC) 20 (content_length (C:=BC) (fun n => n) (fun n => n)) 0
    [[13; 10; 67; 111; 110; 116; 101]; [110; 116; 45; 76; 101; 110; 103; 116; 104; 58; 32; 50; 13]; [10; 13; 10; 13]; [10; 67; 111; 110; 116; 101; 110; 116; 45; 76; 101; 110; 103; 116; 104; 58; 32; 48; 13; 10; 13; 10]]%N
    = Done (inl [[13; 10]; []])%N.
Proof. split; [intros K; apply K; vm_compute; split; discriminate|]. split; [|split]; vm_compute; reflexivity. Qed.
Example C80_ex_length : sized_ok (C:=BC) (@Sized BC 1 [50]%N [13; 10]%N) /\
  length_text (C:=BC) (fun n => n) (@Sized BC 1 [50] [13; 10])%N = [13; 10; 67; 111; 110; 116; 101; 110; 116; 45; 76; 101; 110; 103; 116; 104; 58; 32; 50; 13; 10; 13; 10; 13; 10]%N.
Proof. split; [split; [exact (@num_one 2%N eq_refl)|reflexivity]|reflexivity]. Qed.

(** Lines that hold single line feeds and carriage returns, cut inside a line end. *)
Example C80_ex_byte_lines : line_bytes (C:=BC) (fun n => n) [49; 13; 50]%N /\ line_bytes (C:=BC) (fun n => n) [10]%N /\ ~ line_bytes (C:=BC) (fun n => n) [13; 10]%N.
Proof.
  split; [|split].
  - intros b a K. repeat (destruct b as [|? b]; cbn in K; try discriminate K; injection K; intros; subst; try discriminate).
  - intros b a K. repeat (destruct b as [|? b]; cbn in K; try discriminate K; injection K; intros; subst; try discriminate).
  - intros K. apply (K [] [13%N]). reflexivity.
Qed.
Example C80_ex_lines : forall cs, concat cs = ([49; 13; 50; 13; 10; 10; 13; 10; 13; 10]%N : list (tok BC)) -> length cs < 10 ->
  run_decoder (C:=BC) 20 (until_bytes_parser (C:=BC) (fun n => n) (fun w => w)) 0 cs = Done (inl [[49; 13; 50]; [10]; []]%N).
Proof.
  intros cs Hc Hl. refine (C80_take_until_bytes (C80_streams 100 true) (fun n => n) (fun n => n) (fun n _ => eq_refl) _ (fun w => w) 0 cs [[49; 13; 50]; [10]; []]%N 20 _ Hc _ _).
  - repeat constructor; [apply C80_ex_byte_lines|apply C80_ex_byte_lines|]. intros b a K. repeat (destruct b as [|? b]; cbn in K; try discriminate K; injection K; intros; subst; try discriminate).
  - assert (Q : length (concat cs) = 10) by (rewrite Hc; reflexivity). change (2 * length (concat cs) + 1 < 100). lia.
  - change (3 + length cs + 1 < 20). lia.
Qed.
