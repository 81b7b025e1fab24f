(** C62: the language server decoder of examples/async.rs. *)
From Coq Require Import String List Bool Arith NArith Lia.
Import ListNotations.
From Verif Require Import Base Parser Errors Combinator DecodeM LspM LspSpec Spec RangeSpec ChunkSpec LspProofs Instances Properties1 Properties8.
Unset Implicit Arguments.

(** The messages come out as they were sent, in order, however the bytes are cut, and no call fails. *)
Theorem C62_messages : forall (C : Cfg), eoi_laws C -> lawful C -> is_slice (C:=C) -> forall (code : tok C -> N) (lit : N -> tok C), (forall n, (n < 256)%N -> code (lit n) = n) ->
  forall utf8 text ms pos cs out d more res d', framed lit text ms -> length text < fuel C -> (forall m, In m ms -> utf8 m = true) ->
  fed (ls_decode utf8 (decode_parser code lit)) ls_add (Lsd (p_init (decode_parser code lit)) [] pos) cs out d -> concat cs ++ more = text ->
  ls_decode utf8 (decode_parser code lit) d = Done (res, d') ->
  exists ms', ms = out ++ ms' /\ (res = inl None \/ exists m ms'', ms' = m :: ms'' /\ res = inl (Some m)).
Proof. intros C EL L SL code lit CL utf8 text ms pos cs out d more res d'. apply (lsp_messages EL L SL code lit CL utf8 text ms pos cs). Qed.
Print Assumptions C62_messages.

(** More input is asked for only if the next message is not there in full. *)
Theorem C62_prompt : forall (C : Cfg), eoi_laws C -> lawful C -> is_slice (C:=C) -> forall (code : tok C -> N) (lit : N -> tok C), (forall n, (n < 256)%N -> code (lit n) = n) ->
  forall utf8 text ms tail ms2 pos cs out d more res d', framed lit text ms -> framed lit (tail ++ more) ms2 -> length (text ++ tail ++ more) < fuel C ->
  (forall m, In m (ms ++ ms2) -> utf8 m = true) ->
  fed (ls_decode utf8 (decode_parser code lit)) ls_add (Lsd (p_init (decode_parser code lit)) [] pos) cs out d -> concat cs = text ++ tail ->
  ls_decode utf8 (decode_parser code lit) d = Done (res, d') -> length out < length ms -> exists m ms', ms = out ++ m :: ms' /\ res = inl (Some m).
Proof. intros C EL L SL code lit CL utf8 text ms tail ms2 pos cs out d more res d'. apply (lsp_prompt EL L SL code lit CL utf8 text ms tail ms2 pos cs). Qed.
Print Assumptions C62_prompt.

(** The input of [main], in the pieces of [main] (20, 1, 2 and 3 bytes, then the rest). *)
Definition cr2 : list N := [13; 10]%N.
Definition main_input : list N := t8 "Content-Length: 6" ++ cr2 ++ cr2 ++ t8 "123456" ++ cr2 ++ t8 "Content-Length: 4" ++ cr2 ++ cr2 ++ t8 "true".
Definition main_pieces : list (list N) :=
  [firstn 20 main_input; firstn 1 (skipn 20 main_input); firstn 2 (skipn 21 main_input); firstn 3 (skipn 23 main_input); skipn 26 main_input].
Definition LP := decode_parser (C:=BC) (fun n => n) (fun n => n).
Example C62_main_framed : framed (fun n => n) main_input [t8 "123456"; t8 "true"].
Proof.
  change main_input with (eols (fun n : N => n) 0 ++ ascii (fun n => n) "Content-Length: " ++ List.map (fun n => n) (t8 "6") ++ eol (fun n => n) ++ eol (fun n => n) ++ t8 "123456" ++
    (eols (fun n : N => n) 1 ++ ascii (fun n => n) "Content-Length: " ++ List.map (fun n => n) (t8 "4") ++ eol (fun n => n) ++ eol (fun n => n) ++ t8 "true" ++ eols (fun n : N => n) 0)).
  apply framed_msg; [apply (@num_one 6%N); reflexivity|reflexivity|]. apply framed_msg; [apply (@num_one 4%N); reflexivity|reflexivity|]. apply framed_end.
Qed.
Example C62_main_run : concat main_pieces = main_input /\
  exists d, fed (ls_decode (fun _ => true) LP) ls_add (Lsd (C:=BC) (p_init LP) [] 0) main_pieces [t8 "123456"; t8 "true"] d /\
    exists d', ls_decode (fun _ => true) LP d = Done (inl None, d').
Proof.
  split; [reflexivity|]. eexists. split; [|eexists; cycle 1].
  - eapply (drive_fed _ _ _ 20 main_pieces []); [apply fed_start|vm_compute; reflexivity].
  - vm_compute. reflexivity.
Qed.
(** The header alone is not enough; with all but the last byte nothing comes out. *)
Example C62_main_waits : exists d d', fed (ls_decode (fun _ => true) LP) ls_add (Lsd (C:=BC) (p_init LP) [] 0) [firstn 26 main_input] [] d /\
  ls_decode (fun _ => true) LP d = Done (inl None, d').
Proof.
  do 2 eexists. split; [eapply (drive_fed _ _ _ 1 [firstn 26 main_input] []); [apply fed_start|vm_compute; reflexivity]|vm_compute; reflexivity].
Qed.

(** That a call never panics is false of input which is not such a text: the message of a parse error contains the
    buffer, and the conversion of the buffer to a string is unwrapped. *)
Theorem C62_bad_bytes_panic_refuted : forall utf8 : list N -> bool, utf8 (repeat 255%N 20) = false ->
  exists d, fed (ls_decode (C:=BC) utf8 LP) ls_add (Lsd (C:=BC) (p_init LP) [] 0) [repeat 255%N 20] [] d /\ ls_decode (C:=BC) utf8 LP d = Panic.
Proof.
  intros utf8 H. eexists. split.
  - change [repeat 255%N 20] with ([] ++ [repeat 255%N 20]). eapply fed_more; [apply fed_start|]. vm_compute. reflexivity.
  - cbv beta iota zeta delta [ls_add ls_state ls_src ls_pos ls_decode app]. rewrite H. vm_compute. reflexivity.
Qed.
Print Assumptions C62_bad_bytes_panic_refuted.
