(** Two more decoders of tests/async.rs: parsers whose second part depends on a number read by the first. *)
From Coq Require Import String List Bool Arith NArith.
Import ListNotations.
From Verif Require Import Base Parser Errors Token Combinator Sequence Choice Repeat RangeP ByteP Instances DecodeM FramedM LspM.
Set Implicit Arguments.

Section Framed2.
Context {C : Cfg}.
Notation T := (tok C).
Notation E := (Err C).
Variable code : T -> N.
Variable lit : N -> T.

(** tests/async.rs:252-264 [prefix_many_then_parser]; [parse_usize] is the [str::parse] inside [from_str] *)
Definition prefix_head := tuple (TC (f_tk lit 35) (TC (skip_many (f_tk lit 32)) (T1 (from_str (many1 (c_digit code)) (parse_usize code))))).
Definition prefix_many_then_parser :=
  any_partial_state (then_partial prefix_head (0, [], tt)
    (fun t => let c := N.to_nat (snd (snd t)) in count_min_max c c any)).

(** tests/async.rs:279-302 [content_length].  [StreamErrorFor::other] of the error of [str::parse] is taken as a message. *)
Definition cl_number := and_then (recognize_range (skip_many1 (c_digit code)))
  (fun digits => match parse_usize code digits with
                 | Some (inl n) => inl n
                 | Some (inr msg) => inr (se_message C (IFormat msg))
                 | None => inr (se_message C (IFormat "invalid utf-8"))
                 end).
Definition cl_header :=
  tuple (TC (skip_many (range (f_crlf lit))) (TC (with_ (range (lits lit "Content-Length: ")) cl_number)
    (T1 (map (range (f_crlf lit ++ f_crlf lit)) (fun _ => tt))))).
Definition content_length :=
  any_partial_state (then_partial cl_header tt
    (fun t => map (take (N.to_nat (fst (snd t)))) (fun bytes : list T => bytes))).

(** tests/async.rs:566-571 [take_until_bytes_test]; the bytes of the buffer are its tokens.  [number] is [str::parse], whose
    failure panics in Rust and is a value of [B] here. *)
Definition until_bytes_parser {B} (number : list T -> B) := skip (map (take_until_bytes (List.map code) [13; 10]%N) number) (take 2).

(** tests/async.rs:143-195 [impl_byte_decoder!]: [decode] calls [combine::stream::decode] (src/stream/mod.rs:1306-1334) on a
    [PartialStream], also at the end of the input. *)
Definition byte_decode {S A} (p : parser C S A) (d : fdec (C:=C) S) : outcome ((option A + E) * fdec (C:=C) S) :=
  obind (decode p (Inp (fd_src d) (fd_pos d) true) (fd_state d)) (fun x => match x with (res, i', st') =>
    match res with
    | inr err => Done (inr err, Fd st' (fd_src d) (fd_pos d))
    | inl (opt, removed_len) =>
        omap (fun b => (inl opt, Fd st' (bbytes b) (ipos i'))) (b_advance removed_len (Buf (fd_src d) 0))
    end end).
(** tests/async.rs:202-225 [run_decoder] with such a decoder.  [decode_eof] is the default of the crate tokio_util: what
    [decode] gives, but "bytes remaining on stream" ([inr None]) if it gives nothing and the buffer is not empty. *)
Fixpoint byte_items {S A} (n : nat) (p : parser C S A) (eof : bool) (d : fdec (C:=C) S) (cs : list (list T)) : outcome (list A + option E) :=
  match n with
  | 0 => OOF
  | Datatypes.S n =>
      obind (byte_decode p d) (fun x => match x with (res, d') =>
        match res with
        | inr err => Done (inr (Some err))
        | inl (Some v) => omap (fun r => match r with inl l => inl (v :: l) | inr e => inr e end) (byte_items n p eof d' cs)
        | inl None =>
            if eof then Done (match fd_src d' with [] => inl [] | _ :: _ => inr None end)
            else match cs with
                 | [] => byte_items n p true d' []
                 | c :: cs => byte_items n p false (fd_add c d') cs
                 end
        end end)
  end.
Definition run_byte_decoder {S A} (n : nat) (p : parser C S A) (pos : Pos C) (cs : list (list T)) : outcome (list A + option E) :=
  match cs with
  | [] => byte_items n (any_partial_state p) true (Fd None [] pos) []
  | c :: cs => byte_items n (any_partial_state p) false (Fd None c pos) cs
  end.
(** tests/async.rs:589-593 [num_test] *)
Definition num_test_parser := skip (be_u code 2) (take 2).
End Framed2.
