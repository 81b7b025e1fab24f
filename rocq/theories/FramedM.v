(** The decoders of tests/async.rs: [impl_decoder!] and [run_decoder]. *)
From Coq Require Import String List Bool Arith NArith.
Import ListNotations.
From Verif Require Import Base Parser Errors Token Combinator Sequence Choice Repeat RangeP ByteP DecodeM Instances.
Set Implicit Arguments.

Section Framed.
Context {C : Cfg}.
Notation T := (tok C).
Notation E := (Err C).

(** tests/async.rs:77-87: the decoder is the state of its parser; here together with the buffer [src] that [FramedRead] hands
    to it and the position (address) of the first byte of it. *)
Record fdec (S : Type) : Type := Fd { fd_state : S; fd_src : list T; fd_pos : Pos C }.
Arguments Fd {S}.
Arguments fd_state {S}.
Arguments fd_src {S}.
Arguments fd_pos {S}.

(** tests/async.rs:113-139 [decode_stream], called by [decode] with [eof = false] and by [decode_eof] with [eof = true]
    (88-111).  [println!] and the conversion of the error are left out, and so is [str::from_utf8] of the buffer, which
    refuses a buffer that ends inside a character: the tokens are the bytes.  [p] is the parser of the
    decoder inside [any_partial_state] (119), see [run_decoder]. *)
Definition decode_stream {S A} (p : parser C S A) (eof : bool) (d : fdec S) : outcome ((option A + E) * fdec S) :=
  obind (decode_tokio p (Inp (fd_src d) (fd_pos d) (negb eof)) (fd_state d)) (fun x => match x with (res, i', st') =>
    match res with
    | inr err => Done (inr err, Fd st' (fd_src d) (fd_pos d))
    | inl (opt, removed_len) =>
        omap (fun b => (inl opt, Fd st' (bbytes b) (ipos i'))) (b_advance removed_len (Buf (fd_src d) 0))
    end end).

Definition fd_add {S} (c : list T) (d : fdec S) : fdec S := Fd (fd_state d) (fd_src d ++ c) (fd_pos d).

(** tests/async.rs:202-225 [run_decoder]: the items of [FramedRead] collected, or the first error.  [FramedRead] (crate
    tokio_util) calls [decode] until it gives [None], then reads a chunk, and at the end of the input calls [decode_eof] until
    it gives [None].  [cs]: what the reads deliver; a read which is not ready is tried again and does not show.  The decoder
    starts with [AnyPartialState::default()]. *)
Fixpoint framed_items {S A} (n : nat) (p : parser C S A) (eof : bool) (d : fdec S) (cs : list (list T)) : outcome (list A + E) :=
  match n with
  | 0 => OOF
  | Datatypes.S n =>
      obind (decode_stream p eof d) (fun x => match x with (res, d') =>
        match res with
        | inr err => Done (inr err)
        | inl (Some v) => omap (fun r => match r with inl l => inl (v :: l) | inr e => inr e end) (framed_items n p eof d' cs)
        | inl None =>
            if eof then Done (inl [])
            else match cs with
                 | [] => framed_items n p true d' []
                 | c :: cs => framed_items n p false (fd_add c d') cs
                 end
        end end)
  end.
Definition run_decoder {S A} (n : nat) (p : parser C S A) (pos : Pos C) (cs : list (list T)) : outcome (list A + E) :=
  match cs with
  | [] => framed_items n (any_partial_state p) true (Fd None [] pos) []
  | c :: cs => framed_items n (any_partial_state p) false (Fd None c pos) cs
  end.

(** The parsers of the tests.  [code], [lit]: the bytes as numbers and back. *)
Variable code : T -> N.
Variable lit : N -> T.
Definition f_crlf : list T := [lit 13; lit 10].
Definition f_tk (n : N) : parser C unit T := token (lit n).
(** tests/async.rs:227-236 [basic_parser] *)
Definition basic_parser := any_partial_state (skip (many1 (c_digit code)) (range f_crlf)).
(** tests/async.rs:266-277 [choice_parser] *)
Definition choice_parser := any_partial_state (skip (or_ (many1 (c_digit code)) (many1 (b_letter code))) (range f_crlf)).
(** tests/async.rs:360-365 *)
Definition decimal := tuple (TC (skip_many1 (c_digit code)) (T1 (optional (tuple (TC (f_tk 46) (T1 (skip_many (c_digit code)))))))).
Definition recognize_parser := skip (recognize decimal) (range f_crlf).
(** tests/async.rs:384-390 *)
Definition recognize_range_parser := skip (map (recognize_with_value decimal) fst) (range f_crlf).
(** tests/async.rs:409-415, 437-443; the counters are left out. *)
Definition not_cr (t : T) : bool := negb (code t =? 13)%N.
Definition take_while_parser := skip (take_while not_cr) (range f_crlf).
Definition take_while1_parser := skip (take_while1 not_cr) (range f_crlf).
(** tests/async.rs:509-511 *)
Definition until_colons_parser := skip (take_until_range [lit 58; lit 58]) (tuple (TC (f_tk 58) (T1 (f_tk 58)))).
(** tests/async.rs:546-548; [find] is [str::find], [number] is [str::parse] of the bytes, whose failure panics in Rust
    and is a value of [B] here. *)
Definition take_fn_parser {B} (find : list T -> option nat) (number : list T -> B) :=
  skip (map (take_fn (fun l => take_range_of_option (find l))) number) (take 2).
(** tests/async.rs:628-630 *)
Definition underscore_parser := map (skip (skip_count_min_max 1 2 (f_tk 95)) (f_tk 46)) (fun _ => @nil T).
End Framed.
Arguments Fd {C S}.
Arguments fd_state {C S}.
Arguments fd_src {C S}.
Arguments fd_pos {C S}.
