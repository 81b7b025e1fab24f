(** Small programs: examples/number.rs, examples/readme.rs, benches/buffers.rs. *)
From Coq Require Import String List Bool Arith NArith.
Import ListNotations.
From Verif Require Import Base Parser Errors Token Combinator Sequence Choice Repeat RangeP ByteP.
Set Implicit Arguments.

Section Examples.
Context {C : Cfg}.
Notation T := (tok C).
Variable code : T -> N.
Variable lit : N -> T.

(** examples/number.rs:22-25 *)
Definition nm_text :=
  recognize_range (tuple (TC (skip_many1 (b_digit code))
    (T1 (optional (tuple (TC (token (lit 46)) (T1 (skip_many (b_digit code))))))))).
(** examples/number.rs:26-30: [f64] is [str::parse::<f64>] of the bytes taken as UTF-8 without a check, [bad] what
    [UnexpectedParse::Unexpected] becomes as a stream error. *)
Definition nm_number {F} (f64 : list T -> option F) (bad : SErr C) :=
  and_then nm_text (fun bs => match f64 bs with Some v => inl v | None => inr bad end).

(** [Vec::pop] *)
Definition pop {X} (l : list X) : option X := match rev l with [] => None | x :: _ => Some x end.
(** examples/readme.rs:13-15.  [alphabetic] is [char::is_alphabetic], [whitespace] is [char::is_whitespace]; src/parser/char.rs:61-67
    [space], 197-202 [letter]. *)
Definition rm_word (alphabetic whitespace : N -> bool) :=
  map (sep_by (many1 (byte_class code alphabetic "letter")) (byte_class code whitespace "whitespace")) (fun words : list (list T) => pop words).

(** benches/buffers.rs:23-32; [any_send_sync_partial_state] (src/parser/combinator.rs:1022-1041) is [any_partial_state]. *)
Definition bf_parser := any_partial_state (map (recognize (take_until_bytes (List.map code) [49%N])) (@length T)).
End Examples.
