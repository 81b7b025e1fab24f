(** Concrete streams: byte slices, strings with pointer positions, strings with line/column positions. *)
From Coq Require Import String Ascii List Bool Arith NArith.
Import ListNotations.
From Verif Require Import Base Errors.
Set Implicit Arguments.

(** [&[u8]]: tokens are bytes, positions are [PointerOffset] (stream/mod.rs:1184-1236), here the distance from the
    start of the data. *)
Definition bytes_tok : TokCfg :=
  MkTok N.eqb (fun _ => 1) Nat.compare (fun p _ => S p) 0.

(** [char::len_utf8]. *)
Definition utf8_len (c : N) : nat :=
  if (c <? 128)%N then 1 else if (c <? 2048)%N then 2 else if (c <? 65536)%N then 3 else 4.

(** [&str]: tokens are characters (code points), positions are byte offsets. *)
Definition str_tok : TokCfg :=
  MkTok N.eqb utf8_len Nat.compare (fun p c => p + utf8_len c) 0.

(** stream/position.rs:249-302 [SourcePosition] and its [Positioner<char>]: (line, column). *)
Definition source_pos : Type := (nat * nat)%type.
Definition source_cmp (a b : source_pos) : comparison :=
  match Nat.compare (fst a) (fst b) with Eq => Nat.compare (snd a) (snd b) | c => c end.
Definition source_step (p : source_pos) (c : N) : source_pos :=
  if (c =? 10)%N then (S (fst p), 1) else (fst p, S (snd p)).
Definition src_tok : TokCfg :=
  MkTok N.eqb utf8_len source_cmp source_step (1, 1).

(** Characters of an ASCII literal. *)
Fixpoint chars (s : string) : list N :=
  match s with EmptyString => [] | String a s' => N_of_ascii a :: chars s' end.
Definition ch (s : string) : N := hd 0%N (chars s).
