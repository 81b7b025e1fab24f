(** Specification vocabulary of the range parsers: sizes, longest prefixes, first occurrences, number encodings. *)
From Coq Require Import String List Bool Arith NArith ZArith.
Import ListNotations.
From Verif Require Import Base Parser Spec.
Set Implicit Arguments.

(** [a] is the longest prefix of [l] all of whose elements satisfy [f]; [b] is what follows. *)
Definition longest_prefix {X} (f : X -> bool) (l a b : list X) : Prop :=
  l = a ++ b /\ Forall (fun x => f x = true) a /\ (forall x r, b = x :: r -> f x = false).

(** [needle] occurs in [l] right after [before], and nowhere earlier. *)
Definition first_occurrence {X} (needle l before after : list X) : Prop :=
  l = before ++ needle ++ after /\ forall b a, l = b ++ needle ++ a -> length before <= length b.
Definition occurs {X} (needle l : list X) : Prop := exists b a, l = b ++ needle ++ a.

(** Numbers as digit strings in base 256. *)
Definition bytes_ok (l : list N) : Prop := Forall (fun b => (b < 256)%N) l.
(** The big-endian digits of [n], [k] of them. *)
Fixpoint be_digits (k : nat) (n : N) : list N :=
  match k with
  | 0 => []
  | S k' => (n / 256 ^ N.of_nat k' mod 256)%N :: be_digits k' n
  end.
Definition le_digits (k : nat) (n : N) : list N := rev (be_digits k n).

Section RangeSpec.
Context {C : Cfg}.
Notation T := (tok C).

(** Size of a range in the units of the stream. *)
Definition units (l : list T) : nat := list_sum (List.map (width C) l).
(** A slice stream: every element counts one. *)
Definition is_slice : Prop := forall t, width C t = 1.

End RangeSpec.
