(** Specification of scanning, UTF-8 text and positions.  Nothing here models code. *)
From Coq Require Import String List Bool Arith NArith.
Import ListNotations.
From Verif Require Import Base StreamM.
Set Implicit Arguments.

(** The closure [f] is called once on every token in order, up to and including the first one it refuses: [a] are the
    accepted tokens, [b] the others, [x'] is what became of the closure. *)
Inductive scans {X T} (f : fnmut X T) : X -> list T -> list T -> list T -> X -> Prop :=
| scans_end : forall x, scans f x [] [] [] x
| scans_stop : forall x t r x', f x t = (false, x') -> scans f x (t :: r) [] (t :: r) x'
| scans_go : forall x t r a b x' x2, f x t = (true, x') -> scans f x' r a b x2 -> scans f x (t :: r) (t :: a) b x2.

(** The text of a string stream: characters, all of them Unicode scalar values. *)
Definition text (cs : list N) : Prop := Forall (fun c => is_char c = true) cs.

(** Line and column after reading a text. *)
Definition newlines (l : list N) : nat := count_occ N.eq_dec l 10%N.
(** [l] is the last line of [cs]: no newline in it, preceded by a newline or by nothing. *)
Definition last_line (cs l : list N) : Prop :=
  ~ In 10%N l /\ (cs = l \/ exists before, cs = before ++ 10%N :: l).
Definition at_line_column (cs : list N) (p : src_pos) : Prop :=
  line p = N.of_nat (1 + newlines cs) /\ exists l, last_line cs l /\ column p = N.of_nat (1 + length l).
