(** C80: messages that begin with their length.  Nothing here models code. *)
From Coq Require Import String List Bool Arith NArith.
Import ListNotations.
From Verif Require Import Base Parser Spec FramedSpec LspSpec.
Set Implicit Arguments.

Section FramedSpec2.
Context {C : Cfg}.
Notation T := (tok C).
Variable code : T -> N.
Variable lit : N -> T.

(** A message with the number of spaces (line ends) in front of the length, the digits of the length, and the body. *)
Record sized : Type := Sized { sz_gap : nat; sz_digits : list N; sz_body : list T }.
(** The number says how long the body is. *)
Definition sized_ok (m : sized) : Prop := numeral (sz_digits m) (N.of_nat (length (sz_body m))) /\ (N.of_nat (length (sz_body m)) < 2 ^ 64)%N.
(** Nothing ends the number but the body. *)
Definition told_apart (m : sized) : Prop := match sz_body m with [] => True | t :: _ => ~ is_digit code t end.
(** ["#  12body"] *)
Definition hash_text (m : sized) : list T := [lit 35] ++ repeat (lit 32) (sz_gap m) ++ List.map lit (sz_digits m) ++ sz_body m.
(** Blank lines, ["Content-Length: 12"], an empty line, the body. *)
Definition length_text (m : sized) : list T :=
  eols lit (sz_gap m) ++ ascii lit "Content-Length: " ++ List.map lit (sz_digits m) ++ eol lit ++ eol lit ++ sz_body m.
End FramedSpec2.

(** Lines by their bytes: no line end before the one that ends the line. *)
Section ByteLines.
Context {C : Cfg}.
Variable code : tok C -> N.
Variable lit : N -> tok C.
(** A number of two bytes, the high one first, and a line end. *)
Definition num_text (n : N) : list (tok C) := [lit (n / 256); lit (n mod 256); lit 13; lit 10]%N.
Definition line_bytes (w : list (tok C)) : Prop := forall b a, List.map code w ++ [13%N] <> b ++ [13; 10]%N ++ a.
End ByteLines.

(** Any text, message after message: the values [vs], and what is left where the parser fails. *)
Section Reads.
Context {C : Cfg}.
Notation T := (tok C).
Inductive reads {S A} (p : parser C S A) : Pos C -> list T -> list A -> list T -> Prop :=
| reads_stop : forall pos text c, fails (fresh p) (Inp text pos false) c -> reads p pos text [] text
| reads_msg : forall pos w text c v vs tail, succeeds (fresh p) (Inp (w ++ text) pos false) c v (Inp text (pos_after pos w) false) ->
    reads p (pos_after pos w) text vs tail -> reads p pos (w ++ text) (v :: vs) tail.
(** The same, without saying what comes of the rest. *)
Inductive begins {S A} (p : parser C S A) : Pos C -> list T -> list A -> list T -> Prop :=
| begins_stop : forall pos text, begins p pos text [] text
| begins_msg : forall pos w text c v vs tail, succeeds (fresh p) (Inp (w ++ text) pos false) c v (Inp text (pos_after pos w) false) ->
    begins p (pos_after pos w) text vs tail -> begins p pos (w ++ text) (v :: vs) tail.
End Reads.
