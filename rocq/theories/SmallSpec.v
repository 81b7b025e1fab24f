(** What the small programs of examples/ are to read.  Nothing here models code. *)
From Coq Require Import List Bool Arith NArith.
Import ListNotations.
Set Implicit Arguments.

Section SmallSpec.
Context {X : Type}.
Variable code : X -> N.

(** A decimal digit; digits, at least one, and perhaps a point and further digits. *)
Definition dec_digit (t : X) : Prop := (48 <= code t <= 57)%N.
Definition decimal_text (w : list X) : Prop :=
  exists a, a <> [] /\ Forall dec_digit a /\ (w = a \/ exists dot b, code dot = 46%N /\ Forall dec_digit b /\ w = a ++ dot :: b).
(** [w] is the longest beginning of [l] that is such a text. *)
Definition longest_decimal (l w : list X) : Prop :=
  decimal_text w /\ (exists r, l = w ++ r) /\ forall w' r', l = w' ++ r' -> decimal_text w' -> length w' <= length w.

(** Words of letters, each separated from the next by one blank. *)
Variables letter blank : X -> Prop.
Definition word (w : list X) : Prop := w <> [] /\ Forall letter w.
Inductive sentence : list X -> list (list X) -> Prop :=
| sentence_one : forall w, word w -> sentence w [w]
| sentence_more : forall w s v l, word w -> blank s -> sentence v l -> sentence (w ++ s :: v) (w :: l).
(** The text does not begin with such a character. *)
Definition not_at (f : X -> Prop) (l : list X) : Prop := forall t r, l = t :: r -> ~ f t.
End SmallSpec.
