(** What the language server decoder is for: messages in frames, whatever way the bytes arrive.  Nothing here models
    code. *)
From Coq Require Import String List Bool Arith NArith.
Import ListNotations.
From Verif Require Import Base Instances.
Set Implicit Arguments.

(** Decimal numerals (code points); leading zeros are allowed. *)
Inductive numeral : list N -> N -> Prop :=
| num_one : forall d, (d < 10)%N -> numeral [48 + d]%N d
| num_more : forall ds n d, numeral ds n -> (d < 10)%N -> numeral (ds ++ [48 + d]%N) (10 * n + d).

Section LspSpec.
Variable T : Type.
Variable lit : N -> T.

Definition ascii (s : string) : list T := List.map lit (chars s).
Definition eol : list T := [lit 13; lit 10].
Fixpoint eols (k : nat) : list T := match k with 0 => [] | Datatypes.S k => eol ++ eols k end.

(** A text of messages: blank lines, the header with the length of the message in bytes, an empty line, the message. *)
Inductive framed : list T -> list (list T) -> Prop :=
| framed_end : forall k, framed (eols k) []
| framed_msg : forall k ds m text ms, numeral ds (N.of_nat (length m)) -> (N.of_nat (length m) < 2 ^ 64)%N -> framed text ms ->
    framed (eols k ++ ascii "Content-Length: " ++ List.map lit ds ++ eol ++ eol ++ m ++ text) (m :: ms).

(** A decoder in use: it is called, and when it asks for more a chunk is added to its buffer before it is called again.
    [fed d cs out d']: starting in [d], the chunks [cs] were added and [out] came out, and it is now in [d']. *)
Inductive fed {D M X} (dec : D -> outcome ((option M + X) * D)) (add : list T -> D -> D) : D -> list (list T) -> list M -> D -> Prop :=
| fed_start : forall d, fed dec add d [] [] d
| fed_out : forall d cs out d1 m d2, fed dec add d cs out d1 -> dec d1 = Done (inl (Some m), d2) -> fed dec add d cs (out ++ [m]) d2
| fed_more : forall d cs out d1 c d2, fed dec add d cs out d1 -> dec d1 = Done (inl None, d2) ->
    fed dec add d (cs ++ [c]) out (add c d2).
End LspSpec.
