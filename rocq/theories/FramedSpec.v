(** C80: what the decoders of tests/async.rs are to do.  Nothing here models code. *)
From Coq Require Import String List Bool Arith NArith.
Import ListNotations.
From Verif Require Import Base Parser Spec.
Set Implicit Arguments.

Section FramedSpec.
Context {C : Cfg}.
Notation T := (tok C).

(** The text is a sequence of messages: parsing it as a whole, message after message, [p] gives the values [vs] and reaches
    the end, where it fails without having consumed anything. *)
Inductive frames {S A} (p : parser C S A) : Pos C -> list T -> list A -> Prop :=
| frames_end : forall pos, fails (fresh p) (Inp [] pos false) false -> frames p pos [] []
| frames_msg : forall pos w text c v vs, succeeds (fresh p) (Inp (w ++ text) pos false) c v (Inp text (pos_after pos w) false) ->
    frames p (pos_after pos w) text vs -> frames p pos (w ++ text) (v :: vs).

(** End of input stays reported when [p] adds what it expected. *)
Definition keeps_eoi {S A} (p : parser C S A) : Prop := forall t, e_is_eoi C (terr t) = true -> e_is_eoi C (terr (p_adderr p t)) = true.
(** Replacing the expectations does not lose the end of input. *)
Definition set_keeps : Prop := forall t s f, e_is_eoi C (terr t) = true -> (forall u, e_is_eoi C (terr u) = true -> e_is_eoi C (terr (f u)) = true) ->
  e_is_eoi C (terr (e_set_expected C t s f)) = true.

(** The texts of the tests.  [code] reads a token as a byte, [lit] is the token of a byte. *)
Variable code : T -> N.
Variable lit : N -> T.
Definition is_digit (t : T) : Prop := (48 <= code t <= 57)%N.
Definition is_letter (t : T) : Prop := (65 <= code t <= 90)%N \/ (97 <= code t <= 122)%N.
Definition number_text (w : list T) : Prop := w <> [] /\ Forall is_digit w.
Definition word_text (w : list T) : Prop := w <> [] /\ Forall is_letter w.
(** Digits, and then maybe a point and digits. *)
Definition decimal_text (w : list T) : Prop :=
  exists a b, number_text a /\ w = a ++ b /\ (b = [] \/ exists c, b = lit 46 :: c /\ Forall is_digit c).
(** A line, and a text in front of the first ["::"]. *)
Definition line_text (w : list T) : Prop := Forall (fun t => code t <> 13%N) w.
Definition with_crlf (w : list T) : list T := w ++ [lit 13; lit 10].
Definition colons : list T := [lit 58; lit 58].
Definition before_colons (w : list T) : Prop := forall b a, w ++ [lit 58] <> b ++ colons ++ a.
Definition with_colons (w : list T) : list T := w ++ colons.
Definition no_crlf (w : list T) : Prop := forall b a, w <> b ++ [lit 13; lit 10] ++ a.
(** A search for the first line end. *)
Definition finds_crlf (find : list T -> option nat) : Prop := forall l,
  match find l with
  | Some n => exists b a, l = b ++ [lit 13; lit 10] ++ a /\ length b = n /\ no_crlf (b ++ [lit 13])
  | None => no_crlf l
  end.
(** One or two underscores and a point. *)
Definition underscores (two : bool) : list T := if two then [lit 95; lit 95; lit 46] else [lit 95; lit 46].
End FramedSpec.
Arguments set_keeps : clear implicits.
