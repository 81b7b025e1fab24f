(** C56, C57: vocabulary for error texts and for regular expressions.  Nothing here models code. *)
From Coq Require Import String Ascii List Bool Arith NArith.
Import ListNotations.
From Verif Require Import Base Parser Spec RangeSpec FmtM RegexP.
Set Implicit Arguments.

(** An enumeration in English: "a", "a or b", "a, b or c", ... *)
Fixpoint english (l : list string) : string :=
  match l with
  | [] => ""
  | [x] => x
  | [x; y] => x ++ " or " ++ y
  | x :: r => x ++ ", " ++ english r
  end%string.
(** Lines of text. *)
Fixpoint text_of (lines : list string) : string :=
  match lines with [] => "" | l :: r => l ++ String (ascii_of_nat 10) (text_of r) end%string.

(** What is written about an item: tokens and ranges between backquotes, texts as they are. *)
Section Lines.
Context {T R : Type}.
Variable st : T -> string.
Variable sr : R -> string.
Local Open Scope string_scope.
Definition said (x : xinfo T R) : string :=
  match x with XToken t => "`" ++ st t ++ "`" | XRange r => "`" ++ sr r ++ "`" | XOwned s | XStatic s => s end.
(** The lines about what was unexpected, the items that were expected, the lines of the messages. *)
Fixpoint unexpected_lines (es : list (xerror T R)) : list string :=
  match es with [] => [] | XUnexpected x :: r => ("Unexpected " ++ said x) :: unexpected_lines r | _ :: r => unexpected_lines r end.
Fixpoint expected_items (es : list (xerror T R)) : list string :=
  match es with [] => [] | XExpected x :: r => said x :: expected_items r | _ :: r => expected_items r end.
Fixpoint message_lines (es : list (xerror T R)) : list string :=
  match es with [] => [] | XMessage x :: r => said x :: message_lines r | XOther s :: r => s :: message_lines r | _ :: r => message_lines r end.
End Lines.

Section RegexSpec.
Context {C : Cfg}.
Notation T := (tok C).

(** The matches of a regular expression in [h]: parts of [h], in order, without overlap, none starting before [from]. *)
Inductive matches_in (h : list T) : nat -> list (rmatch C) -> Prop :=
| mi_nil : forall from, matches_in h from []
| mi_cons : forall from m ms before after,
    h = before ++ m_part m ++ after -> from <= units before -> m_end m = units (before ++ m_part m) ->
    matches_in h (m_end m) ms -> matches_in h from (m :: ms).

(** What is assumed of the engine. *)
Definition honest_regex (r : regex C) : Prop := forall h,
  matches_in h 0 (rx_find r h) /\
  (rx_is_match r h = true <-> rx_find r h <> []) /\
  Forall2 (fun groups m => exists more, groups = Some m :: more) (rx_captures r h) (rx_find r h).
(** The groups that took part in a match. *)
Inductive taking_part : list (option (rmatch C)) -> list (list T) -> Prop :=
| tp_nil : taking_part [] []
| tp_some : forall m g parts, taking_part g parts -> taking_part (Some m :: g) (m_part m :: parts)
| tp_none : forall g parts, taking_part g parts -> taking_part (None :: g) parts.
(** Up to where the matches reach. *)
Definition reach (ms : list (rmatch C)) : nat := last (List.map (@m_end C) ms) 0.
End RegexSpec.
