(** The text of error reports, and the [map_*] functions of [easy] errors (stream/easy.rs). *)
From Coq Require Import String Ascii List Bool Arith NArith.
Import ListNotations.
From Verif Require Import Base Errors.
Set Implicit Arguments.
Local Open Scope string_scope.

(** stream/easy.rs:97-103 [enum Info<T, R>], 198-203 [enum Error<T, R>], 637-642 [struct Errors<T, R, P>] with tokens and
    ranges of unrelated types ([Errors.v] has the ranges as lists of tokens).  The boxed [Other] error is its displayed
    text. *)
Inductive xinfo (T R : Type) : Type := XToken (t : T) | XRange (r : R) | XOwned (s : string) | XStatic (s : string).
Arguments XToken {T R}. Arguments XRange {T R}. Arguments XOwned {T R}. Arguments XStatic {T R}.
Inductive xerror (T R : Type) : Type := XUnexpected (x : xinfo T R) | XExpected (x : xinfo T R) | XMessage (x : xinfo T R) | XOther (s : string).
Arguments XUnexpected {T R}. Arguments XExpected {T R}. Arguments XMessage {T R}. Arguments XOther {T R}.
Record xerrors (T R P : Type) : Type := MkX { xposition : P; xlist : list (xerror T R) }.
Arguments MkX {T R P}. Arguments xposition {T R P}. Arguments xlist {T R P}.

(** The errors of [Errors.v] as such. *)
Definition x_info {T} (x : info T) : xinfo T (list T) :=
  match x with IToken t => XToken t | IRange r => XRange r | IStatic s => XStatic s | IFormat s => XOwned s end.
Definition x_error {T} (e : easy_error T) : xerror T (list T) :=
  match e with
  | EUnexpected x => XUnexpected (x_info x) | EExpected x => XExpected (x_info x) | EMessage x => XMessage (x_info x) | EOther s => XOther s
  end.
Definition x_errors {T P} (es : errors T P) : xerrors T (list T) P := MkX (eposition es) (List.map x_error (elist es)).

Section Map.
Context {T R U S : Type}.
(** stream/easy.rs:120-132, 502-514 [map_token]. *)
Definition info_map_token (f : T -> U) (x : xinfo T R) : xinfo U R :=
  match x with XToken t => XToken (f t) | XRange r => XRange r | XOwned s => XOwned s | XStatic s => XStatic s end.
Definition error_map_token (f : T -> U) (e : xerror T R) : xerror U R :=
  match e with
  | XUnexpected x => XUnexpected (info_map_token f x) | XExpected x => XExpected (info_map_token f x)
  | XMessage x => XMessage (info_map_token f x) | XOther s => XOther s
  end.
(** stream/easy.rs:134-146, 516-528 [map_range]. *)
Definition info_map_range (f : R -> S) (x : xinfo T R) : xinfo T S :=
  match x with XToken t => XToken t | XRange r => XRange (f r) | XOwned s => XOwned s | XStatic s => XStatic s end.
Definition error_map_range (f : R -> S) (e : xerror T R) : xerror T S :=
  match e with
  | XUnexpected x => XUnexpected (info_map_range f x) | XExpected x => XExpected (info_map_range f x)
  | XMessage x => XMessage (info_map_range f x) | XOther s => XOther s
  end.
End Map.
(** stream/easy.rs:721-770 [Errors::map_position], [map_token], [map_range]. *)
Definition map_position {T R P Q} (f : P -> Q) (es : xerrors T R P) : xerrors T R Q := MkX (f (xposition es)) (xlist es).
Definition map_token {T R P U} (f : T -> U) (es : xerrors T R P) : xerrors U R P := MkX (xposition es) (List.map (error_map_token f) (xlist es)).
Definition map_range {T R P S} (f : R -> S) (es : xerrors T R P) : xerrors T S P := MkX (xposition es) (List.map (error_map_range f) (xlist es)).

(** [writeln!] ends with a line feed. *)
Definition newline : string := String (ascii_of_nat 10) EmptyString.

Section Fmt.
Context {T R : Type}.
(** [Display] of tokens and ranges. *)
Variable show_token : T -> string.
Variable show_range : R -> string.

(** stream/easy.rs:162-171 [Display for Info]. *)
Definition fmt_info (x : xinfo T R) : string :=
  match x with
  | XToken c => "`" ++ show_token c ++ "`"
  | XRange c => "`" ++ show_range c ++ "`"
  | XOwned s => s
  | XStatic s => s
  end.
(** stream/easy.rs:792-801 [Display for Error]. *)
Definition fmt_error (e : xerror T R) : string :=
  match e with
  | XUnexpected c => "Unexpected " ++ fmt_info c
  | XExpected s => "Expected " ++ fmt_info s
  | XMessage msg => fmt_info msg
  | XOther err => err
  end.
(** stream/easy.rs:590-592, 617-619 [for error in ... { writeln!(f, "{}", error)? }]. *)
Fixpoint fmt_lines (l : list (xerror T R)) : string :=
  match l with [] => "" | e :: r => (fmt_error e ++ newline) ++ fmt_lines r end.
(** stream/easy.rs:603-611 [for (i, message) in iter().enumerate()]. *)
Fixpoint fmt_expected (expected_count i : nat) (l : list (xinfo T R)) : string :=
  match l with
  | [] => ""
  | message :: r =>
      let s := if Nat.eqb i 0 then "Expected" else if Nat.ltb i (expected_count - 1) then "," else " or" in
      (s ++ " " ++ fmt_info message) ++ fmt_expected expected_count (1 + i) r
  end.
(** stream/easy.rs:586-589, 596-601, 614-617 the three filters. *)
Definition is_unexpected_x (e : xerror T R) : bool := match e with XUnexpected _ => true | _ => false end.
Fixpoint expected_x (l : list (xerror T R)) : list (xinfo T R) :=
  match l with [] => [] | XExpected x :: r => x :: expected_x r | _ :: r => expected_x r end.
Definition is_message_x (e : xerror T R) : bool := match e with XMessage _ | XOther _ => true | _ => false end.
(** stream/easy.rs:579-621 [Error::fmt_errors]. *)
Definition fmt_errors (es : list (xerror T R)) : string :=
  fmt_lines (filter is_unexpected_x es) ++
  (let l := expected_x es in
   fmt_expected (length l) 0 l ++ (if Nat.eqb (length l) 0 then "" else newline)) ++
  fmt_lines (filter is_message_x es).
(** stream/easy.rs:779-790 [Display for Errors]. *)
Definition fmt_report {P} (show_position : P -> string) (es : xerrors T R P) : string :=
  ("Parse error at " ++ show_position (xposition es) ++ newline) ++ fmt_errors (xlist es).
End Fmt.
