(** The three error representations of the library as configurations: [UnexpectedParse], [StringStreamError],
    [easy::Errors] and [easy::Error], and the conversions between them. *)
From Coq Require Import String List Bool Arith NArith.
Import ListNotations.
From Verif Require Import Base.
Set Implicit Arguments.

(** The part of a configuration that does not depend on the error type. [pos_cmp] is [Position: Ord], [pos_default]
    is [Position: Default]. *)
Record TokCfg : Type := MkTok {
  t_tok : Type;
  t_eqb : t_tok -> t_tok -> bool;
  t_width : t_tok -> nat;
  t_Pos : Type;
  t_pos_cmp : t_Pos -> t_Pos -> comparison;
  t_pos_step : t_Pos -> t_tok -> t_Pos;
  t_pos_default : t_Pos
}.

(** [Position: PartialEq], agreeing with [Ord] as its contract demands. *)
Definition t_pos_eqb (T : TokCfg) (p q : t_Pos T) : bool :=
  match t_pos_cmp T p q with Eq => true | _ => false end.

(** * [UnexpectedParse] (error.rs:553-731) *)
Inductive unexpected_parse := UEoi | UUnexpected.

(** error.rs:672-680 [ParseError::add]. *)
Definition u_add (a b : unexpected_parse) : unexpected_parse :=
  match a with UEoi => UEoi | UUnexpected => b end.

(** error.rs:636-639. *)
Definition u_is_eoi (a : unexpected_parse) : bool := match a with UEoi => true | UUnexpected => false end.

(** error.rs:581-720; [merge] and [clear_expected] are the trait defaults (error.rs:481-486, 518); the character
    boundary error cannot occur for slices. *)
Definition cfg_unexpected (T : TokCfg) (fl : nat) (d : bool) : Cfg := {|
  tok := t_tok T; tok_eqb := t_eqb T; width := t_width T;
  Pos := t_Pos T; pos_eqb := t_pos_eqb T; pos_step := t_pos_step T;
  SErr := unexpected_parse;
  se_unexpected := fun _ => UUnexpected;
  se_expected := fun _ => UUnexpected;
  se_message := fun _ => UUnexpected;
  se_eoi := UEoi;
  se_boundary := UUnexpected;
  se_is_eoi := u_is_eoi;
  Err := unexpected_parse;
  e_empty := fun _ => UUnexpected;
  e_from := fun _ e => e;
  e_position := fun _ => t_pos_default T;
  e_setpos := fun e _ => e;
  e_merge := fun _ b => b;
  e_add := u_add;
  e_set_expected := fun t x f => Trk x (toff (f t));
  e_clear_expected := fun e => e;
  e_is_eoi := u_is_eoi;
  fuel := fl; dbg := d
|}.

(** * [StringStreamError] (error.rs:733-919) *)
Inductive string_error := SUnexpectedParse | SEoi | SCharacterBoundary.

(** error.rs:740 [CHAR_BOUNDARY_ERROR_MESSAGE]. *)
Definition char_boundary_msg : string := "unexpected slice on character boundary".

(** error.rs:806-820: [message_static_message] recognises the boundary message, every other constructor gives
    [UnexpectedParse]. *)
Definition s_message {T} (x : info T) : string_error :=
  match x with
  | IStatic s => if String.eqb s char_boundary_msg then SCharacterBoundary else SUnexpectedParse
  | _ => SUnexpectedParse
  end.

(** error.rs:862-868. *)
Definition s_add (a b : string_error) : string_error := match a with SEoi => SEoi | _ => b end.

(** error.rs:825-827. *)
Definition s_is_eoi (a : string_error) : bool := match a with SEoi => true | _ => false end.

(** error.rs:766-890. *)
Definition cfg_string (T : TokCfg) (fl : nat) (d : bool) : Cfg := {|
  tok := t_tok T; tok_eqb := t_eqb T; width := t_width T;
  Pos := t_Pos T; pos_eqb := t_pos_eqb T; pos_step := t_pos_step T;
  SErr := string_error;
  se_unexpected := fun _ => SUnexpectedParse;
  se_expected := fun _ => SUnexpectedParse;
  se_message := s_message;
  se_eoi := SEoi;
  se_boundary := SCharacterBoundary;
  se_is_eoi := s_is_eoi;
  Err := string_error;
  e_empty := fun _ => SUnexpectedParse;
  e_from := fun _ e => e;
  e_position := fun _ => t_pos_default T;
  e_setpos := fun e _ => e;
  e_merge := fun _ b => b;
  e_add := s_add;
  e_set_expected := fun t x f => Trk x (toff (f t));
  e_clear_expected := fun e => e;
  e_is_eoi := s_is_eoi;
  fuel := fl; dbg := d
|}.

(** * [easy::Error], [easy::Errors] (stream/easy.rs) *)

(** stream/easy.rs:149-161 [impl PartialEq for Info]: owned and static text compare by content. *)
Definition info_eqb {T} (eqb : T -> T -> bool) (a b : info T) : bool :=
  let fix leqb (l r : list T) : bool :=
    match l, r with
    | [], [] => true
    | x :: l', y :: r' => eqb x y && leqb l' r'
    | _, _ => false
    end in
  match a, b with
  | IToken l, IToken r => eqb l r
  | IRange l, IRange r => leqb l r
  | IFormat l, IFormat r => String.eqb l r
  | IStatic l, IFormat r => String.eqb l r
  | IFormat l, IStatic r => String.eqb l r
  | IStatic l, IStatic r => String.eqb l r
  | _, _ => false
  end.

(** stream/easy.rs:198-203 [enum Error<T, R>]; the boxed [Other] error is represented by its displayed text. *)
Inductive easy_error (T : Type) : Type :=
| EUnexpected (x : info T)
| EExpected (x : info T)
| EMessage (x : info T)
| EOther (s : string).
Arguments EUnexpected {T} x.
Arguments EExpected {T} x.
Arguments EMessage {T} x.
Arguments EOther {T} s.

(** stream/easy.rs:531-540 [impl PartialEq for Error]: [Other] is never equal to anything. *)
Definition easy_eqb {T} (eqb : T -> T -> bool) (a b : easy_error T) : bool :=
  match a, b with
  | EUnexpected l, EUnexpected r => info_eqb eqb l r
  | EExpected l, EExpected r => info_eqb eqb l r
  | EMessage l, EMessage r => info_eqb eqb l r
  | _, _ => false
  end.

(** stream/easy.rs:553-555 [Error::end_of_input]. *)
Definition easy_eoi {T} : easy_error T := EUnexpected (IStatic "end of input").

Definition is_expected {T} (e : easy_error T) : bool := match e with EExpected _ => true | _ => false end.

(** stream/easy.rs:637-642 [struct Errors<T, R, P>]. *)
Record errors (T P : Type) : Type := MkErrs { eposition : P; elist : list (easy_error T) }.
Arguments MkErrs {T P}.
Arguments eposition {T P}.
Arguments elist {T P}.

Section Easy.
Variable T : TokCfg.
Notation eerr := (easy_error (t_tok T)).
Notation eerrs := (errors (t_tok T) (t_Pos T)).

(** stream/easy.rs:675-684 [Errors::add_error]: push unless an equal error is there. *)
Definition easy_add (es : eerrs) (e : eerr) : eerrs :=
  if forallb (fun x => negb (easy_eqb (t_eqb T) x e)) (elist es)
  then MkErrs (eposition es) (elist es ++ [e]) else es.

(** stream/easy.rs:699-720 [Errors::merge]. *)
Definition easy_merge (a b : eerrs) : eerrs :=
  match t_pos_cmp T (eposition a) (eposition b) with
  | Lt => b
  | Gt => a
  | Eq => fold_left easy_add (elist b) a
  end.

(** stream/easy.rs:453-474 [ParseError::set_expected for Errors]: run [f], drop the expected errors it added, add [x]. *)
Definition easy_set_expected (t : trk eerrs) (x : eerr) (f : trk eerrs -> trk eerrs) : trk eerrs :=
  let start := length (elist (terr t)) in
  let t' := f t in
  let es := elist (terr t') in
  let kept := firstn start es ++ filter (fun e => negb (is_expected e)) (skipn start es) in
  Trk (easy_add (MkErrs (eposition (terr t')) kept) x) (toff t').

(** stream/easy.rs:476-481 [ParseError::clear_expected for Errors]. *)
Definition easy_clear_expected (es : eerrs) : eerrs :=
  MkErrs (eposition es) (filter (fun e => negb (is_expected e)) (elist es)).

(** stream/easy.rs:274-276 [StreamError::is_unexpected_end_of_input for Error]. *)
Definition easy1_is_eoi (e : eerr) : bool := easy_eqb (t_eqb T) e easy_eoi.

(** stream/easy.rs:483-487 [ParseError::is_unexpected_end_of_input for Errors]. *)
Definition easy_is_eoi (es : eerrs) : bool := existsb easy1_is_eoi (elist es).

(** stream/easy.rs:209-312 [StreamError for Error] and 415-499 [ParseError for Errors].  [Format] text becomes [Owned]
    ([IFormat]).  Stream errors arrive through [StreamError::into_other] ([easy::Stream::uncons] and
    [uncons_range]): end of input is [end_of_input], the boundary error is [unexpected_static_message]. *)
Definition cfg_easy (fl : nat) (d : bool) : Cfg := {|
  tok := t_tok T; tok_eqb := t_eqb T; width := t_width T;
  Pos := t_Pos T; pos_eqb := t_pos_eqb T; pos_step := t_pos_step T;
  SErr := eerr;
  se_unexpected := @EUnexpected (t_tok T);
  se_expected := @EExpected (t_tok T);
  se_message := @EMessage (t_tok T);
  se_eoi := easy_eoi;
  se_boundary := EUnexpected (IStatic char_boundary_msg);
  se_is_eoi := easy1_is_eoi;
  Err := eerrs;
  e_empty := fun p => MkErrs p [];
  e_from := fun p e => MkErrs p [e];
  e_position := @eposition _ _;
  e_setpos := fun e p => MkErrs p (elist e);
  e_merge := easy_merge;
  e_add := easy_add;
  e_set_expected := easy_set_expected;
  e_clear_expected := easy_clear_expected;
  e_is_eoi := easy_is_eoi;
  fuel := fl; dbg := d
|}.

(** stream/easy.rs:315-364 [ParseError for Error]: a single error, [add] replaces. *)
Definition cfg_easy1 (fl : nat) (d : bool) : Cfg := {|
  tok := t_tok T; tok_eqb := t_eqb T; width := t_width T;
  Pos := t_Pos T; pos_eqb := t_pos_eqb T; pos_step := t_pos_step T;
  SErr := eerr;
  se_unexpected := @EUnexpected (t_tok T);
  se_expected := @EExpected (t_tok T);
  se_message := @EMessage (t_tok T);
  se_eoi := easy_eoi;
  se_boundary := EUnexpected (IStatic char_boundary_msg);
  se_is_eoi := easy1_is_eoi;
  Err := eerr;
  e_empty := fun _ => EMessage (IStatic "");
  e_from := fun _ e => e;
  e_position := fun _ => t_pos_default T;
  e_setpos := fun e _ => e;
  e_merge := fun _ b => b;
  e_add := fun _ b => b;
  e_set_expected := fun t x f => Trk x (toff (f t));
  e_clear_expected := fun e => e;
  e_is_eoi := easy1_is_eoi;
  fuel := fl; dbg := d
|}.

End Easy.

(** * Conversions: [StreamError::into_other] / [ParseError::into_other] / [ParseErrorInto::into_other_error]. *)
Section Into.
Variable D : Cfg.

(** error.rs:641-650 [UnexpectedParse]. *)
Definition u_into (e : unexpected_parse) : SErr D :=
  match e with UUnexpected => se_unexpected D (IStatic "parse") | UEoi => se_eoi D end.

(** error.rs:829-839 [StringStreamError]. *)
Definition s_into (e : string_error) : SErr D :=
  match e with
  | SCharacterBoundary => se_unexpected D (IStatic char_boundary_msg)
  | SUnexpectedParse => se_unexpected D (IStatic "parse")
  | SEoi => se_eoi D
  end.

(** stream/easy.rs:287-312 [StreamError::into_other for Error] and 384-412 [StreamErrorInto for Error] (tokens and ranges converted
    by [Item2: From<Item>], here the same type). Messages become expected errors. *)
Definition easy1_into (e : easy_error (tok D)) : SErr D :=
  match e with
  | EUnexpected x => se_unexpected D x
  | EExpected x => se_expected D x
  | EMessage x => se_expected D x
  | EOther s => se_message D (IFormat s)
  end.

(** error.rs:696-701, 884-889 and stream/easy.rs:358-363 [ParseError::into_other] of the types without a position; [p0] is
    [Position::default()]. *)
Definition u_into_err (p0 : Pos D) (e : unexpected_parse) : Err D := e_from D p0 (u_into e).
Definition s_into_err (p0 : Pos D) (e : string_error) : Err D := e_from D p0 (s_into e).
Definition easy1_into_err (p0 : Pos D) (e : easy_error (tok D)) : Err D := e_from D p0 (easy1_into e).

(** stream/easy.rs:490-498 [ParseError::into_other for Errors]: only the last error is kept. *)
Definition easy_into (es : errors (tok D) (Pos D)) : Err D :=
  match rev (elist es) with
  | e :: _ => e_from D (eposition es) (easy1_into e)
  | [] => e_empty D (eposition es)
  end.

(** stream/easy.rs:366-382 [ParseErrorInto for Errors]: all errors are added to an empty one. *)
Definition easy_into_all (es : errors (tok D) (Pos D)) : Err D :=
  fold_left (fun acc e => e_add D acc (easy1_into e)) (elist es) (e_empty D (eposition es)).

End Into.
