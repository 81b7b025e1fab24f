(** The parser of examples/ini.rs. *)
From Coq Require Import String List Bool Arith NArith.
Import ListNotations.
From Verif Require Import Base Parser Errors Token Combinator Sequence Choice Repeat RangeP ByteP Instances JsonM.
Set Implicit Arguments.

(** examples/ini.rs:35-39 [Ini].  A [HashMap] is the list of the entries inserted, in the order of the text (the last one counts). *)
Record ini_v (X : Type) : Type := IniV { i_global : list (list X * list X); i_sections : list (list X * list (list X * list X)) }.

Section Ini.
Context {C : Cfg}.
Notation T := (tok C).
(** The tokens are characters. *)
Variable code : T -> N.
Variable lit : N -> T.

(** examples/ini.rs:46-48: the closures. *)
Definition key_char (t : T) : bool := negb (code t =? 61)%N && negb (code t =? 91)%N && negb (code t =? 59)%N.
Definition value_char (t : T) : bool := negb (code t =? 10)%N && negb (code t =? 59)%N.
(** examples/ini.rs:41-52 *)
Definition property :=
  message (map (tuple (TC (many1 (satisfy key_char)) (TC (jchar lit 61) (T1 (many1 (satisfy value_char))))))
                (fun x => match x with (key, (_, value)) => (key, value) end))
    (IStatic "while parsing property").

(** examples/ini.rs:54-62 *)
Definition comment := map (tuple (TC (jchar lit 59) (T1 (skip_many (satisfy (fun t => negb (code t =? 10)%N)))))) (fun _ => tt).
Definition whitespace := skip_many (or_ (skip_many1 (c_space code)) comment).

(** examples/ini.rs:64-70 *)
Definition properties := many (skip property whitespace).

(** examples/ini.rs:72-83 *)
Definition section :=
  message (map (tuple (TC (between (jchar lit 91) (jchar lit 93) (many (satisfy (fun t => negb (code t =? 93)%N))))
                      (TC whitespace (T1 properties))))
                (fun x => match x with (name, (_, properties)) => (name, properties) end))
    (IStatic "while parsing section").

(** examples/ini.rs:85-91 *)
Definition ini := map (tuple (TC whitespace (TC properties (T1 (many section))))) (fun x => match x with (_, (global, sections)) => IniV global sections end).
End Ini.
