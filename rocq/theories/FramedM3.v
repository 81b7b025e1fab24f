(** Three more decoders of tests/async.rs: [take_until], [take_until_committed] and [sep_end_by_test]. *)
From Coq Require Import String List Bool Arith NArith.
Import ListNotations.
From Verif Require Import Base Parser Errors Token Combinator Sequence Choice Repeat RangeP ByteP FramedM.
Set Implicit Arguments.

Section Framed3.
Context {C : Cfg}.
Notation T := (tok C).
Variable code : T -> N.
Variable lit : N -> T.

(** tests/async.rs:464-470; the counter is left out. *)
Definition until_comma_parser := skip (take_until (map (token (lit 44)) (fun _ => tt))) (token (lit 44)).
(** tests/async.rs:485-491; the counter is left out. *)
Definition until_committed_parser :=
  skip (take_until (attempt (tuple (TC (map (token (lit 58)) (fun _ => tt)) (T1 (token (lit 58))))))) (tuple (TC (token (lit 58)) (T1 (token (lit 58))))).
(** tests/async.rs:610-614. *)
Definition sep_end_parser :=
  skip (sep_end_by (map (tuple (TC (c_digit code) (TC (c_digit code) (T1 (c_digit code))))) (fun x => [fst x; fst (snd x); snd (snd x)]))
          (no_partial (string_p "::" [lit 58; lit 58])))
    (no_partial (string_p "\r\n" [lit 13; lit 10])).
End Framed3.
