(** Properties C80 and C81, continued, and C83: the decoders of tests/async.rs outside the class of C74. *)
From Coq Require Import String List Bool Arith NArith Lia.
Import ListNotations.
From Verif Require Import Base Errors Instances Parser Token Combinator Sequence Choice Repeat RangeP ByteP DecodeM.
From Verif Require Import Spec FramedM FramedM3 FramedSpec FramedSpec2 FinProofs UntilProofs UntilProofs2 Properties1 Properties29 Properties31.
Unset Implicit Arguments.

Ltac fin n :=
  match goal with |- forall cs m, concat cs = ?text -> _ -> run_decoder m ?p ?pos cs = Done (inl ?vs) =>
    simple refine (closed_runs BC _ _ p _ _ n pos text vs _ _);
      [intros a b; cbn in a, b; change (Pos BC) with nat in *; change (tok BC) with N in *; repeat decide equality|cbn; repeat decide equality
      |discriminate|vm_compute; reflexivity] end.

(** tests/async.rs:464-483: texts ended by commas, cut anywhere. *)
Theorem C80_take_until : forall C, decoder_stream C -> forall lit : N -> tok C,
  gives_back (until_comma_parser lit) (fun w => ~ In (lit 44%N) w) (fun w => w ++ [lit 44%N]) (fun w => w).
Proof.
  intros C [EL [L [_ [SL _]]]] lit pos cs ms m HM EQ _ Hm. rewrite map_id. apply (until_runs EL L SL lit pos cs ms []); auto. rewrite app_nil_r. exact EQ.
Qed.
Print Assumptions C80_take_until.
(** The same decoder on any text (of any length): the parts that a comma ends; what follows the last comma is dropped without an error. *)
Theorem C81_take_until : forall C, decoder_stream C -> forall (lit : N -> tok C) pos cs ms tail m,
  Forall (fun w => ~ In (lit 44%N) w) ms -> ~ In (lit 44%N) tail -> concat cs = concat (List.map (fun w => w ++ [lit 44%N]) ms) ++ tail ->
  length ms + length cs + 1 < m -> run_decoder m (until_comma_parser lit) pos cs = Done (inl ms).
Proof. intros C [EL [L [_ [SL _]]]] lit. apply (until_runs EL L SL lit). Qed.
Print Assumptions C81_take_until.
(** tests/async.rs:485-506: texts without colons ended by two colons, cut anywhere, also between the colons. *)
Theorem C80_take_until_committed : forall C, decoder_stream C -> forall lit : N -> tok C,
  gives_back (until_committed_parser lit) (fun w => ~ In (lit 58%N) w) (with_colons lit) (fun w => w).
Proof. intros C [EL [L [_ [SL _]]]] lit pos cs ms m HM EQ _ Hm. rewrite map_id. apply (until2_runs EL L SL lit pos cs ms); auto. Qed.
Print Assumptions C80_take_until_committed.
(** C83 in full: for all lists [ms] of lists of elements of three digits, each list written with "::" between its elements, with or
    without "::" behind the last one, and "\r\n", every cut of the text gives back [ms].  Proved is the claim for two texts, for
    every cut of each into any number of reads; missing are the other texts.
    tests/async.rs:610-622, "123::456::789::\r\n". *)
Theorem C83_text_partial : forall cs m, concat cs = ([49; 50; 51; 58; 58; 52; 53; 54; 58; 58; 55; 56; 57; 58; 58; 13; 10]%N : list (tok BC)) -> 1 + length cs < m ->
  run_decoder (C:=BC) m (sep_end_parser (C:=BC) (fun n => n) (fun n => n)) 0 cs = Done (inl [[[49; 50; 51]; [52; 53; 54]; [55; 56; 57]]]%N).
Proof. fin 4900. Qed.
Print Assumptions C83_text_partial.
(** "123::456\r\n\r\n789::\r\n" has three lists, the first without a separator at its end and the second empty. *)
Theorem C83_lists_partial : forall cs m, concat cs = ([49; 50; 51; 58; 58; 52; 53; 54; 13; 10; 13; 10; 55; 56; 57; 58; 58; 13; 10]%N : list (tok BC)) -> 3 + length cs < m ->
  run_decoder (C:=BC) m (sep_end_parser (C:=BC) (fun n => n) (fun n => n)) 0 cs = Done (inl [[[49; 50; 51]; [52; 53; 54]]; []; [[55; 56; 57]]]%N).
Proof. fin 4900. Qed.
Print Assumptions C83_lists_partial.
(** The decoder of [take_until_committed] on "1:2::": at once the value is "1:2".  If a read ends behind the first colon, [take_until]
    puts the colon back but the end parser keeps in its state that it has seen one: resumed, it takes the same colon for the
    second, and the decoder fails at the 2. *)
Theorem C81_take_until_refuted :
  let p := until_committed_parser (C:=BC) (fun n => n) in
  run_decoder (C:=BC) 30 p 0 [[49; 58; 50; 58; 58]]%N = Done (inl [[49; 58; 50]]%N) /\
  run_decoder (C:=BC) 30 p 0 [[49; 58]; [50; 58; 58]]%N = Done (inr (MkErrs 2 [EUnexpected (IToken 50%N); EExpected (IToken 58%N)])).
Proof. cbn zeta. split; vm_compute; reflexivity. Qed.
Print Assumptions C81_take_until_refuted.
(** The same decoder on the text "123::45\r\n", which has a digit missing: at once it is an error.  If a read ends behind the 5, the
    suspended element is taken for absent when it is resumed, the "45" it had consumed is dropped and the decoder gives ["123"]
    without an error.  So the claim of C81 does not hold for all parsers of the tests. *)
Theorem C81_sep_end_by_refuted :
  let p := sep_end_parser (C:=BC) (fun n => n) (fun n => n) in
  fails (fresh p) (@Inp BC [49; 50; 51; 58; 58; 52; 53; 13; 10]%N 0 false) true /\
  match run_decoder (C:=BC) 30 p 0 [[49; 50; 51; 58; 58; 52; 53; 13; 10]%N] with Done (inr e) => eposition e | _ => 99 end = 7 /\
  run_decoder (C:=BC) 30 p 0 [[49; 50; 51; 58; 58; 52; 53]; [13; 10]]%N = Done (inl [[[49; 50; 51]]]%N).
Proof. cbn zeta. split; [apply c81_fails; vm_compute; reflexivity|]. split; vm_compute; reflexivity. Qed.
Print Assumptions C81_sep_end_by_refuted.

(** "123,456,789," in single bytes with an empty read in front, and with "10" behind it. *)
Example C80_ex_fixed_text : run_decoder (C:=BC) 20 (until_comma_parser (C:=BC) (fun n => n)) 0 ([] :: List.map (fun b => [b]) [49; 50; 51; 44; 52; 53; 54; 44; 55; 56; 57; 44])%N =
  Done (inl [[49; 50; 51]; [52; 53; 54]; [55; 56; 57]]%N).
Proof.
  refine (C80_take_until BC (C80_streams 100 true) (fun n => n) 0 ([] :: List.map (fun b => [b]) [49; 50; 51; 44; 52; 53; 54; 44; 55; 56; 57; 44])%N [[49; 50; 51]; [52; 53; 54]; [55; 56; 57]]%N 20 _ eq_refl _ _).
  - repeat constructor; intros K; repeat (destruct K as [K|K]; [discriminate K|]); exact K.
  - cbn. lia.
  - cbn. lia.
Qed.
Example C81_ex_tail : run_decoder (C:=BC) 20 (until_comma_parser (C:=BC) (fun n => n)) 0 [[49; 50]; [51; 44; 49]; [48]]%N = Done (inl [[49; 50; 51]]%N).
Proof.
  refine (C81_take_until BC (C80_streams 100 true) (fun n => n) 0 [[49; 50]; [51; 44; 49]; [48]]%N [[49; 50; 51]]%N [49; 48]%N 20 _ _ eq_refl _).
  - repeat constructor; intros K; repeat (destruct K as [K|K]; [discriminate K|]); exact K.
  - intros K; repeat (destruct K as [K|K]; [discriminate K|]); exact K.
  - cbn. lia.
Qed.
Example C80_ex_colons : run_decoder (C:=BC) 20 (until_committed_parser (C:=BC) (fun n => n)) 0 [[49; 50; 58]; []; [58; 58]; [58; 55]; [58]; [58]]%N = Done (inl [[49; 50]; []; [55]]%N).
Proof.
  refine (C80_take_until_committed BC (C80_streams 100 true) (fun n => n) 0 [[49; 50; 58]; []; [58; 58]; [58; 55]; [58]; [58]]%N [[49; 50]; []; [55]]%N 20 _ eq_refl _ _).
  - repeat constructor; intros K; repeat (destruct K as [K|K]; [discriminate K|]); exact K.
  - cbn. lia.
  - cbn. lia.
Qed.
