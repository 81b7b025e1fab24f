(** C28: which states earlier uses of a parser can leave behind, and the parsers ("tidy" ones) for which they do not
    matter. *)
From Coq Require Import String List Bool Arith NArith.
Import ListNotations.
From Verif Require Import Base Parser Token Combinator Sequence Choice Repeat RangeP ByteP Spec.
Set Implicit Arguments.

Section TidySpec.
Context {C : Cfg}.
Notation T := (tok C).
Notation E := (Err C).

(** The states of [p] after any number of uses within one parse, on whatever inputs.  With [after_errors = false]
    every earlier use ended in success or in a backtrackable failure, as is the case for a parser which is used again in
    the same parse unless something like [attempt] turned a committed failure into a backtrackable one. *)
Inductive leftover {S A} (after_errors : bool) (p : parser C S A) : S -> Prop :=
| left_init : leftover after_errors p (p_init p)
| left_run : forall st i r i' st', leftover after_errors p st -> p_run p true i st = Done (r, i', st') ->
    after_errors = true \/ not_commit_err r -> leftover after_errors p st'.

(** Earlier uses do not matter. *)
Definition history_free {S A} (after_errors : bool) (p : parser C S A) : Prop :=
  forall st, leftover after_errors p st -> forall i, omap fst (p_run p true i st) = fresh p i.

(** [p] never succeeds without committing. *)
Definition committing {S A} (p : parser C S A) : Prop := forall first i st a i' st', p_run p first i st <> Done (PeekOk a, i', st').

(** [tidy true p]: also after committed failures. *)
Inductive tidy : bool -> forall S A, parser C S A -> Prop :=
| td_weak : forall S A (p : parser C S A), tidy true p -> tidy false p
(* all parsers without partial state: token parsers, [no_partial], [look_ahead], [chainr1], [escaped], [parser!] without
   state, number parsers, [take], [range] ... *)
| td_unit : forall b A (p : parser C unit A), tidy b p
| td_message : forall b S A (p : parser C S A) m, tidy b p -> tidy b (message p m)
| td_expected : forall b S A (p : parser C S A) m, tidy b p -> tidy b (expected p m)
| td_silent : forall b S A (p : parser C S A), tidy b p -> tidy b (silent p)
| td_map : forall b S A B (p : parser C S A) (f : A -> B), tidy b p -> tidy b (map p f)
| td_map_input : forall b S A B (p : parser C S A) (f : A -> input C -> B * input C), tidy b p -> tidy b (map_input p f)
| td_flat_map : forall b S A B (p : parser C S A) (f : A -> B + E), tidy b p -> tidy b (flat_map p f)
| td_and_then : forall b S A B (p : parser C S A) (f : A -> B + SErr C), tidy b p -> tidy b (and_then p f)
| td_from_str : forall b S A B (p : parser C S A) (f : A -> option (B + string)), tidy b p -> tidy b (from_str p f)
| td_ignore : forall b S A (p : parser C S A), tidy b p -> tidy b (ignore p)
| td_lazy : forall b S A (p : parser C S A), tidy b p -> tidy b (lazy p)
| td_factory : forall b S A (p : parser C S A), tidy b p -> tidy b (factory p)
| td_opaque : forall b S A (p : parser C S A), tidy b p -> tidy b (opaque p)
| td_spanned : forall b Q (q : Q -> Q -> bool) x y m S A (p : parser C S A), tidy b p -> tidy b (spanned q x y m p)
| td_by_ref : forall b S A (p : parser C S A), tidy b p -> tidy b (by_ref p)
| td_parser_fn : forall b S A (p : parser C S A), tidy b p -> tidy b (parser_fn p)
| td_optional : forall b S A (p : parser C S A), tidy b p -> tidy b (optional p)
| td_any_partial_state : forall b S A (p : parser C S A), tidy b p -> tidy b (any_partial_state p)
| td_left : forall b S1 S2 A (p : parser C S1 A), tidy b p -> tidy b (@either C S1 S2 A (inl p))
| td_right : forall b S1 S2 A (p : parser C S2 A), tidy b p -> tidy b (@either C S1 S2 A (inr p))
| td_dispatch_here : forall b S SS A (p : parser C S A), tidy b p -> tidy b (dispatch (@DC C A S SS p))
| td_dispatch_later : forall b S SS A (d : disp (C:=C) A SS), tidy b (dispatch d) -> tidy b (dispatch (@DN C A S SS d))
| td_recognize_with_value : forall b S A (p : parser C S A), tidy b p -> tidy b (recognize_with_value p)
(* a success without commitment must not have moved: see C27 *)
| td_recognize : forall S A (p : parser C S A),
    (forall first i st a i' st', p_run p first i st = Done (PeekOk a, i', st') -> pos_eqb C (ipos i) (ipos i') = true) ->
    tidy false p -> tidy false (recognize p)
| td_take_while : forall b f, tidy b (@take_while C f)
| td_take_while1 : forall b f, tidy b (@take_while1 C f)
| td_take_fn : forall b s, tidy b (@take_fn C s)
(* combinators turning committed failures into something else need a child that is tidy after them *)
| td_attempt : forall b S A (p : parser C S A), tidy true p -> tidy b (attempt p)
| td_not_followed_by : forall b S A (p : parser C S A), tidy true p -> tidy b (not_followed_by p)
| td_tuple : forall b SS B (t : tup (C:=C) SS B), tidy_tup b t -> tidy b (tuple t)
| td_with : forall b S1 S2 A B (p : parser C S1 A) (q : parser C S2 B), tidy b p -> tidy b q -> tidy b (with_ p q)
| td_skip : forall b S1 S2 A B (p : parser C S1 A) (q : parser C S2 B), tidy b p -> tidy b q -> tidy b (skip p q)
| td_then : forall S1 A B (p : parser C S1 A) (f : A -> parser C unit B), tidy false p -> tidy false (then_ p tt f)
(* choices restart their alternatives from default states: no condition on the alternatives *)
| td_choice : forall b A SS (t : alts (C:=C) A SS), tidy b (choice t)
| td_or : forall b S1 S2 A (p : parser C S1 A) (q : parser C S2 A), tidy b (or_ p q)
| td_sep_by : forall b S1 S2 A B (p : parser C S1 A) (s : parser C S2 B), tidy b (sep_by p s)
| td_sep_end_by : forall b S1 S2 A B (p : parser C S1 A) (s : parser C S2 B), tidy b (sep_end_by p s)
| td_choice_slice : forall b A (ps : list (parser C unit A)), tidy b (choice_slice tt ps)
(* repetitions keep what they collected after a committed failure *)
| td_many : forall S A (p : parser C S A), tidy false p -> tidy false (many p)
| td_many1 : forall S A (p : parser C S A), tidy false p -> tidy false (many1 p)
| td_count_min_max : forall S A mn mx (p : parser C S A), mn <= 1 \/ committing p -> tidy false p -> tidy false (count_min_max mn mx p)
| td_sep_by1 : forall S1 S2 A B (p : parser C S1 A) (s : parser C S2 B), tidy false p -> tidy false s -> tidy false (sep_by1 p s)
| td_sep_end_by1 : forall S1 S2 A B (p : parser C S1 A) (s : parser C S2 B), tidy false p -> tidy false s -> tidy false (sep_end_by1 p s)
| td_chainl1 : forall S2 A (p : parser C unit A) (o : parser C S2 (A -> A -> A)), tidy false o -> tidy false (chainl1 p o)
| td_iterate : forall J A (items : list J) (f : J -> parser C unit A),
    length items <= 1 \/ (forall x, committing (f x)) -> tidy false (iterate tt items f)
with tidy_tup : bool -> forall SS B, tup (C:=C) SS B -> Prop :=
| td_T1 : forall b S A (p : parser C S A), tidy b p -> tidy_tup b (T1 p)
| td_TC : forall b S A SS B (p : parser C S A) (t : tup (C:=C) SS B), tidy b p -> tidy_tup b t -> tidy_tup b (TC p t).

Scheme tidy_mut := Minimality for tidy Sort Prop
with tidy_tup_mut := Minimality for tidy_tup Sort Prop.
End TidySpec.
