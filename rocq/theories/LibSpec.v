(** The parsers that can be built from the modelled library: the smallest family containing the library's primitive
    parsers and closed under its combinators.  Derived parsers of the library ([skip_many], [between], [bytes],
    [count], ...) are compositions of these. *)
From Coq Require Import String List Bool Arith NArith.
Import ListNotations.
From Verif Require Import Base Parser Token Combinator Sequence Choice Repeat RangeP ByteP Spec.
Set Implicit Arguments.

Section LibSpec.
Context {C : Cfg}.
Notation T := (tok C).
Notation E := (Err C).

(** A user function given to [parser(..)] is admitted if it leaves the stream at or after where it found it; so is one
    given to [map_input]. *)
Definition fn_forward {A} (f : input C -> outcome (std_result A E * input C)) : Prop :=
  forall i x i', f i = Done (x, i') -> advanced i i'.

Inductive lib : forall S A, parser C S A -> Prop :=
| lib_any : lib (@any C)
| lib_satisfy : forall f, lib (@satisfy C f)
| lib_satisfy_map : forall R (f : T -> option R), lib (satisfy_map f)
| lib_token : forall c, lib (@token C c)
| lib_one_of : forall l, lib (@one_of C l)
| lib_none_of : forall l, lib (@none_of C l)
| lib_tokens : forall X (cmp : X -> T -> bool) e l, lib (tokens cmp e l)
| lib_tokens_cmp : forall X (cmp : X -> T -> bool) l, lib (tokens_cmp l cmp)
| lib_position : lib (@position C)
| lib_value : forall A (v : A), lib (@value C A v)
| lib_produce : forall A (f : unit -> A), lib (@produce C A f)
| lib_unexpected_any : forall A m, lib (@unexpected_any C A m)
| lib_eof : lib (@eof C)
| lib_take : forall n, lib (@take C n)
| lib_range : forall r, lib (@range C r)
| lib_take_while : forall f, lib (@take_while C f)
| lib_take_while1 : forall f, lib (@take_while1 C f)
| lib_take_until_range : forall r, lib (@take_until_range C r)
| lib_take_fn : forall s, lib (@take_fn C s)
| lib_fn_parser : forall A (f : input C -> outcome (std_result A E * input C)), fn_forward f -> lib (fn_parser f)
| lib_num_parser : forall A code k (d : list N -> A), lib (@num_parser C code A k d)
| lib_message : forall S A (p : parser C S A) m, lib p -> lib (message p m)
| lib_expected : forall S A (p : parser C S A) m, lib p -> lib (expected p m)
| lib_silent : forall S A (p : parser C S A), lib p -> lib (silent p)
| lib_not_followed_by : forall S A (p : parser C S A), lib p -> lib (not_followed_by p)
| lib_attempt : forall S A (p : parser C S A), lib p -> lib (attempt p)
| lib_look_ahead : forall S A (p : parser C S A), lib p -> lib (look_ahead p)
| lib_map : forall S A B (p : parser C S A) (f : A -> B), lib p -> lib (map p f)
| lib_map_input : forall S A B (p : parser C S A) (f : A -> input C -> B * input C),
    (forall a i, advanced i (snd (f a i))) -> lib p -> lib (map_input p f)
| lib_flat_map : forall S A B (p : parser C S A) (f : A -> B + E), lib p -> lib (flat_map p f)
| lib_and_then : forall S A B (p : parser C S A) (f : A -> B + SErr C), lib p -> lib (and_then p f)
| lib_from_str : forall S A B (p : parser C S A) (f : A -> option (B + string)), lib p -> lib (from_str p f)
| lib_recognize : forall S A (p : parser C S A), lib p -> lib (recognize p)
| lib_no_partial : forall S A (p : parser C S A), lib p -> lib (no_partial p)
| lib_ignore : forall S A (p : parser C S A), lib p -> lib (ignore p)
| lib_any_partial_state : forall S A (p : parser C S A), lib p -> lib (any_partial_state p)
| lib_lazy : forall S A (p : parser C S A), lib p -> lib (lazy p)
| lib_factory : forall S A (p : parser C S A), lib p -> lib (factory p)
| lib_opaque : forall S A (p : parser C S A), lib p -> lib (opaque p)
| lib_spanned : forall Q (q : Q -> Q -> bool) a b m S A (p : parser C S A), lib p -> lib (spanned q a b m p)
| lib_by_ref : forall S A (p : parser C S A), lib p -> lib (by_ref p)
| lib_parser_fn : forall S A (p : parser C S A), lib p -> lib (parser_fn p)
| lib_parser_fn0 : forall S A (p : parser C S A), lib p -> lib (parser_fn0 p)
| lib_optional : forall S A (p : parser C S A), lib p -> lib (optional p)
| lib_left : forall S1 S2 A (p : parser C S1 A), lib p -> lib (@either C S1 S2 A (inl p))
| lib_right : forall S1 S2 A (p : parser C S2 A), lib p -> lib (@either C S1 S2 A (inr p))
| lib_dispatch_here : forall S SS A (p : parser C S A), lib p -> lib (dispatch (@DC C A S SS p))
| lib_dispatch_later : forall S SS A (d : disp (C:=C) A SS), lib (dispatch d) -> lib (dispatch (@DN C A S SS d))
| lib_input_converter : forall (D : Cfg) S A (p : parser D S A) (conv : input C -> (input D + Err C) * input C) (cerr : Err D -> input C -> Err C * input C),
    (forall i, advanced i (snd (conv i))) -> (forall e i, advanced i (snd (cerr e i))) -> lib (input_converter p conv cerr)
| lib_tuple : forall SS B (t : tup (C:=C) SS B), lib_tup t -> lib (tuple t)
| lib_with : forall S1 S2 A B (p : parser C S1 A) (q : parser C S2 B), lib p -> lib q -> lib (with_ p q)
| lib_skip : forall S1 S2 A B (p : parser C S1 A) (q : parser C S2 B), lib p -> lib q -> lib (skip p q)
| lib_then : forall S1 S2 A B (p : parser C S1 A) s0 (f : A -> parser C S2 B), lib p -> (forall a, lib (f a)) -> lib (then_ p s0 f)
| lib_then_ref : forall S1 S2 A B (p : parser C S1 A) s0 (f : A -> parser C S2 B), lib p -> (forall a, lib (f a)) -> lib (then_ref p s0 f)
| lib_choice : forall A SS (t : alts (C:=C) A SS), lib_alts t -> lib (choice t)
| lib_or : forall S1 S2 A (p : parser C S1 A) (q : parser C S2 A), lib p -> lib q -> lib (or_ p q)
| lib_choice_slice : forall S A (s0 : S) (ps : list (parser C S A)), lib_list ps -> lib (choice_slice s0 ps)
| lib_count_min_max : forall S A mn mx (p : parser C S A), lib p -> lib (count_min_max mn mx p)
| lib_many : forall S A (p : parser C S A), lib p -> lib (many p)
| lib_many1 : forall S A (p : parser C S A), lib p -> lib (many1 p)
| lib_sep_by : forall S1 S2 A B (p : parser C S1 A) (s : parser C S2 B), lib p -> lib s -> lib (sep_by p s)
| lib_sep_by1 : forall S1 S2 A B (p : parser C S1 A) (s : parser C S2 B), lib p -> lib s -> lib (sep_by1 p s)
| lib_sep_end_by : forall S1 S2 A B (p : parser C S1 A) (s : parser C S2 B), lib p -> lib s -> lib (sep_end_by p s)
| lib_sep_end_by1 : forall S1 S2 A B (p : parser C S1 A) (s : parser C S2 B), lib p -> lib s -> lib (sep_end_by1 p s)
| lib_chainl1 : forall S1 S2 A (p : parser C S1 A) (o : parser C S2 (A -> A -> A)), lib p -> lib o -> lib (chainl1 p o)
| lib_chainr1 : forall S1 S2 A (p : parser C S1 A) (o : parser C S2 (A -> A -> A)), lib p -> lib o -> lib (chainr1 p o)
| lib_take_until : forall S A (p : parser C S A), lib p -> lib (take_until p)
| lib_repeat_until : forall S1 S2 A B (p : parser C S1 A) (e : parser C S2 B), lib p -> lib e -> lib (repeat_until p e)
| lib_escaped : forall S1 S2 A B (p : parser C S1 A) c (e : parser C S2 B), lib p -> lib e -> lib (escaped p c e)
| lib_iterate : forall J S A (s0 : S) (items : list J) (f : J -> parser C S A), (forall x, lib (f x)) -> lib (iterate s0 items f)
| lib_recognize_with_value : forall S A (p : parser C S A), lib p -> lib (recognize_with_value p)
with lib_tup : forall SS B, tup (C:=C) SS B -> Prop :=
| lib_T1 : forall S A (p : parser C S A), lib p -> lib_tup (T1 p)
| lib_TC : forall S A SS B (p : parser C S A) (t : tup (C:=C) SS B), lib p -> lib_tup t -> lib_tup (TC p t)
with lib_alts : forall A SS, alts (C:=C) A SS -> Prop :=
| lib_AL : forall S A (p : parser C S A), lib p -> lib_alts (AL p)
| lib_AC : forall S A SS (p : parser C S A) (t : alts (C:=C) A SS), lib p -> lib_alts t -> lib_alts (AC p t)
with lib_list : forall S A, list (parser C S A) -> Prop :=
| lib_nil : forall S A, lib_list (@nil (parser C S A))
| lib_cons : forall S A (p : parser C S A) l, lib p -> lib_list l -> lib_list (p :: l).

Scheme lib_mut := Minimality for lib Sort Prop
with lib_tup_mut := Minimality for lib_tup Sort Prop
with lib_alts_mut := Minimality for lib_alts Sort Prop
with lib_list_mut := Minimality for lib_list Sort Prop.
End LibSpec.
