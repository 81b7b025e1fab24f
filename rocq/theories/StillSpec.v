(** C27: an uncommitted success has consumed nothing. *)
From Coq Require Import String List Bool Arith NArith.
Import ListNotations.
From Verif Require Import Base Parser Token Combinator Sequence Choice Repeat RangeP ByteP Spec.
Set Implicit Arguments.

Section StillSpec.
Context {C : Cfg}.
Notation T := (tok C).
Notation E := (Err C).

(** Whatever the mode and the state. *)
Definition still {S A} (p : parser C S A) : Prop :=
  forall first i st a i' st', p_run p first i st = Done (PeekOk a, i', st') -> i' = i.

(** The function given to [fn_parser] keeps to it. *)
Definition fn_still {A} (f : input C -> outcome (std_result A E * input C)) : Prop :=
  forall i a i', f i = Done (inl (a, Peek tt), i') -> i' = i.

(** A failure that can be backtracked leaves the input where it was ([parse_lazy] does not reset it in general). *)
Definition restoring {S A} (p : parser C S A) : Prop := forall i e i', p_lazy p i = Done (PeekErr e, i') -> i' = i.

(** [parse_committed] never succeeds without committing. *)
Definition commits {S A} (p : parser C S A) : Prop := forall first i st a i' st', p_cmode p first i st <> Done (PeekOk a, i', st').

(** The library, except that [fn_parser] and [map_input] have to be given functions that keep to the claim and [escaped] has
    restrictions (see C27_escaped_refuted). *)
Inductive honest : forall S A, parser C S A -> Prop :=
| hon_any : honest (@any C)
| hon_satisfy : forall f, honest (@satisfy C f)
| hon_satisfy_map : forall R (f : T -> option R), honest (satisfy_map f)
| hon_token : forall c, honest (@token C c)
| hon_one_of : forall l, honest (@one_of C l)
| hon_none_of : forall l, honest (@none_of C l)
| hon_tokens : forall X (cmp : X -> T -> bool) e l, honest (tokens cmp e l)
| hon_tokens_cmp : forall X (cmp : X -> T -> bool) l, honest (tokens_cmp l cmp)
| hon_position : honest (@position C)
| hon_value : forall A (v : A), honest (@value C A v)
| hon_produce : forall A (f : unit -> A), honest (@produce C A f)
| hon_unexpected_any : forall A m, honest (@unexpected_any C A m)
| hon_eof : honest (@eof C)
| hon_take : forall n, honest (@take C n)
| hon_range : forall r, honest (@range C r)
| hon_take_while : forall f, honest (@take_while C f)
| hon_take_while1 : forall f, honest (@take_while1 C f)
| hon_take_until_range : forall r, honest (@take_until_range C r)
| hon_take_fn : forall s, honest (@take_fn C s)
| hon_fn_parser : forall A (f : input C -> outcome (std_result A E * input C)), fn_still f -> honest (fn_parser f)
| hon_num_parser : forall A code k (d : list N -> A), honest (@num_parser C code A k d)
| hon_message : forall S A (p : parser C S A) m, honest p -> honest (message p m)
| hon_expected : forall S A (p : parser C S A) m, honest p -> honest (expected p m)
| hon_silent : forall S A (p : parser C S A), honest p -> honest (silent p)
| hon_not_followed_by : forall S A (p : parser C S A), honest p -> honest (not_followed_by p)
| hon_attempt : forall S A (p : parser C S A), honest p -> honest (attempt p)
| hon_look_ahead : forall S A (p : parser C S A), honest p -> honest (look_ahead p)
| hon_map : forall S A B (p : parser C S A) (f : A -> B), honest p -> honest (map p f)
| hon_map_input : forall S A B (p : parser C S A) (f : A -> input C -> B * input C),
    (forall a i, snd (f a i) = i) -> honest p -> honest (map_input p f)
| hon_flat_map : forall S A B (p : parser C S A) (f : A -> B + E), honest p -> honest (flat_map p f)
| hon_and_then : forall S A B (p : parser C S A) (f : A -> B + SErr C), honest p -> honest (and_then p f)
| hon_from_str : forall S A B (p : parser C S A) (f : A -> option (B + string)), honest p -> honest (from_str p f)
| hon_recognize : forall S A (p : parser C S A), honest p -> honest (recognize p)
| hon_no_partial : forall S A (p : parser C S A), honest p -> honest (no_partial p)
| hon_ignore : forall S A (p : parser C S A), honest p -> honest (ignore p)
| hon_any_partial_state : forall S A (p : parser C S A), honest p -> honest (any_partial_state p)
| hon_lazy : forall S A (p : parser C S A), honest p -> honest (lazy p)
| hon_factory : forall S A (p : parser C S A), honest p -> honest (factory p)
| hon_opaque : forall S A (p : parser C S A), honest p -> honest (opaque p)
| hon_spanned : forall Q (q : Q -> Q -> bool) a b m S A (p : parser C S A), honest p -> honest (spanned q a b m p)
| hon_by_ref : forall S A (p : parser C S A), honest p -> honest (by_ref p)
| hon_parser_fn : forall S A (p : parser C S A), honest p -> honest (parser_fn p)
| hon_parser_fn0 : forall S A (p : parser C S A), honest p -> honest (parser_fn0 p)
| hon_optional : forall S A (p : parser C S A), honest p -> honest (optional p)
| hon_left : forall S1 S2 A (p : parser C S1 A), honest p -> honest (@either C S1 S2 A (inl p))
| hon_right : forall S1 S2 A (p : parser C S2 A), honest p -> honest (@either C S1 S2 A (inr p))
| hon_dispatch_here : forall S SS A (p : parser C S A), honest p -> honest (dispatch (@DC C A S SS p))
| hon_dispatch_later : forall S SS A (d : disp (C:=C) A SS), honest (dispatch d) -> honest (dispatch (@DN C A S SS d))
| hon_tuple : forall SS B (t : tup (C:=C) SS B), honest_tup t -> honest (tuple t)
| hon_with : forall S1 S2 A B (p : parser C S1 A) (q : parser C S2 B), honest p -> honest q -> honest (with_ p q)
| hon_skip : forall S1 S2 A B (p : parser C S1 A) (q : parser C S2 B), honest p -> honest q -> honest (skip p q)
| hon_then : forall S1 S2 A B (p : parser C S1 A) s0 (f : A -> parser C S2 B), honest p -> (forall a, honest (f a)) -> honest (then_ p s0 f)
| hon_then_ref : forall S1 S2 A B (p : parser C S1 A) s0 (f : A -> parser C S2 B), honest p -> (forall a, honest (f a)) -> honest (then_ref p s0 f)
| hon_choice : forall A SS (t : alts (C:=C) A SS), honest_alts t -> honest (choice t)
| hon_or : forall S1 S2 A (p : parser C S1 A) (q : parser C S2 A), honest p -> honest q -> honest (or_ p q)
| hon_choice_slice : forall S A (s0 : S) (ps : list (parser C S A)), honest_list ps -> honest (choice_slice s0 ps)
| hon_count_min_max : forall S A mn mx (p : parser C S A), honest p -> honest (count_min_max mn mx p)
| hon_many : forall S A (p : parser C S A), honest p -> honest (many p)
| hon_many1 : forall S A (p : parser C S A), honest p -> honest (many1 p)
| hon_sep_by : forall S1 S2 A B (p : parser C S1 A) (s : parser C S2 B), honest p -> honest s -> honest (sep_by p s)
| hon_sep_by1 : forall S1 S2 A B (p : parser C S1 A) (s : parser C S2 B), honest p -> honest s -> honest (sep_by1 p s)
| hon_sep_end_by : forall S1 S2 A B (p : parser C S1 A) (s : parser C S2 B), honest p -> honest s -> honest (sep_end_by p s)
| hon_sep_end_by1 : forall S1 S2 A B (p : parser C S1 A) (s : parser C S2 B), honest p -> honest s -> honest (sep_end_by1 p s)
| hon_chainl1 : forall S1 S2 A (p : parser C S1 A) (o : parser C S2 (A -> A -> A)), honest p -> honest o -> honest (chainl1 p o)
| hon_chainr1 : forall S1 S2 A (p : parser C S1 A) (o : parser C S2 (A -> A -> A)), honest p -> honest o -> honest (chainr1 p o)
| hon_take_until : forall S A (p : parser C S A), honest p -> honest (take_until p)
| hon_repeat_until : forall S1 S2 A B (p : parser C S1 A) (e : parser C S2 B), honest p -> honest e -> honest (repeat_until p e)
| hon_escaped : forall S1 S2 A B (p : parser C S1 A) c (e : parser C S2 B), honest p -> restoring p -> honest e -> commits e -> honest (escaped p c e)
| hon_iterate : forall J S A (s0 : S) (items : list J) (f : J -> parser C S A), (forall x, honest (f x)) -> honest (iterate s0 items f)
| hon_recognize_with_value : forall S A (p : parser C S A), honest p -> honest (recognize_with_value p)
with honest_tup : forall SS B, tup (C:=C) SS B -> Prop :=
| hon_T1 : forall S A (p : parser C S A), honest p -> honest_tup (T1 p)
| hon_TC : forall S A SS B (p : parser C S A) (t : tup (C:=C) SS B), honest p -> honest_tup t -> honest_tup (TC p t)
with honest_alts : forall A SS, alts (C:=C) A SS -> Prop :=
| hon_AL : forall S A (p : parser C S A), honest p -> honest_alts (AL p)
| hon_AC : forall S A SS (p : parser C S A) (t : alts (C:=C) A SS), honest p -> honest_alts t -> honest_alts (AC p t)
with honest_list : forall S A, list (parser C S A) -> Prop :=
| hon_nil : forall S A, honest_list (@nil (parser C S A))
| hon_cons : forall S A (p : parser C S A) l, honest p -> honest_list l -> honest_list (p :: l).

Scheme honest_mut := Minimality for honest Sort Prop
with honest_tup_mut := Minimality for honest_tup Sort Prop
with honest_alts_mut := Minimality for honest_alts Sort Prop
with honest_list_mut := Minimality for honest_list Sort Prop.
End StillSpec.
