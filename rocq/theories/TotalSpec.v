(** C52: parsers that always return. *)
From Coq Require Import String List Bool Arith NArith.
Import ListNotations.
From Verif Require Import Base Parser Token Combinator Sequence Choice Repeat RangeP ByteP Spec AgreeSpec RepeatSpec.
Set Implicit Arguments.

Section TotalSpec.
Context {C : Cfg}.
Notation T := (tok C).
Notation E := (Err C).

(** Fewer than [z] tokens are left, and the iteration bound of the model is no restriction on this input: it stands for
    loops that have no bound in Rust. *)
Definition fits (z : nat) (i : input C) : Prop := length (rest i) < z /\ 2 * length (rest i) + 1 < fuel C.
(** What is left to the parser after one that consumes ([n = true]) or may not consume. *)
Definition after (n : bool) (z : nat) : nat := if n then pred z else z.

(** Neither a panic (or undefined behaviour) nor an endless loop. *)
Definition returns {X} (o : outcome X) : Prop := exists x, o = Done x.

(** A function given to [fn_parser] that only moves forward and always returns when fewer than [z] tokens are left; [n]: a
    success consumes something. *)
Definition fn_solid {A} (z : nat) (n : bool) (f : input C -> outcome (std_result A E * input C)) : Prop :=
  (forall i r i', f i = Done (r, i') -> advanced i i') /\
  forall i, fits z i -> exists r i', f i = Done (r, i') /\ (n = true -> is_ok (from_std r) = true -> shorter i' i).

(** The states of [p] after any number of uses on inputs of fewer than [z] tokens that the iteration bound does not restrict; with [b = false] none of
    them ended in a committed failure (compare [leftover]). *)
Inductive used {S A} (z : nat) (b : bool) (p : parser C S A) : S -> Prop :=
| used_init : used z b p (p_init p)
| used_run : forall st i r i' st', used z b p st -> fits z i -> p_run p true i st = Done (r, i', st') -> b = true \/ not_commit_err r -> used z b p st'.
(** [FirstMode] and [PartialMode] make no difference to a parser that is not in the middle of something. *)
Definition starts_anew {S A} (z : nat) (p : parser C S A) : Prop := forall st, used z false p st -> forall i, p_run p false i st = p_run p true i st.

(** [solid z b n p]: everything repeated is known to consume input, as long as fewer than [z] tokens are left.  [n = true]:
    so is [p] when it succeeds.  [b = true]: [p] can be used again even after a committed failure that was turned into
    something else. *)
Inductive solid (z : nat) : bool -> bool -> forall S A, parser C S A -> Prop :=
| sol_weak_z : forall z' b n S A (p : parser C S A), z <= z' -> solid z' b n p -> solid z b n p
| sol_weak_b : forall n S A (p : parser C S A), solid z true n p -> solid z false n p
| sol_weak_n : forall b S A (p : parser C S A), solid z b true p -> solid z b false p
| sol_unit : forall n A (p : parser C unit A), solid z false n p -> solid z true n p
| sol_any : forall b, solid z b true (@any C)
| sol_satisfy : forall b f, solid z b true (@satisfy C f)
| sol_satisfy_map : forall b R (f : T -> option R), solid z b true (satisfy_map f)
| sol_token : forall b c, solid z b true (@token C c)
| sol_one_of : forall b l, solid z b true (@one_of C l)
| sol_none_of : forall b l, solid z b true (@none_of C l)
| sol_tokens : forall b X (cmp : X -> T -> bool) e l, solid z b (negb (length l =? 0)) (tokens cmp e l)
| sol_tokens_cmp : forall b X (cmp : X -> T -> bool) l, solid z b (negb (length l =? 0)) (tokens_cmp l cmp)
| sol_position : forall b, solid z b false (@position C)
| sol_value : forall b A (v : A), solid z b false (@value C A v)
| sol_produce : forall b A (f : unit -> A), solid z b false (@produce C A f)
| sol_unexpected_any : forall b A m, solid z b true (@unexpected_any C A m)
| sol_eof : forall b, solid z b false (@eof C)
| sol_take : forall b n, solid z b (negb (n =? 0)) (@take C n)
| sol_range : forall b r, solid z b (negb (range_len r =? 0)) (@range C r)
| sol_take_while : forall b f, solid z b false (@take_while C f)
| sol_take_while1 : forall b f, solid z b true (@take_while1 C f)
| sol_take_until_range : forall b r, solid z b false (@take_until_range C r)
| sol_take_fn : forall b s, solid z b false (@take_fn C s)
| sol_fn_parser : forall b n A (f : input C -> outcome (std_result A E * input C)), fn_solid z n f -> solid z b n (fn_parser f)
| sol_num_parser : forall b A code k (d : list N -> A), solid z b (negb (k =? 0)) (@num_parser C code A k d)
| sol_message : forall b n S A (p : parser C S A) m, solid z b n p -> solid z b n (message p m)
| sol_expected : forall b n S A (p : parser C S A) m, solid z b n p -> solid z b n (expected p m)
| sol_silent : forall b n S A (p : parser C S A), solid z b n p -> solid z b n (silent p)
| sol_not_followed_by : forall b n S A (p : parser C S A), solid z true n p -> solid z b false (not_followed_by p)
| sol_attempt : forall b n S A (p : parser C S A), solid z true n p -> solid z b n (attempt p)
| sol_look_ahead : forall b n S A (p : parser C S A), solid z false n p -> solid z b false (look_ahead p)
| sol_map : forall b n S A B (p : parser C S A) (f : A -> B), solid z b n p -> solid z b n (map p f)
| sol_map_input : forall b n S A B (p : parser C S A) (f : A -> input C -> B * input C),
    (forall a i, advanced i (snd (f a i))) -> solid z b n p -> solid z b n (map_input p f)
| sol_flat_map : forall b n S A B (p : parser C S A) (f : A -> B + E), solid z b n p -> solid z b n (flat_map p f)
| sol_and_then : forall b n S A B (p : parser C S A) (f : A -> B + SErr C), solid z b n p -> solid z b n (and_then p f)
| sol_from_str : forall b n S A B (p : parser C S A) (f : A -> option (B + string)), solid z b n p -> solid z b n (from_str p f)
| sol_recognize : forall b n S A (p : parser C S A), solid z b n p -> solid z b false (recognize p)
| sol_recognize1 : forall b S A (p : parser C S A), pos_distinct C -> solid z b true p -> solid z b true (recognize p)
| sol_no_partial : forall b n S A (p : parser C S A), solid z false n p -> solid z b n (no_partial p)
| sol_ignore : forall b n S A (p : parser C S A), solid z b n p -> solid z b n (ignore p)
| sol_any_partial_state : forall b n S A (p : parser C S A), solid z b n p -> solid z b n (any_partial_state p)
| sol_lazy : forall b n S A (p : parser C S A), solid z b n p -> solid z b n (lazy p)
| sol_factory : forall b n S A (p : parser C S A), solid z b n p -> solid z b n (factory p)
| sol_opaque : forall b n S A (p : parser C S A), solid z b n p -> solid z b n (opaque p)
| sol_spanned : forall b n Q (q : Q -> Q -> bool) x y m S A (p : parser C S A), solid z b n p -> solid z b n (spanned q x y m p)
| sol_by_ref : forall b n S A (p : parser C S A), solid z b n p -> solid z b n (by_ref p)
| sol_parser_fn : forall b n S A (p : parser C S A), solid z b n p -> solid z b n (parser_fn p)
| sol_parser_fn0 : forall b n S A (p : parser C S A), solid z false n p -> solid z b n (parser_fn0 p)
| sol_optional : forall b n S A (p : parser C S A), solid z b n p -> solid z b false (optional p)
| sol_left : forall b n S1 S2 A (p : parser C S1 A), solid z b n p -> solid z b n (@either C S1 S2 A (inl p))
| sol_right : forall b n S1 S2 A (p : parser C S2 A), solid z b n p -> solid z b n (@either C S1 S2 A (inr p))
| sol_dispatch_here : forall b n S SS A (p : parser C S A), solid z b n p -> solid z b n (dispatch (@DC C A S SS p))
| sol_dispatch_later : forall b n S SS A (d : disp (C:=C) A SS), solid z b n (dispatch d) -> solid z b n (dispatch (@DN C A S SS d))
| sol_tuple : forall b n SS B (t : tup (C:=C) SS B), solid_tup z b n t -> solid z b n (tuple t)
| sol_with : forall b n1 n2 S1 S2 A B (p : parser C S1 A) (q : parser C S2 B), solid z b n1 p -> solid (after n1 z) b n2 q -> solid z b (n1 || n2) (with_ p q)
| sol_skip : forall b n1 n2 S1 S2 A B (p : parser C S1 A) (q : parser C S2 B), solid z b n1 p -> solid (after n1 z) b n2 q -> solid z b (n1 || n2) (skip p q)
(* [debug_assert!]: not after committed failures, unless it is compiled out *)
| sol_then : forall b n1 n2 S1 A B (p : parser C S1 A) (f : A -> parser C unit B), (b = true -> dbg C = false) ->
    solid z b n1 p -> (forall a, solid (after n1 z) false n2 (f a)) -> solid z b (n1 || n2) (then_ p tt f)
| sol_then_ref : forall b n1 n2 S1 A B (p : parser C S1 A) (f : A -> parser C unit B), (b = true -> dbg C = false) ->
    solid z b n1 p -> (forall a, solid (after n1 z) false n2 (f a)) -> solid z b (n1 || n2) (then_ref p tt f)
| sol_choice : forall b n A SS (t : alts (C:=C) A SS), solid_alts z n t -> solid z b n (choice t)
| sol_or : forall b n S1 S2 A (p : parser C S1 A) (q : parser C S2 A), solid z false n p -> solid z false n q -> solid z b n (or_ p q)
| sol_choice_slice : forall b n A (ps : list (parser C unit A)), solid_list z n ps -> solid z b n (choice_slice tt ps)
| sol_many : forall b S A (p : parser C S A), solid z b true p -> solid z b false (many p)
| sol_many1 : forall b S A (p : parser C S A), (b = true -> dbg C = false) -> solid z b true p -> solid z b true (many1 p)
| sol_count_min_max : forall b n S A mn mx (p : parser C S A), mn <= mx -> solid z b n p -> solid z b (n && negb (mn =? 0) && negb b) (count_min_max mn mx p)
| sol_sep_by : forall b n1 n2 S1 S2 A B (p : parser C S1 A) (s : parser C S2 B), n1 || n2 = true ->
    solid z false n1 p -> solid z false n2 s -> solid z b false (sep_by p s)
| sol_sep_by1 : forall b n1 n2 S1 S2 A B (p : parser C S1 A) (s : parser C S2 B), n1 || n2 = true ->
    solid z b n1 p -> solid z b n2 s -> solid z b n1 (sep_by1 p s)
| sol_sep_end_by : forall b n1 n2 S1 S2 A B (p : parser C S1 A) (s : parser C S2 B), n1 || n2 = true ->
    solid z false n1 p -> solid z false n2 s -> solid z b false (sep_end_by p s)
| sol_sep_end_by1 : forall n1 n2 S1 S2 A B (p : parser C S1 A) (s : parser C S2 B), n1 || n2 = true ->
    solid z false n1 p -> solid z false n2 s -> solid z false n1 (sep_end_by1 p s)
| sol_chainl1 : forall n1 n2 S1 S2 A (p : parser C S1 A) (o : parser C S2 (A -> A -> A)), n1 || n2 = true ->
    starts_anew z p -> solid z false n1 p -> solid z false n2 o -> solid z false n1 (chainl1 p o)
| sol_chainr1 : forall b n1 n2 S1 S2 A (p : parser C S1 A) (o : parser C S2 (A -> A -> A)), n1 || n2 = true ->
    solid z false n1 p -> solid z false n2 o -> solid z b n1 (chainr1 p o)
| sol_take_until : forall b n S A (p : parser C S A), solid z b n p -> solid z b false (take_until p)
| sol_repeat_until : forall b n S1 S2 A B (p : parser C S1 A) (e : parser C S2 B), solid z b true p -> solid z b n e -> solid z b false (repeat_until p e)
| sol_escaped : forall b n S1 S2 A B (p : parser C S1 A) c (e : parser C S2 B), solid z false true p -> solid z false n e -> solid z b false (escaped p c e)
| sol_iterate : forall b n J A (items : list J) (f : J -> parser C unit A), (forall x, solid z false n (f x)) -> solid z b false (iterate tt items f)
| sol_recognize_with_value : forall b n S A (p : parser C S A), solid z b n p -> solid z b n (recognize_with_value p)
with solid_tup (z : nat) : bool -> bool -> forall SS B, tup (C:=C) SS B -> Prop :=
| sol_T1 : forall b n S A (p : parser C S A), solid z b n p -> solid_tup z b n (T1 p)
| sol_TC : forall b n1 n2 S A SS B (p : parser C S A) (t : tup (C:=C) SS B), solid z b n1 p -> solid_tup (after n1 z) b n2 t -> solid_tup z b (n1 || n2) (TC p t)
with solid_alts (z : nat) : bool -> forall A SS, alts (C:=C) A SS -> Prop :=
| sol_AL : forall n S A (p : parser C S A), solid z false n p -> solid_alts z n (AL p)
| sol_AC : forall n S A SS (p : parser C S A) (t : alts (C:=C) A SS), solid z false n p -> solid_alts z n t -> solid_alts z n (AC p t)
with solid_list (z : nat) : bool -> forall A, list (parser C unit A) -> Prop :=
| sol_nil : forall n A, solid_list z n (@nil (parser C unit A))
| sol_cons : forall n A (p : parser C unit A) l, solid z false n p -> solid_list z n l -> solid_list z n (p :: l).

Scheme solid_mut := Minimality for solid Sort Prop
with solid_tup_mut := Minimality for solid_tup Sort Prop
with solid_alts_mut := Minimality for solid_alts Sort Prop
with solid_list_mut := Minimality for solid_list Sort Prop.
End TotalSpec.

(** Recursion through a function, [fn f(input) { F(parser(f)).parse_stream(input).into_result() }] (as lib.rs:777-822), with
    the call stack unrolled [k] deep.  Depth 0 stands for a call that does not return. *)
Fixpoint rec_fn {C : Cfg} {S A} (F : parser C unit A -> parser C S A) (k : nat) : parser C unit A :=
  match k with
  | 0 => fn_parser (fun _ => OOF)
  | S k => fn_parser (fun i => omap (fun x => (into_std (fst x), snd x)) (p_stream (F (rec_fn F k)) i))
  end.
(** Recursion through the [parser!] macro (lib.rs:126-155, 449-642), likewise. *)
Fixpoint rec_macro {C : Cfg} {S A} (F : parser C unit A -> parser C S A) (k : nat) : parser C unit A :=
  match k with
  | 0 => fn_parser (fun _ => OOF)
  | S k => parser_fn0 (F (rec_macro F k))
  end.
