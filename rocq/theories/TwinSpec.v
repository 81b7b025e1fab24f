(** C75: the same parser over two error types.

    A Rust parser is generic over the stream, and with it over the error type.  In the model the error type is a part of the
    configuration.  [retype C X] is the configuration [C] with another error type, and [twin] relates a parser over the one
    to the same parser over the other: it is built by the same combinators from the same primitive parsers.  The functions a
    user supplies may make different errors, but they have to agree on when there is one. *)
From Coq Require Import String List Bool Arith NArith.
Import ListNotations.
From Verif Require Import Base Parser Token Combinator Sequence Choice Repeat RangeP ByteP.
Set Implicit Arguments.

(** A stream error and a parse error type with their methods: the traits of error.rs:366-527. *)
Record errty (T P : Type) : Type := MkErr {
  x_SErr : Type;
  x_unexpected : info T -> x_SErr;
  x_expected : info T -> x_SErr;
  x_message : info T -> x_SErr;
  x_eoi : x_SErr;
  x_boundary : x_SErr;
  x_seoi : x_SErr -> bool;
  x_Err : Type;
  x_empty : P -> x_Err;
  x_from : P -> x_SErr -> x_Err;
  x_position : x_Err -> P;
  x_setpos : x_Err -> P -> x_Err;
  x_merge : x_Err -> x_Err -> x_Err;
  x_add : x_Err -> x_SErr -> x_Err;
  x_setexp : trk x_Err -> x_SErr -> (trk x_Err -> trk x_Err) -> trk x_Err;
  x_clear : x_Err -> x_Err;
  x_is_eoi : x_Err -> bool
}.

(** The error type of a configuration. *)
Definition errty_of (C : Cfg) : errty (tok C) (Pos C) :=
  MkErr (@se_unexpected C) (@se_expected C) (@se_message C) (@se_eoi C) (@se_boundary C) (@se_is_eoi C)
    (@e_empty C) (@e_from C) (@e_position C) (@e_setpos C) (@e_merge C) (@e_add C) (@e_set_expected C)
    (@e_clear_expected C) (@e_is_eoi C).

(** The same tokens and positions with another error type. *)
Definition retype (C : Cfg) (X : errty (tok C) (Pos C)) : Cfg :=
  @MkCfg (tok C) (tok_eqb C) (width C) (Pos C) (pos_eqb C) (pos_step C)
    (x_SErr X) (x_unexpected X) (x_expected X) (x_message X) (x_eoi X) (x_boundary X) (x_seoi X)
    (x_Err X) (x_empty X) (x_from X) (x_position X) (x_setpos X) (x_merge X) (x_add X) (x_setexp X) (x_clear X) (x_is_eoi X)
    (fuel C) (dbg C).

(** Two computations end the same way. *)
Definition both {X Y} (R : X -> Y -> Prop) (o : outcome X) (o' : outcome Y) : Prop :=
  match o, o' with
  | Done x, Done y => R x y
  | Panic, Panic | OOF, OOF => True
  | _, _ => False
  end.

(** The same answer, whatever the error: the constructor and, if it is a success, the value. *)
Definition same_pr {A E E'} (r : PR A E) (r' : PR A E') : Prop :=
  match r, r' with
  | CommitOk a, CommitOk a' | PeekOk a, PeekOk a' => a' = a
  | CommitErr _, CommitErr _ | PeekErr _, PeekErr _ => True
  | _, _ => False
  end.
Definition same_sum {A E E'} (r : A + E) (r' : A + E') : Prop :=
  match r, r' with
  | inl a, inl a' => a' = a
  | inr _, inr _ => True
  | _, _ => False
  end.
Definition same_std {A E E'} (r : std_result A E) (r' : std_result A E') : Prop :=
  match r, r' with
  | inl x, inl x' => x' = x
  | inr (Commit _), inr (Commit _) | inr (Peek _), inr (Peek _) => True
  | _, _ => False
  end.

Section Twin.
Context {C : Cfg} {X : errty (tok C) (Pos C)}.
Notation C' := (retype C X).
Notation T := (tok C).

(** The stream [i] given another error type. *)
Definition retyped (i : input C) : input C' := @Inp C' (rest i) (ipos i) (ipart i).

(** The streams considered: all of them, or those which are not partial. *)
Definition usable (any_stream : bool) (i : input C) : Prop := any_stream = true \/ ipart i = false.

(** The same answer, leaving the same stream. *)
Definition same_out {A} b (x : PR A (Err C) * input C) (y : PR A (Err C') * input C') : Prop :=
  same_pr (fst x) (fst y) /\ snd y = retyped (snd x) /\ usable b (snd x).
(** ... and the same partial state. *)
Definition same_run {S A} b (x : PR A (Err C) * input C * S) (y : PR A (Err C') * input C' * S) : Prop :=
  same_out b (fst x) (fst y) /\ snd y = snd x.

(** [any_stream] admits partial streams, and then excludes [attempt], which looks into the error. *)
Inductive twin (any_stream : bool) : forall S A, parser C S A -> parser C' S A -> Prop :=
| tw_any : twin any_stream (@any C) (@any C')
| tw_satisfy : forall f, twin any_stream (@satisfy C f) (@satisfy C' f)
| tw_satisfy_map : forall R (f : T -> option R), twin any_stream (@satisfy_map C R f) (@satisfy_map C' R f)
| tw_token : forall c, twin any_stream (@token C c) (@token C' c)
| tw_one_of : forall l, twin any_stream (@one_of C l) (@one_of C' l)
| tw_none_of : forall l, twin any_stream (@none_of C l) (@none_of C' l)
| tw_tokens : forall Y (cmp : Y -> T -> bool) e l, twin any_stream (@tokens C Y cmp e l) (@tokens C' Y cmp e l)
| tw_tokens_cmp : forall Y (cmp : Y -> T -> bool) l, twin any_stream (@tokens_cmp C Y l cmp) (@tokens_cmp C' Y l cmp)
| tw_position : twin any_stream (@position C) (@position C')
| tw_value : forall A (v : A), twin any_stream (@value C A v) (@value C' A v)
| tw_produce : forall A (f : unit -> A), twin any_stream (@produce C A f) (@produce C' A f)
| tw_unexpected_any : forall A m, twin any_stream (@unexpected_any C A m) (@unexpected_any C' A m)
| tw_eof : twin any_stream (@eof C) (@eof C')
| tw_take : forall n, twin any_stream (@take C n) (@take C' n)
| tw_range : forall r, twin any_stream (@range C r) (@range C' r)
| tw_take_while : forall f, twin any_stream (@take_while C f) (@take_while C' f)
| tw_take_while1 : forall f, twin any_stream (@take_while1 C f) (@take_while1 C' f)
| tw_take_until_range : forall r, twin any_stream (@take_until_range C r) (@take_until_range C' r)
| tw_take_fn : forall s, twin any_stream (@take_fn C s) (@take_fn C' s)
| tw_fn_parser : forall A (f : input C -> outcome (std_result A (Err C) * input C)) (f' : input C' -> outcome (std_result A (Err C') * input C')),
    (forall i, usable any_stream i ->
       both (fun x y => same_std (fst x) (fst y) /\ snd y = retyped (snd x) /\ usable any_stream (snd x)) (f i) (f' (retyped i))) ->
    twin any_stream (@fn_parser C A f) (@fn_parser C' A f')
| tw_num_parser : forall A code k (d : list N -> A), twin any_stream (@num_parser C code A k d) (@num_parser C' code A k d)
| tw_message : forall S A (p : parser C S A) p' m, twin any_stream p p' -> twin any_stream (message p m) (@message C' S A p' m)
| tw_expected : forall S A (p : parser C S A) p' m, twin any_stream p p' -> twin any_stream (expected p m) (@expected C' S A p' m)
| tw_silent : forall S A (p : parser C S A) p', twin any_stream p p' -> twin any_stream (silent p) (silent p')
| tw_not_followed_by : forall S A (p : parser C S A) p', twin any_stream p p' -> twin any_stream (not_followed_by p) (not_followed_by p')
| tw_attempt : forall S A (p : parser C S A) p', any_stream = false -> twin any_stream p p' -> twin any_stream (attempt p) (attempt p')
| tw_look_ahead : forall S A (p : parser C S A) p', twin any_stream p p' -> twin any_stream (look_ahead p) (look_ahead p')
| tw_map : forall S A B (p : parser C S A) p' (f : A -> B), twin any_stream p p' -> twin any_stream (map p f) (map p' f)
| tw_map_input : forall S A B (p : parser C S A) p' (f : A -> input C -> B * input C) (f' : A -> input C' -> B * input C'),
    (forall a i, usable any_stream i -> usable any_stream (snd (f a i)) /\ f' a (retyped i) = (fst (f a i), retyped (snd (f a i)))) ->
    twin any_stream p p' -> twin any_stream (map_input p f) (map_input p' f')
| tw_flat_map : forall S A B (p : parser C S A) p' (f : A -> B + Err C) (f' : A -> B + Err C'),
    (forall a, same_sum (f a) (f' a)) -> twin any_stream p p' -> twin any_stream (flat_map p f) (flat_map p' f')
| tw_and_then : forall S A B (p : parser C S A) p' (f : A -> B + SErr C) (f' : A -> B + SErr C'),
    (forall a, same_sum (f a) (f' a)) -> twin any_stream p p' -> twin any_stream (and_then p f) (and_then p' f')
| tw_from_str : forall S A B (p : parser C S A) p' (f : A -> option (B + string)), twin any_stream p p' -> twin any_stream (from_str p f) (from_str p' f)
| tw_recognize : forall S A (p : parser C S A) p', twin any_stream p p' -> twin any_stream (recognize p) (@recognize C' S A p')
| tw_no_partial : forall S A (p : parser C S A) p', twin any_stream p p' -> twin any_stream (no_partial p) (no_partial p')
| tw_ignore : forall S A (p : parser C S A) p', twin any_stream p p' -> twin any_stream (ignore p) (ignore p')
| tw_any_partial_state : forall S A (p : parser C S A) p', twin any_stream p p' -> twin any_stream (any_partial_state p) (any_partial_state p')
| tw_lazy : forall S A (p : parser C S A) p', twin any_stream p p' -> twin any_stream (lazy p) (lazy p')
| tw_factory : forall S A (p : parser C S A) p', twin any_stream p p' -> twin any_stream (factory p) (factory p')
| tw_opaque : forall S A (p : parser C S A) p', twin any_stream p p' -> twin any_stream (opaque p) (opaque p')
| tw_spanned : forall Q (q : Q -> Q -> bool) a b m S A (p : parser C S A) p', twin any_stream p p' -> twin any_stream (spanned q a b m p) (@spanned C' Q S A q a b m p')
| tw_by_ref : forall S A (p : parser C S A) p', twin any_stream p p' -> twin any_stream (by_ref p) (by_ref p')
| tw_parser_fn : forall S A (p : parser C S A) p', twin any_stream p p' -> twin any_stream (parser_fn p) (parser_fn p')
| tw_parser_fn0 : forall S A (p : parser C S A) p', twin any_stream p p' -> twin any_stream (parser_fn0 p) (parser_fn0 p')
| tw_optional : forall S A (p : parser C S A) p', twin any_stream p p' -> twin any_stream (optional p) (optional p')
| tw_left : forall S1 S2 A (p : parser C S1 A) p', twin any_stream p p' -> twin any_stream (@either C S1 S2 A (inl p)) (@either C' S1 S2 A (inl p'))
| tw_right : forall S1 S2 A (p : parser C S2 A) p', twin any_stream p p' -> twin any_stream (@either C S1 S2 A (inr p)) (@either C' S1 S2 A (inr p'))
| tw_dispatch : forall A SS (d : disp (C:=C) A SS) d', twin_disp any_stream d d' -> twin any_stream (dispatch d) (dispatch d')
| tw_input_converter : forall (D : Cfg) S A (p : parser D S A) (conv : input C -> (input D + Err C) * input C) (conv' : input C' -> (input D + Err C') * input C')
      (cerr : Err D -> input C -> Err C * input C) (cerr' : Err D -> input C' -> Err C' * input C'),
    (forall i, usable any_stream i -> same_sum (fst (conv i)) (fst (conv' (retyped i))) /\ snd (conv' (retyped i)) = retyped (snd (conv i)) /\ usable any_stream (snd (conv i))) ->
    (forall e i, usable any_stream i -> snd (cerr' e (retyped i)) = retyped (snd (cerr e i)) /\ usable any_stream (snd (cerr e i))) ->
    twin any_stream (input_converter p conv cerr) (input_converter p conv' cerr')
| tw_tuple : forall SS B (t : tup (C:=C) SS B) t', twin_tup any_stream t t' -> twin any_stream (tuple t) (tuple t')
| tw_with : forall S1 S2 A B (p : parser C S1 A) p' (q : parser C S2 B) q', twin any_stream p p' -> twin any_stream q q' -> twin any_stream (with_ p q) (with_ p' q')
| tw_skip : forall S1 S2 A B (p : parser C S1 A) p' (q : parser C S2 B) q', twin any_stream p p' -> twin any_stream q q' -> twin any_stream (skip p q) (skip p' q')
| tw_then : forall S1 S2 A B (p : parser C S1 A) p' s0 (f : A -> parser C S2 B) f',
    twin any_stream p p' -> (forall a, twin any_stream (f a) (f' a)) -> twin any_stream (then_ p s0 f) (then_ p' s0 f')
| tw_then_ref : forall S1 S2 A B (p : parser C S1 A) p' s0 (f : A -> parser C S2 B) f',
    twin any_stream p p' -> (forall a, twin any_stream (f a) (f' a)) -> twin any_stream (then_ref p s0 f) (then_ref p' s0 f')
| tw_choice : forall A SS (t : alts (C:=C) A SS) t', twin_alts any_stream t t' -> twin any_stream (choice t) (choice t')
| tw_or : forall S1 S2 A (p : parser C S1 A) p' (q : parser C S2 A) q', twin any_stream p p' -> twin any_stream q q' -> twin any_stream (or_ p q) (or_ p' q')
| tw_choice_slice : forall S A (s0 : S) (ps : list (parser C S A)) ps', twin_list any_stream ps ps' -> twin any_stream (choice_slice s0 ps) (choice_slice s0 ps')
| tw_count_min_max : forall S A mn mx (p : parser C S A) p', twin any_stream p p' -> twin any_stream (count_min_max mn mx p) (count_min_max mn mx p')
| tw_many : forall S A (p : parser C S A) p', twin any_stream p p' -> twin any_stream (many p) (many p')
| tw_many1 : forall S A (p : parser C S A) p', twin any_stream p p' -> twin any_stream (many1 p) (many1 p')
| tw_sep_by : forall S1 S2 A B (p : parser C S1 A) p' (s : parser C S2 B) s', twin any_stream p p' -> twin any_stream s s' -> twin any_stream (sep_by p s) (sep_by p' s')
| tw_sep_by1 : forall S1 S2 A B (p : parser C S1 A) p' (s : parser C S2 B) s', twin any_stream p p' -> twin any_stream s s' -> twin any_stream (sep_by1 p s) (sep_by1 p' s')
| tw_sep_end_by : forall S1 S2 A B (p : parser C S1 A) p' (s : parser C S2 B) s', twin any_stream p p' -> twin any_stream s s' -> twin any_stream (sep_end_by p s) (sep_end_by p' s')
| tw_sep_end_by1 : forall S1 S2 A B (p : parser C S1 A) p' (s : parser C S2 B) s', twin any_stream p p' -> twin any_stream s s' -> twin any_stream (sep_end_by1 p s) (sep_end_by1 p' s')
| tw_chainl1 : forall S1 S2 A (p : parser C S1 A) p' (o : parser C S2 (A -> A -> A)) o', twin any_stream p p' -> twin any_stream o o' -> twin any_stream (chainl1 p o) (chainl1 p' o')
| tw_chainr1 : forall S1 S2 A (p : parser C S1 A) p' (o : parser C S2 (A -> A -> A)) o', twin any_stream p p' -> twin any_stream o o' -> twin any_stream (chainr1 p o) (chainr1 p' o')
| tw_take_until : forall S A (p : parser C S A) p', twin any_stream p p' -> twin any_stream (take_until p) (@take_until C' S A p')
| tw_repeat_until : forall S1 S2 A B (p : parser C S1 A) p' (e : parser C S2 B) e', twin any_stream p p' -> twin any_stream e e' -> twin any_stream (repeat_until p e) (repeat_until p' e')
| tw_escaped : forall S1 S2 A B (p : parser C S1 A) p' c (e : parser C S2 B) e', twin any_stream p p' -> twin any_stream e e' -> twin any_stream (escaped p c e) (@escaped C' S1 A S2 B p' c e')
| tw_iterate : forall J S A (s0 : S) (items : list J) (f : J -> parser C S A) f', (forall x, twin any_stream (f x) (f' x)) -> twin any_stream (iterate s0 items f) (iterate s0 items f')
| tw_recognize_with_value : forall S A (p : parser C S A) p', twin any_stream p p' -> twin any_stream (recognize_with_value p) (@recognize_with_value C' S A p')
with twin_tup (any_stream : bool) : forall SS B, tup (C:=C) SS B -> tup (C:=C') SS B -> Prop :=
| tw_T1 : forall S A (p : parser C S A) p', twin any_stream p p' -> twin_tup any_stream (T1 p) (T1 p')
| tw_TC : forall S A SS B (p : parser C S A) p' (t : tup (C:=C) SS B) t', twin any_stream p p' -> twin_tup any_stream t t' -> twin_tup any_stream (TC p t) (TC p' t')
with twin_alts (any_stream : bool) : forall A SS, alts (C:=C) A SS -> alts (C:=C') A SS -> Prop :=
| tw_AL : forall S A (p : parser C S A) p', twin any_stream p p' -> twin_alts any_stream (AL p) (AL p')
| tw_AC : forall S A SS (p : parser C S A) p' (t : alts (C:=C) A SS) t', twin any_stream p p' -> twin_alts any_stream t t' -> twin_alts any_stream (AC p t) (AC p' t')
with twin_disp (any_stream : bool) : forall A SS, disp (C:=C) A SS -> disp (C:=C') A SS -> Prop :=
| tw_DC : forall S SS A (p : parser C S A) p', twin any_stream p p' -> twin_disp any_stream (@DC C A S SS p) (@DC C' A S SS p')
| tw_DN : forall S SS A (d : disp (C:=C) A SS) d', twin_disp any_stream d d' -> twin_disp any_stream (@DN C A S SS d) (@DN C' A S SS d')
with twin_list (any_stream : bool) : forall S A, list (parser C S A) -> list (parser C' S A) -> Prop :=
| tw_nil : forall S A, twin_list any_stream (@nil (parser C S A)) (@nil (parser C' S A))
| tw_cons : forall S A (p : parser C S A) p' l l', twin any_stream p p' -> twin_list any_stream l l' -> twin_list any_stream (p :: l) (p' :: l').

Scheme twin_mut := Minimality for twin Sort Prop
with twin_tup_mut := Minimality for twin_tup Sort Prop
with twin_alts_mut := Minimality for twin_alts Sort Prop
with twin_disp_mut := Minimality for twin_disp Sort Prop
with twin_list_mut := Minimality for twin_list Sort Prop.
End Twin.
