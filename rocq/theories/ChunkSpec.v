(** C29: the parsers for which the way the data is cut into chunks does not matter.  Nothing here models code. *)
From Coq Require Import String List Bool Arith NArith.
Import ListNotations.
From Verif Require Import Base Parser Token Combinator Sequence Choice Repeat RangeP ByteP Spec AgreeSpec RangeSpec TidySpec TidyProofs RepeatSpec DecodeSpec.
Set Implicit Arguments.

(** Which errors count as "unexpected end of input": laws of the error types, satisfied by [UnexpectedParse],
    [StringStreamError] and [easy::Errors] (not by a single [easy::Error], whose [add] forgets the error it is added to). *)
Record eoi_laws (C : Cfg) : Prop := {
  el_se : se_is_eoi C (se_eoi C) = true;
  el_empty : forall p, e_is_eoi C (e_empty C p) = false;
  el_from : forall p s, e_is_eoi C (e_from C p s) = se_is_eoi C s;
  el_expected : forall x, se_is_eoi C (se_expected C x) = false;
  el_message : forall x, se_is_eoi C (se_message C x) = false;
  el_unexpected : forall t, se_is_eoi C (se_unexpected C (IToken t)) = false;
  el_add : forall e s, e_is_eoi C (e_add C e s) = e_is_eoi C e || se_is_eoi C s;
  el_merge : forall a b, e_is_eoi C a = false -> e_is_eoi C b = false -> e_is_eoi C (e_merge C a b) = false;
  el_set : forall t s f, e_is_eoi C (terr t) = false -> se_is_eoi C s = false ->
    (forall u, e_is_eoi C (terr u) = false -> e_is_eoi C (terr (f u)) = false) ->
    e_is_eoi C (terr (e_set_expected C t s f)) = false;
  el_clear : forall e, e_is_eoi C (e_clear_expected C e) = e_is_eoi C e;
  el_setpos : forall e p, e_is_eoi C (e_setpos C e p) = e_is_eoi C e
}.

Section ChunkSpec.
Context {C : Cfg}.
Notation T := (tok C).
Notation E := (Err C).

(** The class, for families of parsers (needed for the parsers a [then] closure returns; a single parser is a family
    over [unit]).  The four attributes:
    - exact: if the parser gives up after having kept input from an earlier chunk, it fails committed, so that it can be
      repeated or made optional;
    - atomic: what it has read of an unfinished chunk it leaves in the input;
    - sure: it never fails in a backtrackable way;
    - hungry: without any input it asks for more. *)
Inductive chunkable : forall (exact atomic sure hungry : bool) (J S A : Type), (J -> parser C S A) -> Prop :=
| ck_weak : forall x a n h x' a' n' h' J S A (f : J -> parser C S A), chunkable x a n h f ->
    (x' = true -> x = true) -> (a' = true -> a = true) -> (n' = true -> n = true) -> (h' = true -> h = true) ->
    chunkable x' a' n' h' f
| ck_index : forall x a n h J K S A (f : J -> parser C S A) (g : K -> J), chunkable x a n h f ->
    chunkable x a n h (fun k => f (g k))
(* single tokens *)
| ck_any : forall J, chunkable true true false true (fun _ : J => any)
| ck_satisfy : forall J (g : J -> T -> bool), chunkable true true false true (fun j => satisfy (g j))
| ck_satisfy_map : forall J R (g : J -> T -> option R), chunkable true true false true (fun j => satisfy_map (g j))
| ck_token : forall J (g : J -> T), chunkable true true false true (fun j => token (g j))
| ck_one_of : forall J (g : J -> list T), chunkable true true false true (fun j => one_of (g j))
| ck_none_of : forall J (g : J -> list T), chunkable true true false true (fun j => none_of (g j))
(* no input needed *)
| ck_value : forall J A (g : J -> A), chunkable true true true false (fun j => value (g j))
| ck_produce : forall J A (g : J -> unit -> A), chunkable true true true false (fun j => produce (g j))
| ck_position : forall J, chunkable true true true false (fun _ : J => position)
(* ranges *)
| ck_take_while : forall J (g : J -> T -> bool), chunkable true true true true (fun j => take_while (g j))
| ck_take_while1 : forall J (g : J -> T -> bool), chunkable true true false true (fun j => take_while1 (g j))
| ck_take : forall J (g : J -> nat), is_slice (C:=C) -> chunkable true true false false (fun j => take (g j))
| ck_take_some : forall J (g : J -> nat), is_slice (C:=C) -> (forall j, g j <> 0) -> chunkable true true false true (fun j => take (g j))
| ck_range : forall J (g : J -> list T), is_slice (C:=C) -> (forall j, g j <> []) -> chunkable true true false true (fun j => range (g j))
| ck_num_parser : forall J A (code : J -> T -> N) (k : J -> nat) (dec : J -> list N -> A), (forall j, k j <> 0) ->
    chunkable true true false true (fun j => num_parser (code j) (k j) (dec j))
| ck_take_fn : forall J (g : J -> list T -> option nat), is_slice (C:=C) -> (forall j, g j [] = None) ->
    (forall j l n m, g j l = Some n -> g j (l ++ m) = Some n) ->
    chunkable true true false true (fun j => take_fn (fun l => take_range_of_option (g j l)))
| ck_take_until_range : forall J (g : J -> list T), is_slice (C:=C) -> (forall j, g j <> []) ->
    chunkable false true false true (fun j => take_until_range (g j))
| ck_take_until_bytes : forall J (code : J -> T -> N) (needle : J -> list N), is_slice (C:=C) -> (forall j, 2 <= length (needle j)) ->
    chunkable true true false true (fun j => take_until_bytes (List.map (code j)) (needle j))
| ck_recognize_with_value : forall n h J S A (f : J -> parser C S A), chunkable true false n h f -> (forall j, forward (f j)) ->
    chunkable true true n h (fun j => recognize_with_value (f j))
| ck_recognize : forall x a n h J S A (f : J -> parser C S A), chunkable x a n h f -> (forall j, forward (f j)) ->
    chunkable x a n h (fun j => recognize (f j))
(* around one parser *)
| ck_message : forall x a n h J S A (f : J -> parser C S A) (m : J -> info T), chunkable x a n h f ->
    chunkable x a n h (fun j => message (f j) (m j))
| ck_expected : forall x a n h J S A (f : J -> parser C S A) (m : J -> info T), chunkable x a n h f ->
    chunkable x a n h (fun j => expected (f j) (m j))
| ck_silent : forall x a n h J S A (f : J -> parser C S A), chunkable x a n h f -> chunkable x a n h (fun j => silent (f j))
| ck_map : forall x a n h J S A B (f : J -> parser C S A) (g : J -> A -> B), chunkable x a n h f ->
    chunkable x a n h (fun j => map (f j) (g j))
| ck_flat_map : forall x a n J S A B (f : J -> parser C S A) (g : J -> A -> B + E), chunkable x a n true f ->
    (forall j o e, g j o = inr e -> e_is_eoi C e = false) ->
    chunkable (x && a) a false true (fun j => flat_map (f j) (g j))
| ck_and_then : forall x a n J S A B (f : J -> parser C S A) (g : J -> A -> B + SErr C), chunkable x a n true f ->
    (forall j o e, g j o = inr e -> se_is_eoi C e = false) ->
    chunkable (x && a) a false true (fun j => and_then (f j) (g j))
| ck_from_str : forall x a n J S A B (f : J -> parser C S A) (g : J -> A -> option (B + string)), chunkable x a n true f ->
    chunkable (x && a) a false true (fun j => from_str (f j) (g j))
| ck_ignore : forall x a n h J S A (f : J -> parser C S A), chunkable x a n h f -> chunkable x a n h (fun j => ignore (f j))
| ck_lazy : forall x a n h J S A (f : J -> parser C S A), chunkable x a n h f -> chunkable x a n h (fun j => lazy (f j))
| ck_factory : forall x a n h J S A (f : J -> parser C S A), chunkable x a n h f -> chunkable x a n h (fun j => factory (f j))
| ck_opaque : forall x a n h J S A (f : J -> parser C S A), chunkable x a n h f -> chunkable x a n h (fun j => opaque (f j))
| ck_by_ref : forall x a n h J S A (f : J -> parser C S A), chunkable x a n h f -> chunkable x a n h (fun j => by_ref (f j))
| ck_parser_fn : forall x a n h J S A (f : J -> parser C S A), chunkable x a n h f -> chunkable x a n h (fun j => parser_fn (f j))
| ck_parser_fn0 : forall x n h J S A (f : J -> parser C S A), chunkable x true n h f -> chunkable x true n h (fun j => parser_fn0 (f j))
| ck_string : forall J (text : J -> string) (g : J -> list T) (cmp : J -> T -> T -> bool), (forall j, g j <> []) ->
    chunkable true true false true (fun j => no_partial (string_cmp (text j) (g j) (cmp j)))
| ck_bytes_cmp : forall J (g : J -> list T) (cmp : J -> T -> T -> bool), (forall j, g j <> []) ->
    chunkable true true false true (fun j => no_partial (bytes_cmp (g j) (cmp j)))
| ck_bytes : forall J (g : J -> list T), (forall j, g j <> []) -> chunkable true true false true (fun j => no_partial (bytes (g j)))
| ck_any_partial_state : forall x a n h J S A (f : J -> parser C S A), chunkable x a n h f ->
    chunkable x a n h (fun j => any_partial_state (f j))
| ck_spanned : forall x a n h J S A Q (q_eqb : Q -> Q -> bool) (sp_start sp_end : Pos C -> Q) (mk_span : Q -> Q -> Pos C) (f : J -> parser C S A),
    chunkable x a n h f -> chunkable x a n h (fun j => spanned q_eqb sp_start sp_end mk_span (f j))
| ck_look_ahead : forall x a n h J S A (f : J -> parser C S A), chunkable x a n h f ->
    chunkable true true n h (fun j => look_ahead (f j))
| ck_no_partial : forall x a n h J S A (f : J -> parser C S A), chunkable x a n h f ->
    (forall j i, p_lazy (f j) i = default_lazy (p_init (f j)) (p_run (f j)) i) ->
    chunkable true true n h (fun j => no_partial (f j))
| ck_optional : forall a n h J S A (f : J -> parser C S A), chunkable true a n h f ->
    chunkable true a true h (fun j => optional (f j))
| ck_either : forall x a n h J J1 J2 S1 S2 A (p : J1 -> parser C S1 A) (q : J2 -> parser C S2 A) (g : J -> J1 + J2),
    chunkable x a n h p -> chunkable x a n h q ->
    chunkable x a n h (fun j => either (match g j with inl k => inl (p k) | inr k => inr (q k) end))
| ck_ext : forall x a n h J S A (f f' : J -> parser C S A), chunkable x a n h f -> (forall j, f' j = f j) -> chunkable x a n h f'
| ck_none : forall x a n h J S A (f : J -> parser C S A), (J -> False) -> chunkable x a n h f
| ck_dispatch : forall x a n h J J1 J2 S SS A (p : J1 -> parser C S A) (d : J2 -> disp (C:=C) A SS) (g : J -> J1 + J2),
    chunkable x a n h p -> chunkable x a n h (fun k => dispatch (d k)) ->
    chunkable x a n h (fun j => dispatch (match g j with inl k => DC (p k) | inr k => DN (d k) end))
(* sequences *)
| ck_tuple : forall x n h J SS B (t : J -> tup (C:=C) SS B), chunkable_tup x n h t -> chunkable x false n h (fun j => tuple (t j))
| ck_with : forall x1 a1 n1 h1 x2 a2 n2 h2 J S1 A S2 B (p : J -> parser C S1 A) (q : J -> parser C S2 B),
    chunkable x1 a1 n1 h1 p -> chunkable x2 a2 n2 h2 q ->
    chunkable (x1 && n2) false (n1 && n2) (h1 && h2) (fun j => with_ (p j) (q j))
| ck_skip : forall x1 a1 n1 h1 x2 a2 n2 h2 J S1 A S2 B (p : J -> parser C S1 A) (q : J -> parser C S2 B),
    chunkable x1 a1 n1 h1 p -> chunkable x2 a2 n2 h2 q ->
    chunkable (x1 && n2) false (n1 && n2) (h1 && h2) (fun j => skip (p j) (q j))
| ck_then : forall x1 a1 n1 h1 x2 a2 n2 h2 J S1 A S2 B (p : J -> parser C S1 A) (s0 : S2) (q : J * A -> parser C S2 B),
    chunkable x1 a1 n1 h1 p -> chunkable x2 a2 n2 h2 q -> (forall ja, p_init (q ja) = s0) ->
    chunkable (x1 && n2) false (n1 && n2) (h1 && h2) (fun j => then_ (p j) s0 (fun v => q (j, v)))
| ck_then_ref : forall x1 a1 n1 h1 x2 a2 n2 h2 J S1 A S2 B (p : J -> parser C S1 A) (s0 : S2) (q : J * A -> parser C S2 B),
    chunkable x1 a1 n1 h1 p -> chunkable x2 a2 n2 h2 q -> (forall ja, p_init (q ja) = s0) ->
    chunkable (x1 && n2) false (n1 && n2) (h1 && h2) (fun j => then_ref (p j) s0 (fun v => q (j, v)))
(* choices *)
| ck_choice : forall x a n h J A SS (t : J -> alts (C:=C) A SS), chunkable_alts x a n h t -> chunkable x a n h (fun j => choice (t j))
| ck_or : forall x1 a1 n1 h1 x2 a2 n2 h2 J S1 S2 A (p : J -> parser C S1 A) (q : J -> parser C S2 A),
    chunkable x1 a1 n1 h1 p -> chunkable x2 a2 n2 h2 q ->
    chunkable (x1 && x2) (a1 && a2) (n1 || x1 && n2) (h1 && h2) (fun j => or_ (p j) (q j))
(* repetitions *)
| ck_many : forall a n h J S A (f : J -> parser C S A), chunkable true a n h f -> (forall j, history_free false (f j)) ->
    chunkable true false true h (fun j => many (f j))
| ck_many1 : forall a n h J S A (f : J -> parser C S A), chunkable true a n h f -> (forall j, history_free false (f j)) ->
    chunkable true false n h (fun j => many1 (f j))
| ck_count_min_max : forall a n h J S A (f : J -> parser C S A) mn mx, chunkable true a n h f -> (forall j, history_free false (f j)) -> mn <= mx ->
    chunkable (mn =? 0) false (mn =? 0) (h && negb (mx =? 0)) (fun j => count_min_max mn mx (f j))
(* as many as an earlier value says *)
| ck_count_by : forall a n h J S A (f : J -> parser C S A) (mn mx : J -> nat), chunkable true a n h f -> (forall j, history_free false (f j)) ->
    (forall j, mn j <= mx j) -> chunkable false false false false (fun j => count_min_max (mn j) (mx j) (f j))
| ck_iterate : forall x a n h J X S A (q : J * X -> parser C S A) (items : J -> list X) (s0 : S) (Clean : S -> Prop), chunkable x a n h q ->
    (forall j, items j <> []) -> Clean s0 -> (forall jx, p_init (q jx) = s0) -> (forall jx, run_hyg false Clean (p_run (q jx))) ->
    chunkable n false n h (fun j => iterate s0 (items j) (fun v => q (j, v)))
| ck_sep_end_by1 : forall a1 n1 h1 a2 n2 h2 J S1 S2 A B (p : J -> parser C S1 A) (s : J -> parser C S2 B),
    chunkable true a1 n1 h1 p -> chunkable true a2 n2 h2 s -> (forall j, history_free false (p j)) -> (forall j, history_free false (s j)) ->
    chunkable true false n1 (h2 && h1) (fun j => sep_end_by1 (p j) (s j))
| ck_sep_end_by : forall a1 n1 h1 a2 n2 h2 J S1 S2 A B (p : J -> parser C S1 A) (s : J -> parser C S2 B),
    chunkable true a1 n1 h1 p -> chunkable true a2 n2 h2 s -> (forall j, history_free false (p j)) -> (forall j, history_free false (s j)) ->
    chunkable true false true false (fun j => sep_end_by (p j) (s j))
| ck_chainl1 : forall x1 a1 h1 a2 n2 h2 J S1 S2 A (p : J -> parser C S1 A) (op : J -> parser C S2 (A -> A -> A)),
    chunkable x1 a1 true h1 p -> chunkable true a2 n2 h2 op -> (forall j, history_free false (p j)) -> (forall j, history_free false (op j)) ->
    (forall j, starts_alike (p j)) -> chunkable true false true (h2 && h1) (fun j => chainl1 (p j) (op j))
with chunkable_tup : forall (exact sure hungry : bool) (J SS B : Type), (J -> tup (C:=C) SS B) -> Prop :=
| ck_T1 : forall x a n h J S A (f : J -> parser C S A), chunkable x a n h f -> chunkable_tup x n h (fun j => T1 (f j))
| ck_TC : forall x a n h x2 n2 h2 J S A SS B (f : J -> parser C S A) (t : J -> tup (C:=C) SS B),
    chunkable x a n h f -> chunkable_tup x2 n2 h2 t -> chunkable_tup (x && n2) (n && n2) (h && h2) (fun j => TC (f j) (t j))
with chunkable_alts : forall (exact atomic sure hungry : bool) (J A SS : Type), (J -> alts (C:=C) A SS) -> Prop :=
| ck_AL : forall x a n h J S A (f : J -> parser C S A), chunkable x a n h f -> chunkable_alts x a n h (fun j => AL (f j))
| ck_AC : forall x a n h x2 a2 n2 h2 J S A SS (f : J -> parser C S A) (t : J -> alts (C:=C) A SS),
    chunkable x a n h f -> chunkable_alts x2 a2 n2 h2 t ->
    chunkable_alts (x && x2) (a && a2) (n || x && n2) (h && h2) (fun j => AC (f j) (t j)).

(** How a session ([fin], with [b'] left over, [more] not yet read) has to relate to parsing the whole text at once: if the
    parser returns at all on the text [w] (everything that was buffered or read) followed by [more], it gives the same
    value and leaves the same rest, or also fails. *)
Definition whole_answer {IoE S A} (p : parser C S A) (pos : Pos C) (w : list T) (fin : ending (C:=C) IoE A) (b' more : list T) : Prop :=
  forall r i', fresh p (Inp (w ++ more) pos false) = Done (r, i') ->
  match fin with
  | EndValue v => exists used, w = used ++ b' /\ i' = Inp (b' ++ more) (pos_after pos used) false /\ r = okr (consumed_some used) v
  | EndParse e => is_ok r = false
  | EndIo _ _ => True
  end.

(** The states a parser may be in between two messages: the initial one, or that left by a successful session. *)
Inductive ready IoE {S A} (p : parser C S A) : S -> bool -> Prop :=
| ready_init : forall eof, ready IoE p (p_init p) eof
| ready_next : forall st eof pos b cs used v st' pos' b' eof', ready IoE p st eof ->
    session p st pos b eof cs used (@EndValue C IoE A v) st' pos' b' eof' -> ready IoE p st' eof'.

Scheme chunkable_mut := Minimality for chunkable Sort Prop
with chunkable_tup_mut := Minimality for chunkable_tup Sort Prop
with chunkable_alts_mut := Minimality for chunkable_alts Sort Prop.
Combined Scheme chunkable_ind3 from chunkable_mut, chunkable_tup_mut, chunkable_alts_mut.
End ChunkSpec.
