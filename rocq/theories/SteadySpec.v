(** C74: parsers whose sessions always come to an end.  Nothing here models code. *)
From Coq Require Import String List Bool Arith NArith.
Import ListNotations.
From Verif Require Import Base Parser Token Combinator Sequence Choice Repeat RangeP ByteP Spec RepeatSpec AgreeSpec RangeSpec TidySpec TidyProofs DecodeM DecodeSpec ChunkSpec TotalSpec AsyncM.
Set Implicit Arguments.

Section SteadySpec.
Context {C : Cfg}.
Notation T := (tok C).
Notation E := (Err C).

(** The class of C29 ([chunkable]) rule by rule; the only difference is that a parser repeated without limit, by [many] or
    [many1], has to be known to consume something and to return when parsing complete text (C52), as long as fewer than [z]
    tokens are left. *)
Inductive steady (z : nat) : forall (exact atomic sure hungry : bool) (J S A : Type), (J -> parser C S A) -> Prop :=
| sd_weak : forall x a n h x' a' n' h' J S A (f : J -> parser C S A), steady z x a n h f ->
    (x' = true -> x = true) -> (a' = true -> a = true) -> (n' = true -> n = true) -> (h' = true -> h = true) ->
    steady z x' a' n' h' f
| sd_index : forall x a n h J K S A (f : J -> parser C S A) (g : K -> J), steady z x a n h f ->
    steady z x a n h (fun k => f (g k))
(* single tokens *)
| sd_any : forall J, steady z true true false true (fun _ : J => any)
| sd_satisfy : forall J (g : J -> T -> bool), steady z true true false true (fun j => satisfy (g j))
| sd_satisfy_map : forall J R (g : J -> T -> option R), steady z true true false true (fun j => satisfy_map (g j))
| sd_token : forall J (g : J -> T), steady z true true false true (fun j => token (g j))
| sd_one_of : forall J (g : J -> list T), steady z true true false true (fun j => one_of (g j))
| sd_none_of : forall J (g : J -> list T), steady z true true false true (fun j => none_of (g j))
(* no input needed *)
| sd_value : forall J A (g : J -> A), steady z true true true false (fun j => value (g j))
| sd_produce : forall J A (g : J -> unit -> A), steady z true true true false (fun j => produce (g j))
| sd_position : forall J, steady z true true true false (fun _ : J => position)
(* ranges *)
| sd_take_while : forall J (g : J -> T -> bool), steady z true true true true (fun j => take_while (g j))
| sd_take_while1 : forall J (g : J -> T -> bool), steady z true true false true (fun j => take_while1 (g j))
| sd_take : forall J (g : J -> nat), is_slice (C:=C) -> steady z true true false false (fun j => take (g j))
| sd_take_some : forall J (g : J -> nat), is_slice (C:=C) -> (forall j, g j <> 0) -> steady z true true false true (fun j => take (g j))
| sd_range : forall J (g : J -> list T), is_slice (C:=C) -> (forall j, g j <> []) -> steady z true true false true (fun j => range (g j))
| sd_num_parser : forall J A (code : J -> T -> N) (k : J -> nat) (dec : J -> list N -> A), (forall j, k j <> 0) ->
    steady z true true false true (fun j => num_parser (code j) (k j) (dec j))
| sd_take_fn : forall J (g : J -> list T -> option nat), is_slice (C:=C) -> (forall j, g j [] = None) ->
    (forall j l n m, g j l = Some n -> g j (l ++ m) = Some n) ->
    steady z true true false true (fun j => take_fn (fun l => take_range_of_option (g j l)))
| sd_take_until_range : forall J (g : J -> list T), is_slice (C:=C) -> (forall j, g j <> []) ->
    steady z false true false true (fun j => take_until_range (g j))
| sd_take_until_bytes : forall J (code : J -> T -> N) (needle : J -> list N), is_slice (C:=C) -> (forall j, 2 <= length (needle j)) ->
    steady z true true false true (fun j => take_until_bytes (List.map (code j)) (needle j))
| sd_recognize_with_value : forall n h J S A (f : J -> parser C S A), steady z true false n h f -> (forall j, forward (f j)) ->
    steady z true true n h (fun j => recognize_with_value (f j))
| sd_recognize : forall x a n h J S A (f : J -> parser C S A), steady z x a n h f -> (forall j, forward (f j)) ->
    steady z x a n h (fun j => recognize (f j))
(* around one parser *)
| sd_message : forall x a n h J S A (f : J -> parser C S A) (m : J -> info T), steady z x a n h f ->
    steady z x a n h (fun j => message (f j) (m j))
| sd_expected : forall x a n h J S A (f : J -> parser C S A) (m : J -> info T), steady z x a n h f ->
    steady z x a n h (fun j => expected (f j) (m j))
| sd_silent : forall x a n h J S A (f : J -> parser C S A), steady z x a n h f -> steady z x a n h (fun j => silent (f j))
| sd_map : forall x a n h J S A B (f : J -> parser C S A) (g : J -> A -> B), steady z x a n h f ->
    steady z x a n h (fun j => map (f j) (g j))
| sd_flat_map : forall x a n J S A B (f : J -> parser C S A) (g : J -> A -> B + E), steady z x a n true f ->
    (forall j o e, g j o = inr e -> e_is_eoi C e = false) ->
    steady z (x && a) a false true (fun j => flat_map (f j) (g j))
| sd_and_then : forall x a n J S A B (f : J -> parser C S A) (g : J -> A -> B + SErr C), steady z x a n true f ->
    (forall j o e, g j o = inr e -> se_is_eoi C e = false) ->
    steady z (x && a) a false true (fun j => and_then (f j) (g j))
| sd_from_str : forall x a n J S A B (f : J -> parser C S A) (g : J -> A -> option (B + string)), steady z x a n true f ->
    steady z (x && a) a false true (fun j => from_str (f j) (g j))
| sd_ignore : forall x a n h J S A (f : J -> parser C S A), steady z x a n h f -> steady z x a n h (fun j => ignore (f j))
| sd_lazy : forall x a n h J S A (f : J -> parser C S A), steady z x a n h f -> steady z x a n h (fun j => lazy (f j))
| sd_factory : forall x a n h J S A (f : J -> parser C S A), steady z x a n h f -> steady z x a n h (fun j => factory (f j))
| sd_opaque : forall x a n h J S A (f : J -> parser C S A), steady z x a n h f -> steady z x a n h (fun j => opaque (f j))
| sd_by_ref : forall x a n h J S A (f : J -> parser C S A), steady z x a n h f -> steady z x a n h (fun j => by_ref (f j))
| sd_parser_fn : forall x a n h J S A (f : J -> parser C S A), steady z x a n h f -> steady z x a n h (fun j => parser_fn (f j))
| sd_parser_fn0 : forall x n h J S A (f : J -> parser C S A), steady z x true n h f -> steady z x true n h (fun j => parser_fn0 (f j))
| sd_string : forall J (text : J -> string) (g : J -> list T) (cmp : J -> T -> T -> bool), (forall j, g j <> []) ->
    steady z true true false true (fun j => no_partial (string_cmp (text j) (g j) (cmp j)))
| sd_bytes_cmp : forall J (g : J -> list T) (cmp : J -> T -> T -> bool), (forall j, g j <> []) ->
    steady z true true false true (fun j => no_partial (bytes_cmp (g j) (cmp j)))
| sd_bytes : forall J (g : J -> list T), (forall j, g j <> []) -> steady z true true false true (fun j => no_partial (bytes (g j)))
| sd_any_partial_state : forall x a n h J S A (f : J -> parser C S A), steady z x a n h f ->
    steady z x a n h (fun j => any_partial_state (f j))
| sd_spanned : forall x a n h J S A Q (q_eqb : Q -> Q -> bool) (sp_start sp_end : Pos C -> Q) (mk_span : Q -> Q -> Pos C) (f : J -> parser C S A),
    steady z x a n h f -> steady z x a n h (fun j => spanned q_eqb sp_start sp_end mk_span (f j))
| sd_look_ahead : forall x a n h J S A (f : J -> parser C S A), steady z x a n h f ->
    steady z true true n h (fun j => look_ahead (f j))
| sd_no_partial : forall x a n h J S A (f : J -> parser C S A), steady z x a n h f ->
    (forall j i, p_lazy (f j) i = default_lazy (p_init (f j)) (p_run (f j)) i) ->
    steady z true true n h (fun j => no_partial (f j))
| sd_optional : forall a n h J S A (f : J -> parser C S A), steady z true a n h f ->
    steady z true a true h (fun j => optional (f j))
| sd_either : forall x a n h J J1 J2 S1 S2 A (p : J1 -> parser C S1 A) (q : J2 -> parser C S2 A) (g : J -> J1 + J2),
    steady z x a n h p -> steady z x a n h q ->
    steady z x a n h (fun j => either (match g j with inl k => inl (p k) | inr k => inr (q k) end))
| sd_ext : forall x a n h J S A (f f' : J -> parser C S A), steady z x a n h f -> (forall j, f' j = f j) -> steady z x a n h f'
| sd_none : forall x a n h J S A (f : J -> parser C S A), (J -> False) -> steady z x a n h f
| sd_dispatch : forall x a n h J J1 J2 S SS A (p : J1 -> parser C S A) (d : J2 -> disp (C:=C) A SS) (g : J -> J1 + J2),
    steady z x a n h p -> steady z x a n h (fun k => dispatch (d k)) ->
    steady z x a n h (fun j => dispatch (match g j with inl k => DC (p k) | inr k => DN (d k) end))
(* sequences *)
| sd_tuple : forall x n h J SS B (t : J -> tup (C:=C) SS B), steady_tup z x n h t -> steady z x false n h (fun j => tuple (t j))
| sd_with : forall x1 a1 n1 h1 x2 a2 n2 h2 J S1 A S2 B (p : J -> parser C S1 A) (q : J -> parser C S2 B),
    steady z x1 a1 n1 h1 p -> steady z x2 a2 n2 h2 q ->
    steady z (x1 && n2) false (n1 && n2) (h1 && h2) (fun j => with_ (p j) (q j))
| sd_skip : forall x1 a1 n1 h1 x2 a2 n2 h2 J S1 A S2 B (p : J -> parser C S1 A) (q : J -> parser C S2 B),
    steady z x1 a1 n1 h1 p -> steady z x2 a2 n2 h2 q ->
    steady z (x1 && n2) false (n1 && n2) (h1 && h2) (fun j => skip (p j) (q j))
| sd_then : forall x1 a1 n1 h1 x2 a2 n2 h2 J S1 A S2 B (p : J -> parser C S1 A) (s0 : S2) (q : J * A -> parser C S2 B),
    steady z x1 a1 n1 h1 p -> steady z x2 a2 n2 h2 q -> (forall ja, p_init (q ja) = s0) ->
    steady z (x1 && n2) false (n1 && n2) (h1 && h2) (fun j => then_ (p j) s0 (fun v => q (j, v)))
| sd_then_ref : forall x1 a1 n1 h1 x2 a2 n2 h2 J S1 A S2 B (p : J -> parser C S1 A) (s0 : S2) (q : J * A -> parser C S2 B),
    steady z x1 a1 n1 h1 p -> steady z x2 a2 n2 h2 q -> (forall ja, p_init (q ja) = s0) ->
    steady z (x1 && n2) false (n1 && n2) (h1 && h2) (fun j => then_ref (p j) s0 (fun v => q (j, v)))
(* choices *)
| sd_choice : forall x a n h J A SS (t : J -> alts (C:=C) A SS), steady_alts z x a n h t -> steady z x a n h (fun j => choice (t j))
| sd_or : forall x1 a1 n1 h1 x2 a2 n2 h2 J S1 S2 A (p : J -> parser C S1 A) (q : J -> parser C S2 A),
    steady z x1 a1 n1 h1 p -> steady z x2 a2 n2 h2 q ->
    steady z (x1 && x2) (a1 && a2) (n1 || x1 && n2) (h1 && h2) (fun j => or_ (p j) (q j))
(* repetitions *)
| sd_many : forall a n h c J S A (f : J -> parser C S A), steady z true a n h f -> (forall j, history_free false (f j)) ->
    (forall j, solid z c true (f j)) ->
    steady z true false true h (fun j => many (f j))
| sd_many1 : forall a n h c J S A (f : J -> parser C S A), steady z true a n h f -> (forall j, history_free false (f j)) ->
    (forall j, solid z c true (f j)) ->
    steady z true false n h (fun j => many1 (f j))
| sd_count_min_max : forall a n h J S A (f : J -> parser C S A) mn mx, steady z true a n h f -> (forall j, history_free false (f j)) -> mn <= mx ->
    steady z (mn =? 0) false (mn =? 0) (h && negb (mx =? 0)) (fun j => count_min_max mn mx (f j))
| sd_count_by : forall a n h J S A (f : J -> parser C S A) (mn mx : J -> nat), steady z true a n h f -> (forall j, history_free false (f j)) ->
    (forall j, mn j <= mx j) -> steady z false false false false (fun j => count_min_max (mn j) (mx j) (f j))
| sd_iterate : forall x a n h J X S A (q : J * X -> parser C S A) (items : J -> list X) (s0 : S) (Clean : S -> Prop), steady z x a n h q ->
    (forall j, items j <> []) -> Clean s0 -> (forall jx, p_init (q jx) = s0) -> (forall jx, run_hyg false Clean (p_run (q jx))) ->
    steady z n false n h (fun j => iterate s0 (items j) (fun v => q (j, v)))
| sd_sep_end_by1 : forall a1 n1 h1 a2 n2 h2 c1 m1 c2 J S1 S2 A B (p : J -> parser C S1 A) (s : J -> parser C S2 B),
    steady z true a1 n1 h1 p -> steady z true a2 n2 h2 s -> (forall j, history_free false (p j)) -> (forall j, history_free false (s j)) ->
    (forall j, solid z c1 m1 (p j)) -> (forall j, solid z c2 true (s j)) -> steady z true false n1 (h2 && h1) (fun j => sep_end_by1 (p j) (s j))
| sd_sep_end_by : forall a1 n1 h1 a2 n2 h2 c1 m1 c2 J S1 S2 A B (p : J -> parser C S1 A) (s : J -> parser C S2 B),
    steady z true a1 n1 h1 p -> steady z true a2 n2 h2 s -> (forall j, history_free false (p j)) -> (forall j, history_free false (s j)) ->
    (forall j, solid z c1 m1 (p j)) -> (forall j, solid z c2 true (s j)) -> steady z true false true false (fun j => sep_end_by (p j) (s j))
| sd_chainl1 : forall x1 a1 h1 a2 n2 h2 c1 m1 c2 J S1 S2 A (p : J -> parser C S1 A) (op : J -> parser C S2 (A -> A -> A)),
    steady z x1 a1 true h1 p -> steady z true a2 n2 h2 op -> (forall j, history_free false (p j)) -> (forall j, history_free false (op j)) ->
    (forall j, starts_alike (p j)) -> (forall j, solid z c1 m1 (p j)) -> (forall j, solid z c2 true (op j)) ->
    steady z true false true (h2 && h1) (fun j => chainl1 (p j) (op j))
with steady_tup (z : nat) : forall (exact sure hungry : bool) (J SS B : Type), (J -> tup (C:=C) SS B) -> Prop :=
| sd_T1 : forall x a n h J S A (f : J -> parser C S A), steady z x a n h f -> steady_tup z x n h (fun j => T1 (f j))
| sd_TC : forall x a n h x2 n2 h2 J S A SS B (f : J -> parser C S A) (t : J -> tup (C:=C) SS B),
    steady z x a n h f -> steady_tup z x2 n2 h2 t -> steady_tup z (x && n2) (n && n2) (h && h2) (fun j => TC (f j) (t j))
with steady_alts (z : nat) : forall (exact atomic sure hungry : bool) (J A SS : Type), (J -> alts (C:=C) A SS) -> Prop :=
| sd_AL : forall x a n h J S A (f : J -> parser C S A), steady z x a n h f -> steady_alts z x a n h (fun j => AL (f j))
| sd_AC : forall x a n h x2 a2 n2 h2 J S A SS (f : J -> parser C S A) (t : J -> alts (C:=C) A SS),
    steady z x a n h f -> steady_alts z x2 a2 n2 h2 t ->
    steady_alts z (x && x2) (a && a2) (n || x && n2) (h && h2) (fun j => AC (f j) (t j)).

Scheme steady_mut := Minimality for steady Sort Prop
with steady_tup_mut := Minimality for steady_tup Sort Prop
with steady_alts_mut := Minimality for steady_alts Sort Prop.
Combined Scheme steady_ind3 from steady_mut, steady_tup_mut, steady_alts_mut.
End SteadySpec.

Section Readers.
Context {C : Cfg}.
Notation T := (tok C).
Variables Rd IoE : Type.

(** [left rd]: at most so many tokens still come out of the reader.  It delivers no more than it is asked for. *)
Definition finite_reader (rd_read : Rd -> nat -> (list T + IoE) * Rd) (left : Rd -> nat) : Prop :=
  forall rd n, match rd_read rd n with
  | (inl bs, rd') => length bs <= n /\ length bs + left rd' <= left rd
  | (inr _, rd') => left rd' <= left rd
  end.
Definition finite_poll_reader (poll_read : Rd -> nat -> poll (list T + IoE) * Rd) (left : Rd -> nat) : Prop :=
  forall rd n, match poll_read rd n with
  | (Ready (inl bs), rd') => length bs <= n /\ length bs + left rd' <= left rd
  | (_, rd') => left rd' <= left rd
  end.

(** [waits rd]: at most so many times it will be found not ready. *)
Definition patient_reader (poll_read : Rd -> nat -> poll (list T + IoE) * Rd) (waits : Rd -> nat) : Prop :=
  forall rd n, match poll_read rd n with
  | (Pending, rd') => waits rd' < waits rd
  | (Ready _, rd') => waits rd' <= waits rd
  end.

(** A connection: message after message with the same decoder and reader, trying again after an I/O error. *)
Inductive messages (rd_read : Rd -> nat -> (list T + IoE) * Rd) (grow : nat -> nat -> nat) (fl : nat) {S A} (p : parser C S A) :
    dec (C:=C) S -> Rd -> dec (C:=C) S -> Rd -> Prop :=
| ms_here : forall d rd, messages rd_read grow fl p d rd d rd
| ms_value : forall d rd v d1 rd1 d' rd', decode_loop rd_read grow fl p d rd = Done (inl v, d1, rd1) ->
    messages rd_read grow fl p d1 rd1 d' rd' -> messages rd_read grow fl p d rd d' rd'
| ms_io : forall d rd pos e d1 rd1 d' rd', decode_loop rd_read grow fl p d rd = Done (inr (DIo pos e), d1, rd1) ->
    messages rd_read grow fl p d1 rd1 d' rd' -> messages rd_read grow fl p d rd d' rd'.

(** The same polled: a future that is not ready is polled again ([pm_poll]) or dropped and made anew ([pm_drop]). *)
Inductive poll_messages (poll_read : Rd -> nat -> poll (list T + IoE) * Rd) (grow : nat -> nat -> nat) (fl : nat) {S A} (p : parser C S A) :
    bool -> dec (C:=C) S -> Rd -> bool -> dec (C:=C) S -> Rd -> Prop :=
| pm_here : forall w d rd, poll_messages poll_read grow fl p w d rd w d rd
| pm_poll : forall w d rd d1 rd1 w' d' rd', poll_decode poll_read grow fl w p d rd = Done (Pending, d1, rd1) ->
    poll_messages poll_read grow fl p true d1 rd1 w' d' rd' -> poll_messages poll_read grow fl p w d rd w' d' rd'
| pm_drop : forall w d rd d1 rd1 w' d' rd', poll_decode poll_read grow fl w p d rd = Done (Pending, d1, rd1) ->
    poll_messages poll_read grow fl p false d1 rd1 w' d' rd' -> poll_messages poll_read grow fl p w d rd w' d' rd'
| pm_value : forall w d rd v d1 rd1 w' d' rd', poll_decode poll_read grow fl w p d rd = Done (Ready (inl v), d1, rd1) ->
    poll_messages poll_read grow fl p false d1 rd1 w' d' rd' -> poll_messages poll_read grow fl p w d rd w' d' rd'
| pm_io : forall w d rd pos e d1 rd1 w' d' rd', poll_decode poll_read grow fl w p d rd = Done (Ready (inr (DIo pos e)), d1, rd1) ->
    poll_messages poll_read grow fl p false d1 rd1 w' d' rd' -> poll_messages poll_read grow fl p w d rd w' d' rd'.
End Readers.
