(** Sequencing: tuples, [with], [skip], [between], [then], [then_partial], [then_ref] (parser/sequence.rs). *)
From Coq Require Import String List Bool Arith NArith.
Import ListNotations.
From Verif Require Import Base Parser Combinator.
Set Implicit Arguments.

Section Sequence.
Context {C : Cfg}.
Notation T := (tok C).
Notation E := (Err C).

(** Saturating arithmetic on [u8] ([u8::saturating_add], [u8::saturating_sub]). *)
Definition sat_add (a b : N) : N := N.min 255 (a + b).
Definition sat_sub (a b : N) : N := (a - b)%N.

(** The error-reporting side of one element of a tuple. *)
Record errfns : Type := EF { ef_add : trk E -> trk E; ef_cexp : trk E -> trk E; ef_count : N }.
Definition errfns_of {S A} (p : parser C S A) : errfns := EF (p_adderr p) (p_addcexp p) (p_count p).

(** sequence.rs:55-84 [add_sequence_error]; returns the error, and [false] for "break" (the Rust result). *)
Definition add_sequence_error (i fep : nat) (inner : N) (err : trk E) (f : errfns) : trk E * bool :=
  let err := if i + 1 =? fep then ef_cexp f err else err in
  let '(err, stop) :=
    if fep <=? i then
      let err := if (toff err <=? 1)%N then set_off err inner else err in
      let err := ef_add f err in
      (err, (toff err <=? 1)%N)
    else (err, false) in
  if stop then (err, false) else (set_off err (sat_sub (toff err) (ef_count f)), true).

(** sequence.rs:124-136: the loop over all parsers. *)
Fixpoint add_sequence_errors (i fep : nat) (inner : N) (err : trk E) (l : list errfns) : trk E :=
  match l with
  | [] => err
  | f :: l' =>
      let '(err', go) := add_sequence_error i fep inner err f in
      if go then add_sequence_errors (S i) fep inner err' l' else err'
  end.

(** sequence.rs:104-142 [add_errors].  Returns the failure and the input (the unexpected token is consumed). *)
Definition add_errors {A} (i : input C) (err : trk E) (fep : nat) (offset : N) (l : list errfns)
    : PR A E * input C :=
  let inner := toff err in
  let err := set_off err offset in
  if fep =? 0 then (PeekErr err, i)
  else
    let '(err, i') :=
      match uncons i with
      | (Some t, i') => (on_err (fun e => e_add C e (se_unexpected C (IToken t))) err, i')
      | (None, i') => (err, i')
      end in
    (CommitErr (terr (add_sequence_errors 0 fep inner err l)), i').

(** A non-empty tuple of parsers, [tup SS B] with state [SS] and output [B]: the type-level lists of
    [tuple_parser!] (sequence.rs:86-317, instantiated for 1 to 20 parsers; here any length).  The state of an
    element is [SequenceState { value, state }] (sequence.rs:24-36).  Output tuples are right nested pairs. *)
Inductive tup : Type -> Type -> Type :=
| T1 (S A : Type) (p : parser C S A) : tup (option A * S) A
| TC (S A SS B : Type) (p : parser C S A) (r : tup SS B) : tup ((option A * S) * SS) (A * B).

(** Default state: no values cached. *)
Fixpoint tup_init {SS B} (t : tup SS B) : SS :=
  match t with
  | T1 p => (None, p_init p)
  | TC p r => ((None, p_init p), tup_init r)
  end.

Fixpoint tup_errfns {SS B} (t : tup SS B) : list errfns :=
  match t with
  | T1 p => [errfns_of p]
  | TC p r => errfns_of p :: tup_errfns r
  end.

(** sequence.rs:245-248 [parser_count]: the sum (the [u8] overflow of the Rust sum for more than 255 is not
    modelled). *)
Definition tup_count (l : list errfns) : N := fold_right (fun f n => ef_count f + n)%N 0%N l.

(** How running (part of) the sequence ended. [KOk]: all ran, with the mode, [current_parser] and
    [first_empty_parser] then. [KHead]: the head peek-failed.  [KPeek]: a later element peek-failed. *)
Inductive seqk : Type :=
| KOk (first : bool) (cur fep : nat)
| KCommit (e : E)
| KHead (e : trk E)
| KPeek (e : trk E) (fep : nat).

Definition is_none {A} (o : option A) : bool := match o with None => true | Some _ => false end.

(** sequence.rs:180-199: the head of the tuple. [state.offset] is threaded as the last component. *)
Definition seq_head {S A} (p : parser C S A) (first : bool) (i : input C) (st : option A * S) (off : N)
    : outcome (seqk * input C * (option A * S) * N) :=
  let (value, child) := st in
  if first || is_none value then
    omap (fun x => match x with (r, i', child') =>
      match r with
      | CommitOk a => (KOk true 0 1, i', (Some a, child'), sat_add (p_count p) 1)
      | PeekOk a => (KOk true 0 0, i', (Some a, child'), sat_add (p_count p) 1)
      | CommitErr e => (KCommit e, i', (value, child'), off)
      | PeekErr e => (KHead e, i', (value, child'), off)
      end end) (p_run p first i child)
  else Done (KOk first 0 0, i, st, off).

(** sequence.rs:201-233: one later element. *)
Definition seq_elem {S A} (p : parser C S A) (first : bool) (cur fep : nat) (i : input C) (st : option A * S) (off : N)
    : outcome (seqk * input C * (option A * S) * N) :=
  let (value, child) := st in
  if first || is_none value then
    omap (fun x => match x with (r, i', child') =>
      match r with
      | CommitOk a => (KOk true (cur + 1) (cur + 1 + 1), i', (Some a, child'), sat_add off (p_count p))
      | PeekOk a => (KOk true (cur + 1) fep, i', (Some a, child'), sat_add off (p_count p))
      | CommitErr e => (KCommit e, i', (value, child'), off)
      | PeekErr e => (KPeek e fep, i, (value, child'), off)
      end end) (p_run p first i child)
  else Done (KOk first cur fep, i, st, off).

Fixpoint seq_rest {SS B} (t : tup SS B) (first : bool) (cur fep : nat) (i : input C) (st : SS) (off : N)
    : outcome (seqk * input C * SS * N) :=
  match t in tup SS B return SS -> outcome (seqk * input C * SS * N) with
  | T1 p => fun st => seq_elem p first cur fep i st off
  | TC p r => fun st =>
      obind (seq_elem p first cur fep i (fst st) off) (fun x => match x with (k, i', s', off') =>
        match k with
        | KOk first' cur' fep' =>
            omap (fun y => match y with (k2, i2, s2, off2) => (k2, i2, (s', s2), off2) end)
                 (seq_rest r first' cur' fep' i' (snd st) off')
        | _ => Done (k, i', (s', snd st), off')
        end end)
  end st.

Definition seq_all {SS B} (t : tup SS B) (first : bool) (i : input C) (st : SS) (off : N)
    : outcome (seqk * input C * SS * N) :=
  match t in tup SS B return SS -> outcome (seqk * input C * SS * N) with
  | T1 p => fun st => seq_head p first i st off
  | TC p r => fun st =>
      obind (seq_head p first i (fst st) off) (fun x => match x with (k, i', s', off') =>
        match k with
        | KOk first' cur' fep' =>
            omap (fun y => match y with (k2, i2, s2, off2) => (k2, i2, (s', s2), off2) end)
                 (seq_rest r first' cur' fep' i' (snd st) off')
        | _ => Done (k, i', (s', snd st), off')
        end end)
  end st.

(** sequence.rs:38-48, 236 [unwrap_value] of every element: takes the values out of the state; undefined behaviour
    ([unreachable_unchecked]) if one is missing, here [None]. *)
Fixpoint tup_take {SS B} (t : tup SS B) (st : SS) : option (B * SS) :=
  match t in tup SS B return SS -> option (B * SS) with
  | T1 p => fun st => match fst st with Some a => Some (a, (None, snd st)) | None => None end
  | TC p r => fun st =>
      match fst (fst st), tup_take r (snd st) with
      | Some a, Some (b, ss) => Some ((a, b), ((None, snd (fst st)), ss))
      | _, _ => None
      end
  end st.

(** sequence.rs:157-242 [parse_mode_impl] of a tuple; undefined behaviour is [Panic]. *)
Definition tuple_run {SS B} (t : tup SS B) (first : bool) (i : input C) (st : SS * N)
    : outcome (PR B E * input C * (SS * N)) :=
  obind (seq_all t first i (fst st) (snd st)) (fun x => match x with (k, i', s', off') =>
    match k with
    | KCommit e => Done (CommitErr e, i', (s', off'))
    | KHead e => Done (PeekErr e, i', (s', off'))
    | KPeek e fep =>
        let (r, i2) := add_errors i' e fep off' (tup_errfns t) in Done (r, i2, (s', off'))
    | KOk _ _ fep =>
        match tup_take t s' with
        | Some (b, s2) => Done (if fep =? 0 then PeekOk b else CommitOk b, i', (s2, off'))
        | None => Panic
        end
    end end).

(** sequence.rs:251-285 [add_error] of a tuple. *)
Fixpoint tuple_adderr_rest (errors : trk E) (l : list errfns) : trk E :=
  match l with
  | [] => errors
  | f :: l' =>
      let prev := toff errors in
      let errors := ef_add f errors in
      if (toff errors <=? 1)%N then set_off errors (sat_sub (toff errors) 1)
      else
        let errors := match l' with
                      | [] => errors
                      | _ => if (toff errors =? prev)%N then set_off errors (sat_sub (toff errors) (ef_count f)) else errors
                      end in
        tuple_adderr_rest errors l'
  end.

Definition tuple_adderr (l : list errfns) (errors : trk E) : trk E :=
  match l with
  | [] => errors
  | f :: l' =>
      let prev := toff errors in
      let errors := ef_add f errors in
      if (toff errors <=? 1)%N then set_off errors (sat_sub (toff errors) 1)
      else
        let errors := if (toff errors =? prev)%N then set_off errors (sat_sub (toff errors) (ef_count f)) else errors in
        tuple_adderr_rest errors l'
  end.

(** sequence.rs:287-291 [add_committed_expected_error]: the last element's. *)
Definition tuple_addcexp (l : list errfns) (errors : trk E) : trk E :=
  ef_cexp (last l (EF (fun t => t) (fun t => t) 1)) errors.

Definition tuple {SS B} (t : tup SS B) : parser C (SS * N) B :=
  mk_mode (tup_init t, 0%N) (tuple_run t) (tuple_adderr (tup_errfns t)) (tuple_addcexp (tup_errfns t))
    (tup_count (tup_errfns t)).

Definition pair2 {S1 A S2 B} (p : parser C S1 A) (q : parser C S2 B) := tuple (TC p (T1 q)).
Definition tup3 {S1 A S2 B S3 D} (p : parser C S1 A) (q : parser C S2 B) (r : parser C S3 D) := tuple (TC p (TC q (T1 r))).

(** sequence.rs:510-545 [With]. *)
Definition with_ {S1 A S2 B} (p : parser C S1 A) (q : parser C S2 B) :=
  let t := pair2 (ignore p) q in
  mk_both (p_init t)
    (fun first i st => omap (fun x => match x with (r, i', s') => (pr_map snd r, i', s') end) (p_run t first i st))
    (fun i => omap (fun x => (pr_map snd (fst x), snd x)) (p_lazy t i))
    (p_adderr t) (p_addcexp t) (p_count t).

(** sequence.rs:558-582 [Skip]. *)
Definition skip {S1 A S2 B} (p : parser C S1 A) (q : parser C S2 B) :=
  let t := pair2 p (ignore q) in
  mk_mode (p_init t)
    (fun first i st => omap (fun x => match x with (r, i', s') => (pr_map fst r, i', s') end) (p_run t first i st))
    (p_adderr t) (p_addcexp t) (p_count t).

(** A [parser!] function with a [PartialState] (lib.rs:322-520 [parser!], [combine_parse_partial!], [combine_parser_impl!]): the body is rebuilt and run
    with the given state; [add_error] and [add_committed_expected_error] are forwarded, [parser_count] is not. *)
Definition parser_fn {S A} (p : parser C S A) : parser C S A :=
  mk_mode (p_init p) (p_run p) (p_adderr p) (p_addcexp p) 1.

(** A [parser!] function without [PartialState]: the state is [()] and the body runs with a fresh default state
    each time, in the given mode. *)
Definition parser_fn0 {S A} (p : parser C S A) : parser C unit A :=
  mk_mode tt (fun first i _ => omap (fun x => (fst x, tt)) (p_run p first i (p_init p)))
    (p_adderr p) (p_addcexp p) 1.

(** sequence.rs:593-623 [between]. *)
Definition between {S1 A S2 B S3 D} (open : parser C S1 A) (close : parser C S2 B) (p : parser C S3 D) :=
  parser_fn (map (tup3 open p close) (fun x => fst (snd x))).

(** sequence.rs:628-701 [Then].  The cached second parser [N] is replaced by the value it was built from ([f] is
    pure); [s0] is the default of [N::PartialState], shared by all the parsers [f] returns. *)
Definition then_finish {S1 S2 A B} (committed : bool) (sp : S1) (cache : option (bool * A))
    (x : PR B E * input C * S2) : PR B E * input C * (S1 * option (bool * A) * S2) :=
  match x with (r, i', s2) =>
    match r with
    | PeekOk b => (if committed then CommitOk b else PeekOk b, i', (sp, None, s2))
    | CommitOk b => (CommitOk b, i', (sp, None, s2))
    | PeekErr e => (if committed then CommitErr (terr e) else PeekErr e, i', (sp, None, s2))
    | CommitErr e => (CommitErr e, i', (sp, cache, s2))
    end
  end.

Definition then_run {S1 A S2 B} (p : parser C S1 A) (f : A -> parser C S2 B) (first : bool) (i : input C)
    (st : S1 * option (bool * A) * S2) : outcome (PR B E * input C * (S1 * option (bool * A) * S2)) :=
  match st with (sp, cache, sn) =>
    if first || is_none cache then
      (* debug_assert!(n_parser_cache.is_none()) *)
      if dbg C && negb (is_none cache) then Panic
      else
        obind (p_run p first i sp) (fun x => match x with (r, i', sp') =>
          match r with
          | PeekErr e => Done (PeekErr e, i', (sp', cache, sn))
          | CommitErr e => Done (CommitErr e, i', (sp', cache, sn))
          | PeekOk a => omap (then_finish false sp' (Some (false, a))) (p_cmode (f a) true i' sn)
          | CommitOk a => omap (then_finish true sp' (Some (true, a))) (p_cmode (f a) true i' sn)
          end end)
    else
      match cache with
      | Some (committed, a) => omap (then_finish committed sp cache) (p_cmode (f a) first i sn)
      | None => Panic
      end
  end.

Definition then_ {S1 A S2 B} (p : parser C S1 A) (s0 : S2) (f : A -> parser C S2 B)
    : parser C (S1 * option (bool * A) * S2) B :=
  mk_mode (p_init p, None, s0) (then_run p f) (p_adderr p) no_err 1.

(** sequence.rs:718-788 [ThenPartial]: caches the value and rebuilds the parser; the same function in the model (the
    [&mut] access of [f] to the cached value is not modelled). *)
Definition then_partial {S1 A S2 B} (p : parser C S1 A) (s0 : S2) (f : A -> parser C S2 B) := then_ p s0 f.

(** sequence.rs:815-895 [ThenRef]: as [Then] but pairs the first value with the result. *)
Definition then_ref {S1 A S2 B} (p : parser C S1 A) (s0 : S2) (f : A -> parser C S2 B)
    : parser C (S1 * option (bool * A) * S2) (A * B) :=
  then_ p s0 (fun a =>
    let q := f a in
    MkParser (p_init q)
      (fun first i st => omap (fun x => match x with (r, i', s') => (pr_map (pair a) r, i', s') end) (p_run q first i st))
      (fun i => omap (fun x => (pr_map (pair a) (fst x), snd x)) (p_lazy q i))
      (fun first i st => omap (fun x => match x with (r, i', s') => (pr_map (pair a) r, i', s') end) (p_cmode q first i st))
      (fun i => omap (fun x => (pr_map (pair a) (fst x), snd x)) (p_stream q i))
      (p_adderr q) (p_addcexp q) (p_count q)).

End Sequence.
