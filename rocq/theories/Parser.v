(** The [Parser] trait: the object of the model, default methods and entry points (parser/mod.rs).

    A parser is a record of the methods the rest of the library calls through the trait.  [parse_mode],
    [parse_mode_impl], [parse_first] and [parse_partial] collapse into one field [p_run] taking [is_first] as a
    boolean: [FirstMode] and [PartialMode { first: true }] behave alike because [ParseMode::parse]
    (parser/mod.rs:1113-1209) turns the latter into the former before calling [parse_mode_impl], and [set_first]
    sets the boolean.  A parser overriding one of the four overrides [p_run]. *)
From Coq Require Import String List Bool Arith NArith.
Import ListNotations.
From Verif Require Import Base.
Set Implicit Arguments.

Section ParserDef.
Context {C : Cfg}.

(** parser/mod.rs:84-333 [trait Parser<Input>].  [S] is [PartialState], [p_init] its [Default] value (in Rust the
    value is fixed by the type; here every parser carries it, parsers sharing a state type have to agree on it
    where it matters, see [then]/[slice choice]).  Parsers are values: the [&mut self] of the Rust methods is not
    used by the library's own parsers to keep state, closures are modelled as pure functions.  ([Factory],
    combinator.rs:1122, caches the parser it builds in [self]; its model rebuilds it.) *)
Record parser (S A : Type) : Type := MkParser {
  p_init : S;
  (** parse_mode / parse_mode_impl / parse_first / parse_partial *)
  p_run : bool -> input C -> S -> outcome (PR A (Err C) * input C * S);
  (** parse_lazy *)
  p_lazy : input C -> outcome (PR A (Err C) * input C);
  (** parse_committed_mode *)
  p_cmode : bool -> input C -> S -> outcome (PR A (Err C) * input C * S);
  (** parse_stream *)
  p_stream : input C -> outcome (PR A (Err C) * input C);
  (** add_error *)
  p_adderr : trk (Err C) -> trk (Err C);
  (** add_committed_expected_error *)
  p_addcexp : trk (Err C) -> trk (Err C);
  (** parser_count *)
  p_count : N
}.

(** The error augmentation shared by [parse_stream] (parser/mod.rs:148-158), [parse_stream_partial] (217-227) and
    [ParseMode::parse_committed] (1136-1147): on [PeekErr] the input is reset and the token found there (or end of
    input) is added as unexpected, then [add_error]. *)
Definition augment_err (adderr : trk (Err C) -> trk (Err C)) (before : input C) (t : trk (Err C)) : trk (Err C) :=
  adderr (match uncons before with
          | (Some tk, _) => on_err (fun e => e_add_unexpected e (IToken tk)) t
          | (None, _) => on_err (fun e => e_add C e (se_eoi C)) t
          end).

Definition augment {A} (adderr : trk (Err C) -> trk (Err C)) (before : input C)
    (x : PR A (Err C) * input C) : PR A (Err C) * input C :=
  match x with
  | (PeekErr t, _) => (PeekErr (augment_err adderr before t), before)
  | (r, i') => (r, i')
  end.

Definition augment3 {A S} (adderr : trk (Err C) -> trk (Err C)) (before : input C)
    (x : PR A (Err C) * input C * S) : PR A (Err C) * input C * S :=
  match x with (r, i', s') => let (r2, i2) := augment adderr before (r, i') in (r2, i2, s') end.

(** parser/mod.rs:1124-1148 [ParseMode::parse_committed], reached through the default [parse_committed_mode]
    (303-319). *)
Definition default_cmode {S A} (run : bool -> input C -> S -> outcome (PR A (Err C) * input C * S))
    (adderr : trk (Err C) -> trk (Err C)) (first : bool) (i : input C) (st : S) :=
  omap (augment3 adderr i) (run first i st).

(** parser/mod.rs:141-163 default [parse_stream]. *)
Definition default_stream {S A} (init : S) (run : bool -> input C -> S -> outcome (PR A (Err C) * input C * S))
    (adderr : trk (Err C) -> trk (Err C)) (i : input C) :=
  omap (fun x => augment adderr i (fst x)) (run true i init).

(** parser/mod.rs:180-203 default [parse_lazy]. *)
Definition default_lazy {S A} (init : S) (run : bool -> input C -> S -> outcome (PR A (Err C) * input C * S))
    (i : input C) : outcome (PR A (Err C) * input C) :=
  omap (fun x => match x with (r, i', _) =>
          match r with
          | CommitErr e => (CommitErr e, if ipart i then i else i')
          | _ => (r, i')
          end end) (run true i init).

(** A parser written with [parse_mode!] (parser/mod.rs:36-57) and [parse_mode_impl], other methods default. *)
Definition mk_mode {S A} (init : S) (run : bool -> input C -> S -> outcome (PR A (Err C) * input C * S))
    (adderr addcexp : trk (Err C) -> trk (Err C)) (count : N) : parser S A :=
  MkParser init run (default_lazy init run) (default_cmode run adderr) (default_stream init run adderr)
           adderr addcexp count.

(** A parser written with [parse_lazy] only: [parse_first]/[parse_partial] default to it (parser/mod.rs:240-262). *)
Definition lazy_run {A} (lz : input C -> outcome (PR A (Err C) * input C)) : bool -> input C -> unit -> outcome (PR A (Err C) * input C * unit) :=
  fun _ i _ => omap (fun x => (fst x, snd x, tt)) (lz i).

Definition mk_lazy {A} (lz : input C -> outcome (PR A (Err C) * input C))
    (adderr addcexp : trk (Err C) -> trk (Err C)) (count : N) : parser unit A :=
  MkParser tt (lazy_run lz) lz (default_cmode (lazy_run lz) adderr) (default_stream tt (lazy_run lz) adderr)
           adderr addcexp count.

(** A parser written with [parse_mode_impl] and its own [parse_lazy]. *)
Definition mk_both {S A} (init : S) (run : bool -> input C -> S -> outcome (PR A (Err C) * input C * S))
    (lz : input C -> outcome (PR A (Err C) * input C))
    (adderr addcexp : trk (Err C) -> trk (Err C)) (count : N) : parser S A :=
  MkParser init run lz (default_cmode run adderr) (default_stream init run adderr) adderr addcexp count.

(** Default [add_error] / [add_committed_expected_error] (parser/mod.rs:206, 330-331): do nothing. *)
Definition no_err (t : trk (Err C)) : trk (Err C) := t.

(** parser/mod.rs:1043-1101 [forward_deref!]: [&mut P], [Box<P>].  [parse_lazy], [parse_stream] and
    [parse_committed_mode] are not forwarded, so they are the defaults. *)
Definition by_ref {S A} (p : parser S A) : parser S A :=
  mk_mode (p_init p) (p_run p) (p_adderr p) (p_addcexp p) (p_count p).

(** Result of the entry points: [Result<_, Error>]. *)
Definition entry_result {A} (r : PR A (Err C)) : A + Err C :=
  match r with
  | CommitOk v | PeekOk v => inl v
  | CommitErr e => inr e
  | PeekErr t => inr (terr t)
  end.

(** parser/mod.rs:105-113 [Parser::parse].  The Rust function drops the input on error; the model keeps it. *)
Definition parse {S A} (p : parser S A) (i : input C) : outcome ((A + Err C) * input C) :=
  omap (fun x => (entry_result (fst x), snd x)) (p_stream p i).

(** parser/mod.rs:210-233 [Parser::parse_stream_partial]. *)
Definition parse_stream_partial {S A} (p : parser S A) (i : input C) (st : S) : outcome (PR A (Err C) * input C * S) :=
  omap (augment3 (p_adderr p) i) (p_run p false i st).

(** parser/mod.rs:120-129 [Parser::parse_with_state]. *)
Definition parse_with_state {S A} (p : parser S A) (i : input C) (st : S) : outcome ((A + Err C) * input C * S) :=
  omap (fun x => match x with (r, i', s') => (entry_result r, i', s') end) (parse_stream_partial p i st).

End ParserDef.
Arguments parser : clear implicits.
Arguments parser C S A : assert.

(** Fold a list of tokens' equality (Rust [==] on ranges). *)
Fixpoint list_eqb {T} (eqb : T -> T -> bool) (l r : list T) : bool :=
  match l, r with
  | [], [] => true
  | x :: l', y :: r' => eqb x y && list_eqb eqb l' r'
  | _, _ => false
  end.
