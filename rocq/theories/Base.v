(** Core data of the model: results, commitment, streams.

    Every definition cites the Rust source it models (paths relative to /repo/src). *)
From Coq Require Import String List Bool Arith NArith.
Import ListNotations.
Set Implicit Arguments.

(** Outcome of a computation: [Done], a panic / undefined behaviour, or loop fuel exhausted. *)
Inductive outcome (X : Type) : Type :=
| Done (x : X)
| Panic
| OOF.
Arguments Done {X} x.
Arguments Panic {X}.
Arguments OOF {X}.

Definition obind {X Y} (o : outcome X) (f : X -> outcome Y) : outcome Y :=
  match o with Done x => f x | Panic => Panic | OOF => OOF end.
Definition omap {X Y} (f : X -> Y) (o : outcome X) : outcome Y :=
  match o with Done x => Done (f x) | Panic => Panic | OOF => OOF end.

(** error.rs:213-217 [enum Commit<T>]. *)
Inductive commit (A : Type) : Type := Commit (a : A) | Peek (a : A).
Arguments Commit {A} a.
Arguments Peek {A} a.

(** error.rs:925-928 [struct Tracked<E>], [ErrorOffset(u8)] (lib.rs:623) as an [N]. *)
Record trk (E : Type) : Type := Trk { terr : E; toff : N }.
Arguments Trk {E}.
Arguments terr {E}.
Arguments toff {E}.

(** error.rs:932-936 [impl From<E> for Tracked<E>]. *)
Definition to_trk {E} (e : E) : trk E := Trk e 1%N.

(** error.rs:945-951 [enum ParseResult<T, E>]. *)
Inductive PR (A E : Type) : Type :=
| CommitOk (a : A)
| PeekOk (a : A)
| CommitErr (e : E)
| PeekErr (e : trk E).
Arguments CommitOk {A E} a.
Arguments PeekOk {A E} a.
Arguments CommitErr {A E} e.
Arguments PeekErr {A E} e.

(** error.rs:960-966 [ParseResult::is_ok]. *)
Definition is_ok {A E} (r : PR A E) : bool :=
  match r with CommitOk _ | PeekOk _ => true | CommitErr _ | PeekErr _ => false end.

(** error.rs:1015-1025 [ParseResult::map]. *)
Definition pr_map {A B E} (f : A -> B) (r : PR A E) : PR B E :=
  match r with
  | CommitOk t => CommitOk (f t)
  | PeekOk t => PeekOk (f t)
  | CommitErr e => CommitErr e
  | PeekErr e => PeekErr e
  end.

(** error.rs:1000-1013 [ParseResult::map_err]. *)
Definition pr_map_err {A E E2} (f : E -> E2) (r : PR A E) : PR A E2 :=
  match r with
  | CommitOk t => CommitOk t
  | PeekOk t => PeekOk t
  | CommitErr e => CommitErr (f e)
  | PeekErr e => PeekErr (Trk (f (terr e)) (toff e))
  end.

(** error.rs:984-998 [ParseResult::and_then]. *)
Definition pr_and_then {A B E} (r : PR A E) (f : A -> PR B E) : PR B E :=
  match r with
  | CommitOk t =>
      match f t with
      | CommitOk t2 | PeekOk t2 => CommitOk t2
      | PeekErr e => CommitErr (terr e)
      | CommitErr e => CommitErr e
      end
  | PeekOk t => f t
  | CommitErr e => CommitErr e
  | PeekErr e => PeekErr e
  end.

(** error.rs:240-245 [Commit::is_peek]. *)
Definition is_peek {A} (c : commit A) : bool := match c with Peek _ => true | Commit _ => false end.

(** error.rs:248-252 [Commit::into_inner]. *)
Definition into_inner {A} (c : commit A) : A := match c with Peek x | Commit x => x end.

(** error.rs:255-257 [Commit::into_commit]. *)
Definition into_commit {A} (c : commit A) : commit A := Commit (into_inner c).

(** error.rs:260-262 [Commit::into_peek]. *)
Definition into_peek {A} (c : commit A) : commit A := Peek (into_inner c).

(** error.rs:265-273 [Commit::map]. *)
Definition commit_map {A B} (f : A -> B) (c : commit A) : commit B :=
  match c with Peek x => Peek (f x) | Commit x => Commit (f x) end.

(** error.rs:275-280 [Commit::merge]: [self.merge(current)]. *)
Definition commit_merge {A} (self current : commit A) : commit A :=
  match self with Peek _ => current | Commit _ => into_commit current end.

(** error.rs:354-360 [StdParseResult2<O, E> = Result<(O, Commit<()>), Commit<Tracked<E>>>]. *)
Definition std_result (A E : Type) : Type := ((A * commit unit) + commit (trk E))%type.

(** error.rs:324-336 [Commit::combine]. *)
Definition commit_combine {A B E} (c : commit A) (f : A -> std_result B E) : std_result B E :=
  match c with
  | Commit x =>
      match f x with
      | inl (v, Peek tt) => inl (v, Commit tt)
      | inr (Peek err) => inr (Commit err)
      | y => y
      end
  | Peek x => f x
  end.

(** error.rs:337-351 [Commit::combine_commit]. *)
Definition combine_commit {A B E} (c : commit A) (f : A -> PR B E) : PR B E :=
  match c with
  | Commit x =>
      match f x with
      | PeekOk v => CommitOk v
      | PeekErr err => CommitErr (terr err)
      | y => y
      end
  | Peek x => f x
  end.

(** error.rs:1045-1056 [impl Into<StdParseResult2<O, E>> for ParseResult<O, E>]. *)
Definition into_std {A E} (r : PR A E) : std_result A E :=
  match r with
  | CommitOk t => inl (t, Commit tt)
  | PeekOk t => inl (t, Peek tt)
  | CommitErr e => inr (Commit (to_trk e))
  | PeekErr e => inr (Peek e)
  end.

(** error.rs:1059-1072 [impl From<StdParseResult2<O, E>> for ParseResult<O, E>]. *)
Definition from_std {A E} (r : std_result A E) : PR A E :=
  match r with
  | inl (t, Commit tt) => CommitOk t
  | inl (t, Peek tt) => PeekOk t
  | inr (Commit e) => CommitErr (terr e)
  | inr (Peek e) => PeekErr e
  end.

(** error.rs:62-67 [enum Info<T, R, F>] / stream/easy.rs:98-103 [enum Info<T, R>].  A range is the list of its tokens.
    [IFormat] is displayed text ([Format]/[Owned]). *)
Inductive info (T : Type) : Type :=
| IToken (t : T)
| IRange (r : list T)
| IStatic (s : string)
| IFormat (s : string).
Arguments IToken {T} t.
Arguments IRange {T} r.
Arguments IStatic {T} s.
Arguments IFormat {T} s.

(** Configuration: everything the parsers are generic over.
    - token type, [PartialEq] on tokens, width of a token in a range ([1] for slices, UTF-8 length for [&str])
    - position type and its update by one token ([&[T]]/[&str]: pointer offset; [position::Stream]: the positioner)
    - the stream error and parse error types with the trait methods of [StreamError] (error.rs:366-450) and
      [ParseError] (error.rs:455-527) the parsers use
    - [fuel] bounds otherwise unbounded loops of the model; [dbg] tells if [debug_assert!] and overflow checks are on. *)
Record Cfg : Type := MkCfg {
  tok : Type;
  tok_eqb : tok -> tok -> bool;
  width : tok -> nat;
  Pos : Type;
  pos_eqb : Pos -> Pos -> bool;
  pos_step : Pos -> tok -> Pos;
  SErr : Type;
  se_unexpected : info tok -> SErr;
  se_expected : info tok -> SErr;
  se_message : info tok -> SErr;
  se_eoi : SErr;
  se_boundary : SErr;
  se_is_eoi : SErr -> bool;
  Err : Type;
  e_empty : Pos -> Err;
  e_from : Pos -> SErr -> Err;
  e_position : Err -> Pos;
  e_setpos : Err -> Pos -> Err;
  e_merge : Err -> Err -> Err;
  e_add : Err -> SErr -> Err;
  e_set_expected : trk Err -> SErr -> (trk Err -> trk Err) -> trk Err;
  e_clear_expected : Err -> Err;
  e_is_eoi : Err -> bool;
  fuel : nat;
  dbg : bool
}.

Section Streams.
Context {C : Cfg}.

(** A clone-resettable stream: remaining tokens, current position, [is_partial] (stream/mod.rs:116-158).
    Models [&[T]], [&str] (tokens are the characters), [PartialStream], [CompleteStream], [MaybePartialStream]
    (stream/mod.rs:756-1066) and [position::Stream]/[easy::Stream] around them.  Checkpoints are copies of the
    stream and [reset] cannot fail ([clone_resetable!], stream/mod.rs:31-51); so [reset] is just the use of the
    saved [input]. *)
Record input : Type := Inp { rest : list (tok C); ipos : Pos C; ipart : bool }.

(** Position after consuming a list of tokens. *)
Definition pos_after (p : Pos C) (l : list (tok C)) : Pos C := fold_left (@pos_step C) l p.

(** The stream after consuming the (prefix) list [l] leaving [r]. *)
Definition advance (i : input) (l r : list (tok C)) : input := Inp r (pos_after (ipos i) l) (ipart i).

(** [StreamOnce::uncons] of [&[T]] (stream/mod.rs:743-751) and [&str] (stream/mod.rs:488-497); the only error is
    end of input and leaves the stream unchanged. *)
Definition uncons (i : input) : option (tok C) * input :=
  match rest i with
  | [] => (None, i)
  | t :: r => (Some t, Inp r (pos_step C (ipos i) t) (ipart i))
  end.

(** stream/mod.rs:246-258 [wrap_stream_error]. *)
Definition wrap_stream_error {A} (i : input) (e : SErr C) : PR A (Err C) :=
  let err := e_from C (ipos i) e in
  if ipart i then CommitErr err else PeekErr (to_trk err).

(** stream/mod.rs:172-180 [stream::uncons]. *)
Definition s_uncons (i : input) : PR (tok C) (Err C) * input :=
  match uncons i with
  | (Some t, i') => (CommitOk t, i')
  | (None, i') => (wrap_stream_error i' (se_eoi C), i')
  end.

(** [Range::len] (stream/mod.rs:381-390, 604-616): bytes of a [str], elements of a slice. *)
Definition range_len (l : list (tok C)) : nat := fold_right (fun t n => width C t + n) 0 l.

(** [RangeStreamOnce::uncons_range] of slices (stream/mod.rs:676-685) and [&str] (stream/mod.rs:571-593): the first
    [size] units, or end of input if there are fewer, or (strings only) an error if [size] is inside a character.
    Simplification: works on the decoded characters; [StreamM.v] has the byte level code, [RefineProofs.v] relates the two. *)
Fixpoint split_width (n : nat) (l : list (tok C)) {struct l} : (list (tok C) * list (tok C)) + SErr C :=
  if n =? 0 then inl ([], l)
  else
    match l with
    | [] => inr (se_eoi C)
    | t :: r =>
        if width C t <=? n then
          match split_width (n - width C t) r with
          | inl (a, b) => inl (t :: a, b)
          | inr e => inr e
          end
        else inr (se_boundary C)
    end.

Definition uncons_range (n : nat) (i : input) : (list (tok C) + SErr C) * input :=
  match split_width n (rest i) with
  | inl (a, b) => (inl a, advance i a b)
  | inr e => (inr e, i)
  end.

(** Longest prefix satisfying a predicate. *)
Fixpoint span_while {A} (f : A -> bool) (l : list A) : list A * list A :=
  match l with
  | [] => ([], [])
  | t :: r => if f t then let (a, b) := span_while f r in (t :: a, b) else ([], l)
  end.

(** [RangeStreamOnce::uncons_while] of slices (stream/mod.rs:687-693) and [&str] (stream/mod.rs:545-551).  The
    unrolled loops behind it are in [StreamM.v], related to this by [RefineProofs.v]. *)
Definition m_uncons_while (f : tok C -> bool) (i : input) : list (tok C) * input :=
  let (a, b) := span_while f (rest i) in (a, advance i a b).

(** [RangeStreamOnce::distance] (stream/mod.rs:595-597, 714-716). *)
Definition distance (now before : input) : nat := range_len (rest before) - range_len (rest now).

(** stream/mod.rs:282-294 [input_at_eof] (for the streams modelled the only error of [uncons] is end of input). *)
Definition input_at_eof (i : input) : bool :=
  match uncons i with (None, _) => se_is_eoi C (se_eoi C) | (Some _, _) => false end.

(** stream/mod.rs:262-279 [stream::uncons_range]. *)
Definition s_uncons_range (i : input) (n : nat) : PR (list (tok C)) (Err C) * input :=
  match uncons_range n i with
  | (inr e, i') => (wrap_stream_error i' e, i')
  | (inl x, i') => (if n =? 0 then PeekOk x else CommitOk x, i')
  end.

(** stream/mod.rs:296-328 [stream::uncons_while]. *)
Definition s_uncons_while (i : input) (f : tok C -> bool) : PR (list (tok C)) (Err C) * input :=
  let (x, i') := m_uncons_while f i in
  if ipart i' && input_at_eof i' then (CommitErr (e_from C (ipos i') (se_eoi C)), i')
  else if range_len x =? 0 then (PeekOk x, i')
  else (CommitOk x, i').

(** [RangeStreamOnce::uncons_while1] of slices (stream/mod.rs:695-712) and [&str] (stream/mod.rs:553-569): [PeekErr]
    if the first token is missing or refused; the stream is then unchanged. *)
Definition m_uncons_while1 (f : tok C -> bool) (i : input) : option (list (tok C)) * input :=
  match rest i with
  | [] => (None, i)
  | t :: r => if f t then let (a, b) := span_while f r in (Some (t :: a), advance i (t :: a) b) else (None, i)
  end.

(** stream/mod.rs:331-380 [stream::uncons_while1]. *)
Definition s_uncons_while1 (i : input) (f : tok C -> bool) : PR (list (tok C)) (Err C) * input :=
  match m_uncons_while1 f i with
  | (Some x, i') =>
      if ipart i' && input_at_eof i' then (CommitErr (e_from C (ipos i') (se_eoi C)), i') else (CommitOk x, i')
  | (None, i') =>
      if ipart i' && input_at_eof i' then (CommitErr (e_from C (ipos i') (se_eoi C)), i')
      else (PeekErr (to_trk (e_empty C (ipos i'))), i')
  end.

(** error.rs:491-510 [ParseError::add_expected] / [add_unexpected] / [add_message] (default methods). *)
Definition e_add_expected (e : Err C) (x : info (tok C)) : Err C := e_add C e (se_expected C x).
Definition e_add_unexpected (e : Err C) (x : info (tok C)) : Err C := e_add C e (se_unexpected C x).
Definition e_add_message (e : Err C) (x : info (tok C)) : Err C := e_add C e (se_message C x).

(** Apply an operation to the error inside a [Tracked]. *)
Definition on_err (f : Err C -> Err C) (t : trk (Err C)) : trk (Err C) := Trk (f (terr t)) (toff t).
Definition set_off (t : trk (Err C)) (o : N) : trk (Err C) := Trk (terr t) o.

End Streams.
Arguments input : clear implicits.
