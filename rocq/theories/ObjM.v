(** Objects with a state of their own: [Factory] with a closure which looks at the input or counts its calls
    (parser/combinator.rs:1121-1201), and [Iter] as its users drive it (parser/repeat.rs:233-375, parser/mod.rs:760-831).
    Everywhere else the model takes parsers as values (see [Parser.parser]). *)
From Coq Require Import String List Bool Arith NArith.
Import ListNotations.
From Verif Require Import Base Parser Token Combinator Sequence Choice Repeat RangeP ByteP.
Set Implicit Arguments.

Section ObjM.
Context {C : Cfg}.
Notation T := (tok C).
Notation E := (Err C).

(** parser/mod.rs:84-333 [trait Parser<Input>] again, with the [&mut self] of the methods explicit: [O] is the value of
    [self].  Only what [Iter] and the entry points call. *)
Record machine (O S A : Type) : Type := MkMachine {
  m_init : S;
  (** parse_mode / parse_mode_impl / parse_first / parse_partial *)
  m_run : bool -> input C -> O -> S -> outcome (PR A E * input C * O * S);
  (** add_error *)
  m_adderr : O -> trk E -> trk E
}.

(** A parser which does not use [&mut self]. *)
Definition parser_machine {S A} (p : parser C S A) : machine unit S A :=
  MkMachine (p_init p)
    (fun first i o st => omap (fun x => match x with (r, i', st') => (r, i', o, st') end) (p_run p first i st))
    (fun _ => p_adderr p).

(** parser/mod.rs:141-163 default [parse_stream] and 105-113 [parse]: [add_error] is that of the object after the run. *)
Definition m_parse {O S A} (m : machine O S A) (o : O) (i : input C) : outcome ((A + E) * input C * O) :=
  omap (fun x => match x with (r, i', o', _) =>
          let (r2, i2) := augment (m_adderr m o') i (r, i') in (entry_result r2, i2, o') end)
       (m_run m true i o (m_init m)).

(** parser/mod.rs:210-233 [parse_stream_partial] and 120-129 [parse_with_state]. *)
Definition m_with_state {O S A} (m : machine O S A) (o : O) (i : input C) (st : S) : outcome ((A + E) * input C * O * S) :=
  omap (fun x => match x with (r, i', o', s') =>
          let (r2, i2) := augment (m_adderr m o') i (r, i') in (entry_result r2, i2, o', s') end)
       (m_run m false i o st).

(** * [Factory] *)
Section Factory.
Context {F S A : Type}.
(** The closure [FnMut(&mut Input) -> R]: [F] is what it captured; it may read from the input.  It is taken not to panic. *)
Variable f : F -> input C -> parser C S A * input C * F.
(** [R::PartialState::default()]. *)
Variable s0 : S.

(** combinator.rs:1122 [struct Factory<P, R>(P, Option<R>)]. *)
Definition fobj : Type := (F * option (parser C S A))%type.

(** combinator.rs:1124-1135 [Factory::parser]. *)
Definition factory_parser (o : fobj) (i : input C) : parser C S A * input C * fobj :=
  match snd o with
  | Some r => (r, i, o)
  | None => match f (fst o) i with (r, i1, s) => (r, i1, (s, Some r)) end
  end.

(** combinator.rs:1148-1163 [Factory::parse_mode_impl]. *)
Definition factory_run (first : bool) (i : input C) (o : fobj) (st : S) : outcome (PR A E * input C * fobj * S) :=
  match factory_parser (if first then (fst o, None) else o) i with
  | (r, i1, o1) => omap (fun x => match x with (v, i', st') => (v, i', o1, st') end) (p_run r first i1 st)
  end.

(** combinator.rs:1165-1169 [Factory::add_error] ([add_committed_expected_error], 1171-1175, is the same with the other
    method of the cached parser and not modelled). *)
Definition factory_adderr (o : fobj) (t : trk E) : trk E :=
  match snd o with Some r => p_adderr r t | None => t end.

Definition factory_obj : machine fobj S A := MkMachine s0 factory_run factory_adderr.

(** combinator.rs:1194-1201 [factory]: nothing cached. *)
Definition factory_new (s : F) : fobj := (s, None).
End Factory.

(** * [Iter] *)
(** repeat.rs:233-244 [struct Iter]; [it_obj] is the parser, [it_first] the mode. *)
Record iter (O S : Type) : Type := MkIter {
  it_in : input C;
  it_obj : O;
  it_committed : bool;
  it_state : iter_state (C:=C);
  it_st : S;
  it_first : bool
}.

(** repeat.rs:258-267 [Iter::new]; parser/mod.rs:790-795 [iter] (first mode, default state) and 820-831 [partial_iter]. *)
Definition iter_new {O S} (o : O) (first : bool) (i : input C) (st : S) : iter O S := MkIter i o false ISOk st first.

(** repeat.rs:347-375 [next].  [reset] does not fail on the streams of the model. *)
Definition iter_next {O S A} (m : machine O S A) (it : iter O S) : outcome (option A * iter O S) :=
  omap (fun x => match x with (r, i', o', st') =>
    match r with
    | PeekOk v => (Some v, MkIter i' o' (it_committed it) (it_state it) st' true)
    | CommitOk v => (Some v, MkIter i' o' true (it_state it) st' true)
    | PeekErr e => (None, MkIter (it_in it) o' (it_committed it) (ISPeek (terr e)) st' (it_first it))
    | CommitErr e => (None, MkIter i' o' (it_committed it) (ISCommit e) st' (it_first it))
    end end) (m_run m (it_first it) (it_in it) (it_obj it) (it_st it)).

(** repeat.rs:270-285 [into_result] (before its conversion to [StdParseResult]). *)
Definition into_result {O S V} (it : iter O S) (v : V) : PR V E :=
  match it_state it with
  | ISOk | ISPeek _ => if it_committed it then CommitOk v else PeekOk v
  | ISCommit e => CommitErr e
  end.

(** [buffer.extend(&mut iter)] (and every other loop [for x in &mut iter]) of the standard library: [next] until it
    returns [None].  Unbounded in Rust: needs fuel. *)
Fixpoint iter_extend {O S A} (n : nat) (m : machine O S A) (buf : list A) (it : iter O S) : outcome (list A * iter O S) :=
  match n with
  | 0 => OOF
  | S n' => obind (iter_next m it) (fun x => match x with
      | (Some v, it') => iter_extend n' m (buf ++ [v]) it'
      | (None, it') => Done (buf, it')
      end)
  end.

(** repeat.rs:381-421 [Many], over an object. *)
Definition many_obj {O S A} (m : machine O S A) : machine O (list A * S) (list A) :=
  MkMachine ([], m_init m)
    (fun first i o st => let (elements, child) := st in
       omap (fun x => match x with (l, it) =>
               let (r, left) := into_result_fast l (it_state it) (it_committed it) in
               (r, it_in it, it_obj it, (left, it_st it)) end)
            (iter_extend (fuel C) m elements (iter_new o first i child)))
    (m_adderr m).

(** parser/mod.rs:774-788 the parser [number] of the documentation of [iter]; [to_i32] is [str::parse::<i32>] ([None]: it
    refuses, and [unwrap] panics).  The buffer, cleared first, is not shared. *)
Definition doc_number {S V} (digit : parser C S T) (to_i32 : list T -> option V) : parser C unit V :=
  fn_parser (fun i =>
    obind (iter_extend (fuel C) (parser_machine digit) [] (iter_new tt true i (p_init digit))) (fun x =>
      match x with (buf, it) =>
        match to_i32 buf with
        | Some v => Done (into_std (into_result it v), it_in it)
        | None => Panic
        end end)).
End ObjM.
