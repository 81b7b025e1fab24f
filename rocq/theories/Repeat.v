(** Repetition (parser/repeat.rs). *)
From Coq Require Import String List Bool Arith NArith DecimalString.
Import ListNotations.
From Verif Require Import Base Parser Token Combinator Sequence Choice.
Set Implicit Arguments.

Section Repeat.
Context {C : Cfg}.
Notation T := (tok C).
Notation E := (Err C).

(** repeat.rs:251-255 [enum State<E>] of [Iter]. *)
Inductive iter_state : Type := ISOk | ISPeek (e : E) | ISCommit (e : E).

(** repeat.rs:340-375 [Iterator::next for Iter] and [Extend::extend] running it until it ends.  Result: the elements,
    [iter.state], [iter.committed], the input and the child state. Unbounded in Rust: needs fuel. *)
Fixpoint iter_all {S A} (n : nat) (p : parser C S A) (first committed : bool) (i : input C) (st : S)
    : outcome (list A * iter_state * bool * input C * S) :=
  match n with
  | 0 => OOF
  | S n' =>
      obind (p_run p first i st) (fun x => match x with (r, i', st') =>
        match r with
        | PeekOk v =>
            omap (fun y => match y with (l, is, c, i2, s2) => (v :: l, is, c, i2, s2) end)
                 (iter_all n' p true committed i' st')
        | CommitOk v =>
            omap (fun y => match y with (l, is, c, i2, s2) => (v :: l, is, c, i2, s2) end)
                 (iter_all n' p true true i' st')
        | PeekErr e => Done ([], ISPeek (terr e), committed, i, st')
        | CommitErr e => Done ([], ISCommit e, committed, i', st')
        end end)
  end.

(** The same through [Iterator::take(k)] (repeat.rs:141-144): [next] is not called after [k] elements. *)
Fixpoint iter_take {S A} (k : nat) (p : parser C S A) (first committed : bool) (i : input C) (st : S)
    : outcome (list A * iter_state * bool * input C * S) :=
  match k with
  | 0 => Done ([], ISOk, committed, i, st)
  | S k' =>
      obind (p_run p first i st) (fun x => match x with (r, i', st') =>
        match r with
        | PeekOk v =>
            omap (fun y => match y with (l, is, c, i2, s2) => (v :: l, is, c, i2, s2) end)
                 (iter_take k' p true committed i' st')
        | CommitOk v =>
            omap (fun y => match y with (l, is, c, i2, s2) => (v :: l, is, c, i2, s2) end)
                 (iter_take k' p true true i' st')
        | PeekErr e => Done ([], ISPeek (terr e), committed, i, st')
        | CommitErr e => Done ([], ISCommit e, committed, i', st')
        end end)
  end.

(** The same through [scan((), |_, x| x)] (repeat.rs:918): stops at the first [None] element. *)
Fixpoint iter_scan {S A} (n : nat) (p : parser C S (option A)) (first committed : bool) (i : input C) (st : S)
    : outcome (list A * iter_state * bool * input C * S) :=
  match n with
  | 0 => OOF
  | S n' =>
      obind (p_run p first i st) (fun x => match x with (r, i', st') =>
        match r with
        | PeekOk None => Done ([], ISOk, committed, i', st')
        | CommitOk None => Done ([], ISOk, true, i', st')
        | PeekOk (Some v) =>
            omap (fun y => match y with (l, is, c, i2, s2) => (v :: l, is, c, i2, s2) end)
                 (iter_scan n' p true committed i' st')
        | CommitOk (Some v) =>
            omap (fun y => match y with (l, is, c, i2, s2) => (v :: l, is, c, i2, s2) end)
                 (iter_scan n' p true true i' st')
        | PeekErr e => Done ([], ISPeek (terr e), committed, i, st')
        | CommitErr e => Done ([], ISCommit e, committed, i', st')
        end end)
  end.

(** repeat.rs:287-302 [Iter::into_result_fast]: also gives what is left in [elements] ([mem::take]). *)
Definition into_result_fast {A} (elements : list A) (is : iter_state) (committed : bool) : PR (list A) E * list A :=
  match is with
  | ISOk | ISPeek _ => (if committed then CommitOk elements else PeekOk elements, [])
  | ISCommit e => (CommitErr e, elements)
  end.

(** repeat.rs:304-337 [Iter::fail]; [i] is the iterator's input. *)
Definition iter_fail {A} (is : iter_state) (committed : bool) (i : input C) (err : SErr C) : PR A E :=
  match is with
  | ISOk => let e := e_from C (ipos i) err in if committed then CommitErr e else PeekErr (to_trk e)
  | ISPeek e0 =>
      let e := e_merge C e0 (e_from C (ipos i) err) in if committed then CommitErr e else PeekErr (to_trk e)
  | ISCommit e => CommitErr (e_add C e err)
  end.

(** The text of [format_args!("{}", n)]. *)
Definition nat_str (n : nat) : string := NilEmpty.string_of_uint (Nat.to_uint n).

(** repeat.rs:119-166 [CountMinMax]; the [assert!(min <= max)] of the constructor (repeat.rs:190) is checked when
    running.  [max - count] underflows when stale state has [count > max]: a panic with overflow checks, otherwise
    it wraps to a number no input reaches, i.e. no limit.  The [suggest_size_hint] (repeat.rs:84-117) only concerns
    allocation.  *)
Definition count_min_max_run {S A} (mn mx : nat) (p : parser C S A) (first : bool) (i : input C)
    (st : nat * list A * S) : outcome (PR (list A) E * input C * (nat * list A * S)) :=
  match st with (count, elements, child) =>
    if mx <? mn then Panic
    else
      obind (if mx <? count then (if dbg C then Panic else iter_all (fuel C) p first false i child)
             else iter_take (mx - count) p first false i child)
        (fun x => match x with (l, is, committed, i', child') =>
          let count' := count + length l in
          let elements' := elements ++ l in
          if count' <? mn then
            Done (iter_fail is committed i'
                    (se_message C (IFormat ("expected " ++ nat_str (mn - count') ++ " more elements")%string)),
                  i', (count', elements', child'))
          else
            let (r, left) := into_result_fast elements' is committed in
            Done (r, i', (if is_ok r then 0 else count', left, child'))
        end)
  end.

Definition count_min_max {S A} (mn mx : nat) (p : parser C S A) : parser C (nat * list A * S) (list A) :=
  mk_mode (0, [], p_init p) (count_min_max_run mn mx p) (p_adderr p) no_err 1.

(** repeat.rs:22-46 [count]: a [parser!] without [PartialState]. *)
Definition count {S A} (n : nat) (p : parser C S A) : parser C unit (list A) :=
  parser_fn0 (count_min_max 0 n p).

(** repeat.rs:48-74 [skip_count].  ([Sink] collections are lists of units here and below.) *)
Definition skip_count {S A} (n : nat) (p : parser C S A) :=
  parser_fn (with_ (count n (map p (fun _ => tt))) (value tt)).

(** repeat.rs:200-231 [skip_count_min_max]. *)
Definition skip_count_min_max {S A} (mn mx : nat) (p : parser C S A) :=
  parser_fn (with_ (count_min_max mn mx (map p (fun _ => tt))) (value tt)).

(** repeat.rs:381-421 [Many]. *)
Definition many_run {S A} (p : parser C S A) (first : bool) (i : input C) (st : list A * S)
    : outcome (PR (list A) E * input C * (list A * S)) :=
  let (elements, child) := st in
  omap (fun x => match x with (l, is, committed, i', child') =>
          let (r, left) := into_result_fast (elements ++ l) is committed in (r, i', (left, child')) end)
       (iter_all (fuel C) p first false i child).

Definition many {S A} (p : parser C S A) : parser C (list A * S) (list A) :=
  mk_mode ([], p_init p) (many_run p) (p_adderr p) (p_adderr p) (p_count p).

(** repeat.rs:452-506 [Many1]. *)
Definition many1_iter {S A} (p : parser C S A) (first committed : bool) (i : input C) (elements : list A) (child : S)
    : outcome (PR (list A) E * input C * (bool * bool * list A * S)) :=
  omap (fun x => match x with (l, is, c, i', child') =>
          let (r, left) := into_result_fast (elements ++ l) is c in
          (r, i', (negb (is_ok r), committed, left, child')) end)
       (iter_all (fuel C) p first committed i child).

Definition many1_run {S A} (p : parser C S A) (first : bool) (i : input C) (st : bool * bool * list A * S)
    : outcome (PR (list A) E * input C * (bool * bool * list A * S)) :=
  match st with (parsed_one, committed_state, elements, child) =>
    if first || negb parsed_one then
      (* debug_assert!(!*parsed_one) *)
      if dbg C && parsed_one then Panic
      else
        obind (p_run p first i child) (fun x => match x with (r, i', child') =>
          match r with
          | PeekErr e => Done (PeekErr e, i', (parsed_one, committed_state, elements, child'))
          | CommitErr e => Done (CommitErr e, i', (parsed_one, committed_state, elements, child'))
          | PeekOk a => many1_iter p true false i' (elements ++ [a]) child'
          | CommitOk a => many1_iter p true true i' (elements ++ [a]) child'
          end end)
    else many1_iter p first committed_state i elements child
  end.

Definition many1 {S A} (p : parser C S A) : parser C (bool * bool * list A * S) (list A) :=
  mk_mode (false, false, [], p_init p) (many1_run p) (p_adderr p) (p_adderr p) (p_count p).

(** repeat.rs:558-586 [skip_many], 588-616 [skip_many1]. *)
Definition skip_many {S A} (p : parser C S A) := parser_fn (ignore (many (ignore p))).
Definition skip_many1 {S A} (p : parser C S A) := parser_fn (ignore (many1 (ignore p))).

(** repeat.rs:694-752 [SepBy1].  State of [With<S, P>]: [child_state.B.state] is the state of [P].  The state
    [parsed_one] is read but only ever written [None]. *)
Definition sep_state (S1 S2 A : Type) : Type := (((option unit * S2) * (option A * S1)) * N)%type.
Definition sep_get {S1 S2 A} (c : sep_state S1 S2 A) : S1 := snd (snd (fst c)).
Definition sep_set {S1 S2 A} (c : sep_state S1 S2 A) (s : S1) : sep_state S1 S2 A :=
  ((fst (fst c), (fst (snd (fst c)), s)), snd c).

Definition sep_by1_rest {S1 A S2 B} (p : parser C S1 A) (sep : parser C S2 B) (first : bool) (i : input C)
    (parsed_one : option (commit unit)) (rest : commit unit) (elements : list A) (child : sep_state S1 S2 A)
    : outcome (PR (list A) E * input C * (option (commit unit) * list A * sep_state S1 S2 A)) :=
  omap (fun x => match x with (l, is, c, i', child') =>
          let (r, left) := into_result_fast (elements ++ l) is c in
          (combine_commit rest (fun _ => r), i', (if is_ok r then None else parsed_one, left, child')) end)
       (iter_all (fuel C) (with_ (by_ref sep) (by_ref p)) first false i child).

Definition sep_by1_run {S1 A S2 B} (p : parser C S1 A) (sep : parser C S2 B) (first : bool) (i : input C)
    (st : option (commit unit) * list A * sep_state S1 S2 A)
    : outcome (PR (list A) E * input C * (option (commit unit) * list A * sep_state S1 S2 A)) :=
  match st with (parsed_one, elements, child) =>
    match parsed_one with
    | Some rest => sep_by1_rest p sep first i parsed_one rest elements child
    | None =>
        obind (p_run p first i (sep_get child)) (fun x => match x with (r, i', s1) =>
          let child' := sep_set child s1 in
          match r with
          | PeekErr e => Done (PeekErr e, i', (parsed_one, elements, child'))
          | CommitErr e => Done (CommitErr e, i', (parsed_one, elements, child'))
          | PeekOk a => sep_by1_rest p sep first i' parsed_one (Peek tt) (elements ++ [a]) child'
          | CommitOk a => sep_by1_rest p sep first i' parsed_one (Commit tt) (elements ++ [a]) child'
          end end)
    end
  end.

Definition sep_by1 {S1 A S2 B} (p : parser C S1 A) (sep : parser C S2 B)
    : parser C (option (commit unit) * list A * sep_state S1 S2 A) (list A) :=
  mk_mode (None, [], p_init (with_ sep p)) (sep_by1_run p sep) (p_adderr p) (p_adderr sep) (p_count p).

(** repeat.rs:624-663 [SepBy]: [sep_by1 .or(parser(|_| Ok(default)))]. *)
Definition sep_by {S1 A S2 B} (p : parser C S1 A) (sep : parser C S2 B) :=
  mk_mode None (choice_run (AC (sep_by1 p sep) (AL (value (@nil A))))) (p_adderr p) (p_adderr sep) (p_count p).

(** repeat.rs:876-937 [SepEndBy1]. *)
Definition sep_end_by1_rest {S1 A S2 B} (p : parser C S1 A) (sep : parser C S2 B) (first : bool) (i : input C)
    (rest : commit unit) (elements : list A) (child : sep_state S1 S2 (option A))
    : outcome (PR (list A) E * input C * (option (commit unit) * list A * sep_state S1 S2 (option A))) :=
  omap (fun x => match x with (l, is, c, i', child') =>
          let parsed_one := match c with true => Some (Commit tt) | false => Some rest end in
          let (r, left) := into_result_fast (elements ++ l) is c in
          (combine_commit rest (fun _ => r), i', (if is_ok r then None else parsed_one, left, child')) end)
       (iter_scan (fuel C) (with_ (by_ref sep) (optional (by_ref p))) first false i child).

Definition sep_end_by1_run {S1 A S2 B} (p : parser C S1 A) (sep : parser C S2 B) (first : bool) (i : input C)
    (st : option (commit unit) * list A * sep_state S1 S2 (option A))
    : outcome (PR (list A) E * input C * (option (commit unit) * list A * sep_state S1 S2 (option A))) :=
  match st with (parsed_one, elements, child) =>
    match parsed_one with
    | Some rest => sep_end_by1_rest p sep first i rest elements child
    | None =>
        obind (p_run p first i (sep_get child)) (fun x => match x with (r, i', s1) =>
          let child' := sep_set child s1 in
          match r with
          | PeekErr e => Done (PeekErr e, i', (parsed_one, elements, child'))
          | CommitErr e => Done (CommitErr e, i', (parsed_one, elements, child'))
          | PeekOk a => sep_end_by1_rest p sep first i' (Peek tt) (elements ++ [a]) child'
          | CommitOk a => sep_end_by1_rest p sep first i' (Commit tt) (elements ++ [a]) child'
          end end)
    end
  end.

Definition sep_end_by1 {S1 A S2 B} (p : parser C S1 A) (sep : parser C S2 B)
    : parser C (option (commit unit) * list A * sep_state S1 S2 (option A)) (list A) :=
  mk_mode (None, [], p_init (with_ sep (optional p))) (sep_end_by1_run p sep) (p_adderr p) no_err 1.

(** repeat.rs:802-839 [SepEndBy]. *)
Definition sep_end_by {S1 A S2 B} (p : parser C S1 A) (sep : parser C S2 B) :=
  mk_mode None (choice_run (AC (sep_end_by1 p sep) (AL (value (@nil A))))) (p_adderr p) no_err 1.

(** repeat.rs:981-1045 [Chainl1]: the loop. *)
Definition chainl_state (S1 S2 A : Type) : Type :=
  (option (A * commit unit) * (((option (A -> A -> A) * S2) * (option A * S1)) * N))%type.

Fixpoint chainl_loop {S1 A S2} (n : nat) (p : parser C S1 A) (op : parser C S2 (A -> A -> A)) (first : bool)
    (l : A) (committed : commit unit) (i : input C) (child : ((option (A -> A -> A) * S2) * (option A * S1)) * N)
    : outcome (PR A E * input C * chainl_state S1 S2 A) :=
  match n with
  | 0 => OOF
  | S n' =>
      obind (p_run (pair2 (by_ref op) (by_ref p)) first i child) (fun x => match x with (r, i', child') =>
        match into_std r with
        | inl ((f, v), rest) => chainl_loop n' p op true (f l v) (commit_merge committed rest) i' child'
        | inr (Commit err) => Done (CommitErr (terr err), i', (Some (l, committed), child'))
        | inr (Peek _) => Done (from_std (inl (l, committed)), i, (None, child'))
        end end)
  end.

(** The first operand is parsed with [parse_partial] whatever the mode. *)
Definition chainl1_run {S1 A S2} (p : parser C S1 A) (op : parser C S2 (A -> A -> A)) (first : bool) (i : input C)
    (st : chainl_state S1 S2 A) : outcome (PR A E * input C * chainl_state S1 S2 A) :=
  let (l_state, child) := st in
  match l_state with
  | Some (l, committed) => chainl_loop (fuel C) p op first l committed i child
  | None =>
      obind (p_run p false i (snd (snd (fst child)))) (fun x => match x with (r, i', s1) =>
        let child' := ((fst (fst child), (fst (snd (fst child)), s1)), snd child) in
        match r with
        | PeekErr e => Done (PeekErr e, i', (None, child'))
        | CommitErr e => Done (CommitErr e, i', (None, child'))
        | PeekOk a => chainl_loop (fuel C) p op true a (Peek tt) i' child'
        | CommitOk a => chainl_loop (fuel C) p op true a (Commit tt) i' child'
        end end)
  end.

Definition chainl1 {S1 A S2} (p : parser C S1 A) (op : parser C S2 (A -> A -> A)) : parser C (chainl_state S1 S2 A) A :=
  mk_mode (None, p_init (pair2 op p)) (chainl1_run p op) (p_adderr p) no_err 1.

(** repeat.rs:1071-1118 [Chainr1]: the recursion and the loop inside it. *)
Fixpoint chainr_lazy {S1 A S2} (n : nat) (p : parser C S1 A) (op : parser C S2 (A -> A -> A)) (i : input C)
    : outcome (PR A E * input C) :=
  match n with
  | 0 => OOF
  | S n' =>
      obind (p_lazy p i) (fun x => match x with (r, i') =>
        match r with
        | PeekErr e => Done (PeekErr e, i')
        | CommitErr e => Done (CommitErr e, i')
        | PeekOk a => chainr_loop n' p op a (Peek tt) i'
        | CommitOk a => chainr_loop n' p op a (Commit tt) i'
        end end)
  end
with chainr_loop {S1 A S2} (n : nat) (p : parser C S1 A) (op : parser C S2 (A -> A -> A)) (l : A)
    (committed : commit unit) (i : input C) : outcome (PR A E * input C) :=
  match n with
  | 0 => OOF
  | S n' =>
      obind (p_lazy op i) (fun x => match x with (r, i1) =>
        match into_std r with
        | inl (f, rest) =>
            obind (chainr_lazy n' p op i1) (fun y => match y with (r2, i2) =>
              match into_std r2 with
              | inl (v, rest2) =>
                  chainr_loop n' p op (f l v) (commit_merge (commit_merge committed rest) rest2) i2
              | inr (Commit err) => Done (CommitErr (terr err), i2)
              | inr (Peek _) => Done (from_std (inl (l, commit_merge committed rest)), i1)
              end end)
        | inr (Commit err) => Done (CommitErr (terr err), i1)
        | inr (Peek _) => Done (from_std (inl (l, committed)), i)
        end end)
  end.

Definition chainr1 {S1 A S2} (p : parser C S1 A) (op : parser C S2 (A -> A -> A)) : parser C unit A :=
  mk_lazy (chainr_lazy (fuel C) p op) (p_adderr p) no_err 1.

(** repeat.rs:1147-1205 [TakeUntil]: the loop, structural on the remaining tokens. *)
Fixpoint take_until_loop {S A} (p : parser C S A) (first : bool) (committed : commit unit) (part : bool)
    (output : list T) (l : list T) (pos : Pos C) (st : S) {struct l}
    : outcome (PR (list T) E * input C * (list T * S)) :=
  let i := Inp l pos part in
  obind (p_run p first i st) (fun x => match x with (r, i', st') =>
    match into_std r with
    | inl (_, rest) =>
        Done (match commit_merge committed rest with Commit _ => CommitOk output | Peek _ => PeekOk output end,
              i, ([], st'))
    | inr (Peek _) =>
        match l with
        | [] => match s_uncons i with
                | (PeekErr e, i2) => Done (PeekErr e, i2, (output, st'))
                | (CommitErr e, i2) => Done (CommitErr e, i2, (output, st'))
                | (CommitOk _, _) | (PeekOk _, _) => Panic
                end
        | t :: l' => take_until_loop p first (Commit tt) part (output ++ [t]) l' (pos_step C pos t) st'
        end
    | inr (Commit e) => Done (CommitErr (terr e), i, (output, st'))
    end end).

Definition take_until {S A} (p : parser C S A) : parser C (list T * S) (list T) :=
  mk_mode ([], p_init p)
    (fun first i st => take_until_loop p first (Peek tt) (ipart i) (fst st) (rest i) (ipos i) (snd st))
    no_err no_err 1.

(** repeat.rs:1229-1263 [skip_until]. *)
Definition skip_until {S A} (p : parser C S A) := parser_fn (with_ (take_until p) (value tt)).

(** repeat.rs:1271-1330 [RepeatUntil]; one unit of fuel per turn of the loop. *)
Fixpoint repeat_until_loop {S1 A S2 B} (n : nat) (p : parser C S1 A) (e : parser C S2 B) (first : bool)
    (committed : commit unit) (i : input C) (output : list A) (is_parse : bool) (ps : S1) (es : S2)
    : outcome (PR (list A) E * input C * (list A * bool * S1 * S2)) :=
  match n with
  | 0 => OOF
  | S n' =>
      if is_parse then
        obind (p_run p first i ps) (fun x => match x with (r, i', ps') =>
          match r with
          | PeekErr er => Done (PeekErr er, i', (output, true, ps', es))
          | CommitErr er => Done (CommitErr er, i', (output, true, ps', es))
          | PeekOk a => repeat_until_loop n' p e first (commit_merge committed (Peek tt)) i' (output ++ [a]) false ps' es
          | CommitOk a => repeat_until_loop n' p e first (commit_merge committed (Commit tt)) i' (output ++ [a]) false ps' es
          end end)
      else
        obind (p_run e first i es) (fun x => match x with (r, i', es') =>
          match into_std r with
          | inl (_, rest) =>
              Done (match commit_merge committed rest with Commit _ => CommitOk output | Peek _ => PeekOk output end,
                    i, ([], false, ps, es'))
          | inr (Peek _) => repeat_until_loop n' p e true committed i output true ps es'
          | inr (Commit er) => Done (CommitErr (terr er), i, (output, false, ps, es'))
          end end)
  end.

Definition repeat_until {S1 A S2 B} (p : parser C S1 A) (e : parser C S2 B)
    : parser C (list A * bool * S1 * S2) (list A) :=
  mk_mode ([], false, p_init p, p_init e)
    (fun first i st => match st with (output, is_parse, ps, es) =>
       repeat_until_loop (fuel C) p e first (Peek tt) i output is_parse ps es end)
    no_err no_err 1.

(** repeat.rs:1352-1377 [repeat_skip_until]. *)
Definition repeat_skip_until {S1 A S2 B} (p : parser C S1 A) (e : parser C S2 B) :=
  parser_fn (with_ (repeat_until p e) (value tt)).

(** repeat.rs:1385-1445 [Escaped].  The checkpoint is taken after the inner parser peek-failed, whatever it did to
    the input.  [EscapedState] carries no data. *)
Fixpoint escaped_loop {S1 A S2 B} (n : nat) (p : parser C S1 A) (escape : T) (q : parser C S2 B)
    (committed : commit unit) (i : input C) : outcome (PR unit E * input C) :=
  match n with
  | 0 => OOF
  | S n' =>
      obind (p_lazy p i) (fun x => match x with (r, i1) =>
        match r with
        | PeekOk _ => escaped_loop n' p escape q committed i1
        | CommitOk _ => escaped_loop n' p escape q (Commit tt) i1
        | CommitErr err => Done (CommitErr err, i1)
        | PeekErr _ =>
            let finish := Done (if is_peek committed then PeekOk tt else CommitOk tt, i1) in
            match s_uncons i1 with
            | (CommitOk c, i2) | (PeekOk c, i2) =>
                if tok_eqb C c escape then
                  obind (p_cmode q true i2 (p_init q)) (fun y => match y with (r2, i3, _) =>
                    match r2 with
                    | PeekOk _ => escaped_loop n' p escape q committed i3
                    | CommitOk _ => escaped_loop n' p escape q (Commit tt) i3
                    | CommitErr err => Done (CommitErr err, i3)
                    | PeekErr err => Done (CommitErr (terr err), i3)
                    end end)
                else finish
            | (CommitErr err, i2) => Done (CommitErr err, i2)
            | (PeekErr _, _) => finish
            end
        end end)
  end.

Definition escaped {S1 A S2 B} (p : parser C S1 A) (escape : T) (q : parser C S2 B) : parser C unit unit :=
  mk_lazy (escaped_loop (fuel C) p escape q (Peek tt))
    (fun t => on_err (fun e => e_add_expected e (IToken escape)) (p_adderr p t)) no_err 1.

(** repeat.rs:1491-1585 [Iterate].  The iterator is the list of items still to come; the closure building the parser
    does not look at the input (simplification), all its parsers share the default state [s0].
    Result of [iterate_items]: the outputs, then [None] or the item that failed with the result to return. *)
Fixpoint iterate_items {J S A} (f : J -> parser C S A) (first committed : bool) (items : list J) (i : input C) (st : S)
    : outcome (list A * option (J * list J * PR (list A) E) * bool * input C * S) :=
  match items with
  | [] => Done ([], None, committed, i, st)
  | x :: items' =>
      obind (p_run (f x) first i st) (fun y => match y with (r, i', st') =>
        match r with
        | PeekOk v =>
            omap (fun z => match z with (l, o, c, i2, s2) => (v :: l, o, c, i2, s2) end)
                 (iterate_items f true committed items' i' st')
        | CommitOk v =>
            omap (fun z => match z with (l, o, c, i2, s2) => (v :: l, o, c, i2, s2) end)
                 (iterate_items f true true items' i' st')
        | PeekErr err =>
            Done ([], Some (x, items', if committed then CommitErr (terr err) else PeekErr err), committed, i, st')
        | CommitErr err => Done ([], Some (x, items', CommitErr err), committed, i', st')
        end end)
  end.

Definition iterate_run {J S A} (items : list J) (f : J -> parser C S A) (first : bool) (i : input C)
    (st : option (list J * option J) * bool * list A * S)
    : outcome (PR (list A) E * input C * (option (list J * option J) * bool * list A * S)) :=
  match st with (opt_iter, committed, buf, next) =>
    let '(iter, next_item) := match opt_iter with
                              | Some it => if first then (items, None) else it
                              | None => (items, None)
                              end in
    let todo := match next_item with Some x => x :: iter | None => iter end in
    omap (fun z => match z with (l, o, c, i', next') =>
      match o with
      | Some (x, items', r) => (r, i', (Some (items', Some x), c, buf ++ l, next'))
      | None => (match c with true => CommitOk (buf ++ l) | false => PeekOk (buf ++ l) end, i', (None, false, [], next'))
      end end)
    (iterate_items f first committed todo i next)
  end.

Definition iterate {J S A} (s0 : S) (items : list J) (f : J -> parser C S A)
    : parser C (option (list J * option J) * bool * list A * S) (list A) :=
  mk_mode (None, false, [], s0) (iterate_run items f) no_err no_err 1.

End Repeat.
