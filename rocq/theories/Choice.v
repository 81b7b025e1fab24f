(** Choice: tuples and slices of alternatives, [or], [optional] (parser/choice.rs). *)
From Coq Require Import String List Bool Arith NArith.
Import ListNotations.
From Verif Require Import Base Parser Sequence.
Set Implicit Arguments.

Section Choice.
Context {C : Cfg}.
Notation T := (tok C).
Notation E := (Err C).

(** A non-empty tuple of alternatives with the same output (choice.rs:207-298 [tuple_choice_parser!]).  The state
    [SS] is the sum of the alternatives' states: the enum [$partial_state] is [option SS], [None] being [Peek]. *)
Inductive alts (A : Type) : Type -> Type :=
| AL (S : Type) (p : parser C S A) : alts A S
| AC (S SS : Type) (p : parser C S A) (r : alts A SS) : alts A (S + SS).

Fixpoint alts_adderr {A SS} (t : alts A SS) : list (trk E -> trk E) :=
  match t with
  | AL p => [p_adderr p]
  | AC p r => p_adderr p :: alts_adderr r
  end.

(** What trying the alternatives gave: an end result with the state to store (if any), or all the peek errors. *)
Inductive tried (A SS : Type) : Type :=
| TEnd (r : PR A E) (i : input C) (st : option SS)
| TFail (errs : list (trk E)).
Arguments TEnd {A SS}.
Arguments TFail {A SS}.

Definition try_one {S A} (p : parser C S A) (i : input C) : outcome (tried A S) :=
  omap (fun x => match x with (r, i', s') =>
    match r with
    | CommitOk _ | PeekOk _ => TEnd r i' None
    | CommitErr _ => TEnd r i' (if pos_eqb C (ipos i') (ipos i) then None else Some s')
    | PeekErr e => TFail [e]
    end end) (p_run p true i (p_init p)).

(** choice.rs:139-205 [do_choice!]: alternatives in order, each with a fresh state in [FirstMode], the input reset
    after a [PeekErr]. *)
Fixpoint choice_try {A SS} (t : alts A SS) (i : input C) : outcome (tried A SS) :=
  match t with
  | AL p => try_one p i
  | AC p r =>
      obind (try_one p i) (fun x => match x with
        | TEnd r0 i' st => Done (TEnd r0 i' (option_map inl st))
        | TFail errs =>
            omap (fun y => match y with
                  | TEnd r0 i' st => TEnd r0 i' (option_map inr st)
                  | TFail errs' => TFail (errs ++ errs')
                  end) (choice_try r i)
        end)
  end.

(** choice.rs:130-137 [merge!]. *)
Fixpoint merge_errs (e : trk E) (l : list (trk E)) : E :=
  match l with
  | [] => terr e
  | e' :: l' => e_merge C (terr e) (merge_errs e' l')
  end.

(** choice.rs:148-166: the error when every alternative peek-failed. *)
Fixpoint choice_extract (errs : list (trk E)) (fns : list (trk E -> trk E)) (error : trk E) : trk E :=
  match errs, fns with
  | e :: errs', f :: fns' =>
      choice_extract errs' fns'
        (if (toff e =? 1)%N then error else set_off (f (set_off error (toff e))) 0%N)
  | _, _ => error
  end.

Definition choice_error (errs : list (trk E)) (fns : list (trk E -> trk E)) : option (trk E) :=
  match errs with
  | [] => None
  | e :: l => Some (choice_extract errs fns (to_trk (merge_errs e l)))
  end.

(** choice.rs:263-279: resuming the stored alternative. *)
Fixpoint choice_resume {A SS} (t : alts A SS) (first : bool) (i : input C) (st : SS)
    : outcome (PR A E * input C * SS) :=
  match t in alts _ SS return SS -> outcome (PR A E * input C * SS) with
  | AL p => fun st => p_run p first i st
  | AC p r => fun st =>
      match st with
      | inl s => omap (fun x => match x with (r0, i', s') => (r0, i', inl s') end) (p_run p first i s)
      | inr s => omap (fun x => match x with (r0, i', s') => (r0, i', inr s') end) (choice_resume r first i s)
      end
  end st.

(** choice.rs:245-282 [parse_mode_choice] of a tuple. *)
Definition choice_run {A SS} (t : alts A SS) (first : bool) (i : input C) (st : option SS)
    : outcome (PR A E * input C * option SS) :=
  let try_all :=
    obind (choice_try t i) (fun x => match x with
      | TEnd r i' s' => Done (r, i', match s' with Some s => Some s | None => st end)
      | TFail errs => match choice_error errs (alts_adderr t) with
                      | Some e => Done (PeekErr e, i, st)
                      | None => Panic
                      end
      end) in
  if first then try_all
  else match st with
       | None => try_all
       | Some s => omap (fun x => match x with (r, i', s') =>
                          (r, i', if is_ok r then None else Some s') end) (choice_resume t first i s)
       end.

(** choice.rs:284-299 [add_error_choice]. *)
Definition add_error_choice (fns : list (trk E -> trk E)) (error : trk E) : trk E :=
  if (toff error =? 0)%N then error
  else fold_left (fun e f => f (set_off e 1%N)) fns error.

(** choice.rs:378-382 [Choice::add_error]. *)
Definition choice_adderr (fns : list (trk E -> trk E)) (error : trk E) : trk E :=
  set_off (add_error_choice fns error) (sat_sub (toff error) 1).

(** choice.rs:356-383 [Choice] of a tuple. *)
Definition choice {A SS} (t : alts A SS) : parser C (option SS) A :=
  mk_mode None (choice_run t) (choice_adderr (alts_adderr t)) no_err 1.

(** choice.rs:563-593 [Or]. *)
Definition or_ {S1 S2 A} (p : parser C S1 A) (q : parser C S2 A) : parser C (option (S1 + S2)) A :=
  let t := AC p (AL q) in
  mk_mode None (choice_run t)
    (fun e => if (toff e =? 0)%N then e else choice_adderr (alts_adderr t) e) no_err 1.

(** choice.rs:385-470 [slice_parse_mode].  [all] are the [add_error] functions of the whole slice. *)
Definition seg {X} (lo hi : nat) (l : list X) : list X := firstn (hi - lo) (skipn lo l).

Definition slice_flush (all : list (trk E -> trk E)) (lo hi : nat) (prev : trk E) : trk E :=
  let offset := toff prev in
  let prev := fold_left (fun e f => f (set_off e 1%N)) (seg lo hi all) prev in
  nth hi all (fun e => e) (set_off prev offset).

Definition slice_merge (all : list (trk E -> trk E)) (i last : nat) (prev : option (trk E)) (err : trk E)
    : option (trk E) * nat :=
  match prev with
  | None => (Some err, last)
  | Some prev =>
      if (toff prev =? 1)%N then (Some (Trk (e_merge C (terr prev) (terr err)) (toff err)), last)
      else (Some (Trk (e_merge C (terr (slice_flush all last (i - 1) prev)) (terr err)) (toff err)), i)
  end.

Fixpoint slice_loop {S A} (all : list (trk E -> trk E)) (before : input C) (first : bool) (i last : nat)
    (prev : option (trk E)) (l : list (parser C S A)) (idx : nat) (st : S) (cur : input C)
    : outcome (PR A E * input C * (nat * S)) :=
  match l with
  | [] =>
      let e := match prev with
               | None => to_trk (e_from C (ipos cur) (se_message C (IStatic "parser choice is empty")))
               | Some prev =>
                   if (toff prev =? 1)%N then prev
                   else set_off (slice_flush all last (length all - 1) prev) 0%N
               end in
      Done (PeekErr e, cur, (idx, st))
  | p :: l' =>
      obind (p_run p first before st) (fun x => match x with (r, i', st') =>
        match r with
        | CommitErr e => Done (CommitErr e, i', (i + 1, st'))
        | CommitOk _ | PeekOk _ => Done (r, i', (0, st'))
        | PeekErr err =>
            let '(prev', last') := slice_merge all i last prev err in
            slice_loop all before first (i + 1) last' prev' l' idx st' i'
        end end)
  end.

Definition slice_run {S A} (ps : list (parser C S A)) (first : bool) (i : input C) (st : nat * S)
    : outcome (PR A E * input C * (nat * S)) :=
  let (idx, child) := st in
  if negb first && negb (idx =? 0) then
    match nth_error ps (idx - 1) with
    | Some p => omap (fun x => match x with (r, i', child') => (r, i', (if is_ok r then 0 else idx, child')) end)
                     (p_run p false i child)
    | None => Panic
    end
  else slice_loop (List.map (@p_adderr C S A) ps) i first 0 0 None ps idx child i.

(** choice.rs:305-333, 356-383, 472-524 [Choice] of a slice or array; [s0] is the default child state.  (In Rust the
    final [input.position()] for an empty slice is that of the unchanged input.) *)
Definition choice_slice {S A} (s0 : S) (ps : list (parser C S A)) : parser C (nat * S) A :=
  mk_mode (0, s0) (slice_run ps) (choice_adderr (List.map (@p_adderr C S A) ps)) no_err 1.

(** choice.rs:636-672 [Optional]. [add_committed_expected_error] is not forwarded. *)
Definition optional {S A} (p : parser C S A) : parser C S (option A) :=
  mk_mode (p_init p)
    (fun first i st => omap (fun x => match x with
        | (PeekOk a, i', s') => (PeekOk (Some a), i', s')
        | (CommitOk a, i', s') => (CommitOk (Some a), i', s')
        | (CommitErr e, i', s') => (CommitErr e, i', s')
        | (PeekErr _, _, s') => (PeekOk None, i, s')
        end) (p_run p first i st))
    (p_adderr p) no_err (p_count p).

(** The enum of parsers written by [dispatch!] (choice.rs:716-788 [dispatch_parser_impl!]): one variant per branch, of which
    the value holds the one that the [match] selected, [DC] being the first branch and [DN] any later one.  The type of the
    states is the sum of those of all the branches, whichever was selected. *)
Inductive disp (A : Type) : Type -> Type :=
| DC (S SS : Type) (p : parser C S A) : disp A (S + SS)
| DN (S SS : Type) (d : disp A SS) : disp A (S + SS).

(** choice.rs:744-773: a state which is not one of the selected branch is replaced by that branch's default. *)
Fixpoint disp_run {A SS} (d : disp A SS) (first : bool) (i : input C) {struct d} : option SS -> outcome (PR A E * input C * option SS) :=
  match d in disp _ SS return option SS -> outcome (PR A E * input C * option SS) with
  | DC _ p => fun st =>
      let s := match st with Some (inl s) => s | _ => p_init p end in
      omap (fun y => match y with (r, i', s') => (r, i', Some (inl s')) end) (p_run p first i s)
  | DN _ d => fun st =>
      let s := match st with Some (inr s) => Some s | _ => None end in
      omap (fun y => match y with (r, i', s') => (r, i', option_map inr s') end) (disp_run d first i s)
  end.

(** choice.rs:775-781 [add_error]. *)
Fixpoint disp_adderr {A SS} (d : disp A SS) : trk E -> trk E :=
  match d with DC _ p => p_adderr p | DN _ d => disp_adderr d end.

(** choice.rs:735-782: [PartialState], [parse_mode], [add_error]; the other methods are those of the trait.  The [match] of
    [dispatch_inner!] (choice.rs:787-806) is the Gallina [match] that builds the [disp]. *)
Definition dispatch {A SS} (d : disp A SS) : parser C (option SS) A :=
  mk_mode None (disp_run d) (disp_adderr d) no_err 1.
End Choice.
Arguments TEnd {C A SS}.
Arguments TFail {C A SS}.
Arguments DC {C A S SS}.
Arguments DN {C A S SS}.
