(** Token parsers (parser/token.rs) and the failing parsers of parser/error.rs:15-91. *)
From Coq Require Import String List Bool Arith NArith.
Import ListNotations.
From Verif Require Import Base Parser.
Set Implicit Arguments.

Section Token.
Context {C : Cfg}.
Notation T := (tok C).
Notation E := (Err C).

(** token.rs:17-28 [Any]. *)
Definition any : parser C unit T := mk_lazy (fun i => Done (s_uncons i)) no_err no_err 1.

(** token.rs:57-71 [satisfy_impl]. *)
Definition satisfy_impl {R} (f : T -> option R) (i : input C) : outcome (PR R E * input C) :=
  let position := ipos i in
  match s_uncons i with
  | (PeekOk c, i') | (CommitOk c, i') =>
      match f c with
      | Some c' => Done (CommitOk c', i')
      | None => Done (PeekErr (to_trk (e_empty C position)), i')
      end
  | (PeekErr err, i') => Done (PeekErr err, i')
  | (CommitErr err, i') => Done (CommitErr err, i')
  end.

(** token.rs:73-91 [Satisfy]. *)
Definition satisfy (f : T -> bool) : parser C unit T :=
  mk_lazy (satisfy_impl (fun c => if f c then Some c else None)) no_err no_err 1.

(** token.rs:121-132 [SatisfyMap]. *)
Definition satisfy_map {R} (f : T -> option R) : parser C unit R :=
  mk_lazy (satisfy_impl f) no_err no_err 1.

(** token.rs:179-194 [Token]. *)
Definition token (c : T) : parser C unit T :=
  mk_lazy (satisfy_impl (fun x => if tok_eqb C x c then Some x else None))
          (on_err (fun e => e_add_expected e (IToken c))) no_err 1.

(** token.rs:240-279 / 344-383: the loop of [Tokens] and [TokensCmp].  [on_mismatch] is what the two do with the
    error of a mismatch after the first token ([Tokens] adds [expected]). *)
Fixpoint tokens_loop {X} (cmp : X -> T -> bool) (on_mismatch : E -> E) (start : Pos C) (committed : bool)
    (l : list X) (i : input C) : PR unit E * input C :=
  match l with
  | [] => (if committed then CommitOk tt else PeekOk tt, i)
  | c :: l' =>
      match s_uncons i with
      | (CommitOk other, i') | (PeekOk other, i') =>
          if cmp c other then tokens_loop cmp on_mismatch start true l' i'
          else if committed then (CommitErr (on_mismatch (e_from C start (se_unexpected C (IToken other)))), i')
          else (PeekErr (to_trk (e_empty C start)), i')
      | (PeekErr err, i') =>
          let e := e_setpos C (terr err) start in
          if committed then (CommitErr e, i') else (PeekErr (Trk e (toff err)), i')
      | (CommitErr err, i') => (CommitErr (e_setpos C err start), i')
      end
  end.

(** token.rs:230-283 [Tokens].  Output is the [tokens] collection itself (a list here). *)
Definition tokens {X} (cmp : X -> T -> bool) (expected : info T) (l : list X) : parser C unit (list X) :=
  mk_lazy (fun i => let (r, i') := tokens_loop cmp (fun e => e_add_expected e expected) (ipos i) false l i in
                    Done (pr_map (fun _ => l) r, i'))
          (on_err (fun e => e_add_expected e expected)) no_err 1.

(** token.rs:334-384 [TokensCmp]. *)
Definition tokens_cmp {X} (l : list X) (cmp : X -> T -> bool) : parser C unit (list X) :=
  mk_lazy (fun i => let (r, i') := tokens_loop cmp (fun e => e) (ipos i) false l i in
                    Done (pr_map (fun _ => l) r, i')) no_err no_err 1.

(** token.rs:431-442 [Position]. *)
Definition position : parser C unit (Pos C) := mk_lazy (fun i => Done (PeekOk (ipos i), i)) no_err no_err 1.

(** token.rs:477-496 [OneOf]. *)
Definition one_of (l : list T) : parser C unit T :=
  mk_lazy (satisfy_impl (fun c => if existsb (fun t => tok_eqb C t c) l then Some c else None))
          (fun t => fold_left (fun t c => on_err (fun e => e_add_expected e (IToken c)) t) l t) no_err 1.

(** token.rs:530-543 [NoneOf]. *)
Definition none_of (l : list T) : parser C unit T :=
  mk_lazy (satisfy_impl (fun c => if forallb (fun t => negb (tok_eqb C t c)) l then Some c else None))
          no_err no_err 1.

(** token.rs:581-592 [Value]; [Produce] (616-627) with a pure closure is the same. *)
Definition value {A} (v : A) : parser C unit A := mk_lazy (fun i => Done (PeekOk v, i)) no_err no_err 1.
Definition produce {A} (f : unit -> A) : parser C unit A := mk_lazy (fun i => Done (PeekOk (f tt), i)) no_err no_err 1.

(** token.rs:652-674 [Eof]. *)
Definition eof : parser C unit unit :=
  mk_lazy (fun i => match uncons i with
                    | (None, i') => if se_is_eoi C (se_eoi C) then Done (PeekOk tt, i')
                                    else Done (PeekErr (to_trk (e_empty C (ipos i))), i)
                    | (Some _, _) => Done (PeekErr (to_trk (e_empty C (ipos i))), i)
                    end)
          (on_err (fun e => e_add_expected e (IStatic "end of input"))) no_err 1.

(** error.rs:15-60, 87-91 [unexpected_any] (and [unexpected], its instance at type unit). *)
Definition unexpected_any {A} (msg : info T) : parser C unit A :=
  mk_lazy (fun i => Done (PeekErr (to_trk (e_empty C (ipos i))), i))
          (on_err (fun e => e_add_unexpected e msg)) no_err 1.
Definition unexpected (msg : info T) : parser C unit unit := unexpected_any msg.

End Token.
