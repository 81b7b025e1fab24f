(** Specification of sequencing. *)
From Coq Require Import String List Bool Arith NArith.
Import ListNotations.
From Verif Require Import Base Parser Sequence Spec.
Set Implicit Arguments.

Section SeqSpec.
Context {C : Cfg}.
Notation E := (Err C).

(** The parts succeed one after the other, each on the input left by the one before; [c] is set iff one of them
    committed, [b] is the tuple of their values. *)
Fixpoint seq_ok {SS B} (t : tup (C:=C) SS B) (i : input C) (c : bool) (b : B) (i' : input C) : Prop :=
  match t in tup SS B return B -> Prop with
  | T1 p => fun b => fresh p i = Done (okr c b, i')
  | TC p r => fun b =>
      exists c1 i1 c2, fresh p i = Done (okr c1 (fst b), i1) /\ seq_ok r i1 c2 (snd b) i' /\ c = c1 || c2
  end b.

(** Part [k] is the first to fail, with [f] ([inl]: committed, [inr]: backtrackable); it was started on [ib] and left
    [ia]; [c] is set iff an earlier part committed.  Later parts are not mentioned. *)
Fixpoint seq_stop {SS B} (t : tup (C:=C) SS B) (i : input C) (k : nat) (c : bool) (f : E + trk E) (ib ia : input C) : Prop :=
  let here {S A} (p : parser C S A) :=
    k = 0 /\ c = false /\ ib = i /\
    fresh p i = Done (match f with inl e => CommitErr e | inr e => PeekErr e end, ia) in
  match t with
  | T1 p => here p
  | TC p r =>
      here p \/
      exists c1 a i1 k' c2, fresh p i = Done (okr c1 a, i1) /\ seq_stop r i1 k' c2 f ib ia /\ k = S k' /\ c = c1 || c2
  end.

(** Every part of a tuple satisfies a predicate on parsers. *)
Fixpoint tup_all (P : forall S A, parser C S A -> Prop) {SS B} (t : tup (C:=C) SS B) : Prop :=
  match t with
  | T1 p => P _ _ p
  | TC p r => P _ _ p /\ tup_all P r
  end.
End SeqSpec.
