(** Specification of ordered choice, over a list of behaviours. *)
From Coq Require Import String List Bool Arith NArith.
Import ListNotations.
From Verif Require Import Base Parser Choice Spec.
Set Implicit Arguments.

Section ChoiceSpec.
Context {C : Cfg}.
Notation E := (Err C).
Notation beh := (@beh C).

Definition backtracks {A} (r : PR A E) : bool := match r with PeekErr _ => true | _ => false end.

(** The first behaviour that does not fail in a backtrackable way, all started on [i], decides. *)
Inductive chosen {A} : list (beh A) -> input C -> PR A E -> input C -> Prop :=
| chosen_here : forall b bs i r i', b i = Done (r, i') -> backtracks r = false -> chosen (b :: bs) i r i'
| chosen_later : forall b bs i r0 i0 r i', b i = Done (r0, i0) -> backtracks r0 = true ->
    chosen bs i r i' -> chosen (b :: bs) i r i'.

(** Every behaviour fails in a backtrackable way on [i]. *)
Definition none_matches {A} (bs : list (beh A)) (i : input C) : Prop := Forall (fun b => fails b i false) bs.

(** [b] is the ordered choice between [bs]. *)
Definition ordered_choice {A} (bs : list (beh A)) (b : beh A) : Prop :=
  (forall i r i', chosen bs i r i' -> b i = Done (r, i')) /\
  (forall i, none_matches bs i -> fails b i false) /\
  (forall i r i', b i = Done (r, i') -> chosen bs i r i' \/ none_matches bs i).

(** The behaviours of a tuple of alternatives, each used from its default state. *)
Fixpoint alts_beh {A SS} (t : alts (C:=C) A SS) : list (beh A) :=
  match t with
  | AL p => [fresh p]
  | AC p r => fresh p :: alts_beh r
  end.
End ChoiceSpec.
