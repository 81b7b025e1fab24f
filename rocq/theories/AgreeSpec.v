(** How the different methods through which one parser can be called have to agree: [parse_mode] (the behaviour [fresh] of
    the other specifications), [parse_lazy], [parse_committed_mode] (see [cmode_agrees]) and [parse_stream]. *)
From Coq Require Import String List Bool Arith NArith.
Import ListNotations.
From Verif Require Import Base Parser Spec.
Set Implicit Arguments.

Section AgreeSpec.
Context {C : Cfg}.

(** [parse_lazy] gives the same result; after a committed failure of a partial input it may put the input back. *)
Definition lazy_agrees {S A} (p : parser C S A) : Prop :=
  forall i,
  match fresh p i, p_lazy p i with
  | Done (r, i'), Done (r2, i2) =>
      r2 = r /\ (i2 = i' \/ (ipart i = true /\ i2 = i /\ is_ok r = false /\ committed r = true))
  | Panic, Panic | OOF, OOF => True
  | _, _ => False
  end.

(** [parse_stream] gives the same successes and committed errors, and fails backtrackably where [parse_mode] does. *)
Definition stream_agrees {S A} (p : parser C S A) : Prop :=
  forall i,
  match fresh p i, p_stream p i with
  | Done (r, i'), Done (r2, i2) =>
      shape r2 = shape r /\ (is_ok r = true -> r2 = r /\ i2 = i') /\ (committed r = true -> r2 = r)
  | Panic, Panic | OOF, OOF => True
  | _, _ => False
  end.

(** Whether a partial tail was seen: consumption in the input, as opposed to the reported commitment. *)
Definition consumed_some {T} (l : list T) : bool := match l with [] => false | _ => true end.

(** Positions tell how much was consumed. *)
Definition pos_distinct (C : Cfg) : Prop := forall (p : Pos C) l, pos_after p l = p -> l = [].

Notation E := (Err C).
(** The results of calling a parser again and again, each time with the mode and input given and the state the previous
    call left. *)
Fixpoint trace {S A} (p : parser C S A) (st : S) (calls : list (bool * input C)) : list (outcome (PR A E * input C)) :=
  match calls with
  | [] => []
  | (first, i) :: calls' =>
      match p_run p first i st with
      | Done (r, i', st') => Done (r, i') :: trace p st' calls'
      | Panic => [Panic]
      | OOF => [OOF]
      end
  end.

Definition needs_more {A} (x : outcome (PR A E * input C)) : Prop := exists e i, x = Done (CommitErr e, i).

End AgreeSpec.
