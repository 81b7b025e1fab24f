(** Calls of one parser object.  Nothing here models code. *)
From Coq Require Import List Bool.
Import ListNotations.
From Verif Require Import Base Parser Spec AgreeSpec.
Set Implicit Arguments.

Section SliceSpec.
Context {C : Cfg}.
(** The state after these calls (see [trace]), if all of them returned. *)
Fixpoint state_after {S A} (p : parser C S A) (st : S) (calls : list (bool * input C)) : option S :=
  match calls with
  | [] => Some st
  | (first, i) :: calls' => match p_run p first i st with Done (_, _, st') => state_after p st' calls' | _ => None end
  end.
End SliceSpec.
