(** What it is for a branch of [dispatch!] to be the selected one. *)
From Coq Require Import List.
From Verif Require Import Base Parser Choice.
Set Implicit Arguments.

Section DispSpec.
Context {C : Cfg}.
(** The branch number [k] was selected, it is the parser [p], and its states are stored through [inj]. *)
Inductive chosen {A} : nat -> forall SS S, disp (C:=C) A SS -> parser C S A -> (S -> SS) -> Prop :=
| ch_here : forall S SS (p : parser C S A), chosen 0 (@DC C A S SS p) p inl
| ch_later : forall k S1 SS S (d : disp (C:=C) A SS) (p : parser C S A) inj,
    chosen k d p inj -> chosen (Datatypes.S k) (@DN C A S1 SS d) p (fun s => inr (inj s)).

(** The stored state is that of another branch, or there is none. *)
Inductive foreign {A} : forall SS, disp (C:=C) A SS -> option SS -> Prop :=
| fo_none : forall SS (d : disp (C:=C) A SS), foreign d None
| fo_after : forall S SS (p : parser C S A) (s : SS), foreign (@DC C A S SS p) (Some (inr s))
| fo_before : forall S SS (d : disp (C:=C) A SS) (s : S), foreign (@DN C A S SS d) (Some (inl s))
| fo_within : forall S SS (d : disp (C:=C) A SS) (s : SS), foreign d (Some s) -> foreign (@DN C A S SS d) (Some (inr s)).
End DispSpec.
