(** What a resettable stream over a one-pass source should do: keep everything read in a log.  Nothing here models code. *)
From Coq Require Import String List Bool Arith NArith.
Import ListNotations.
From Verif Require Import Base BufferedM.
Set Implicit Arguments.

Section BSpec.
Context {Src T P E : Type}.
Variable src_pos : Src -> P.
Variable src_uncons : Src -> (T + E) * Src.
Variable keep : nat.   (* how far back a reset is allowed *)

(** Everything read so far with the position in front of each token, the source, the current offset into the log. *)
Record rstream : Type := MkR { rlog : list (T * P); rsrc : Src; roff : nat }.

(** The log is what repeatedly reading the source yields (failed reads leave no entry). *)
Inductive reads : Src -> list (T * P) -> Src -> Prop :=
| reads_nil : forall s, reads s [] s
| reads_fail : forall s l s1 e s2, reads s l s1 -> src_uncons s1 = (inr e, s2) -> reads s l s2
| reads_tok : forall s l s1 t s2, reads s l s1 -> src_uncons s1 = (inl t, s2) -> reads s (l ++ [(t, src_pos s1)]) s2.

Definition r_position (s : rstream) : P :=
  match nth_error (rlog s) (roff s) with Some (_, p) => p | None => src_pos (rsrc s) end.
Definition r_uncons (s : rstream) : (T + berr) * rstream :=
  match nth_error (rlog s) (roff s) with
  | Some (t, _) => (inl t, MkR (rlog s) (rsrc s) (roff s + 1))
  | None =>
      match src_uncons (rsrc s) with
      | (inl t, s') => (inl t, MkR (rlog s ++ [(t, src_pos (rsrc s))]) s' (roff s + 1))
      | (inr e, s') => (inr (BSource e), MkR (rlog s) s' (roff s))
      end
  end.
Definition r_reset (cp : nat) (s : rstream) : (unit + (P * berr)) * rstream :=
  if cp + keep <? length (rlog s) then (inr (r_position s, BTooFar (E:=E)), s)
  else (inl tt, MkR (rlog s) (rsrc s) cp).
Definition r_call (c : bcall) (s : rstream) (cps : list nat) : bresult * rstream * list nat :=
  match c with
  | BUncons => let (r, s') := r_uncons s in (RToken r, s', cps)
  | BPosition => (RPosition (r_position s), s, cps)
  | BCheckpoint => (RDone, s, roff s :: cps)
  | BReset k =>
      match nth_error cps k with
      | None => (RDone, s, cps)
      | Some cp => let (r, s') := r_reset cp s in (match r with inl _ => RDone | inr (p, e) => RFailed p e end, s', cps)
      end
  end.
Fixpoint r_calls (cs : list bcall) (s : rstream) (cps : list nat) : list bresult * rstream * list nat :=
  match cs with
  | [] => ([], s, cps)
  | c :: r => match r_call c s cps with (x, s1, cps1) => match r_calls r s1 cps1 with (xs, s2, cps2) => (x :: xs, s2, cps2) end end
  end.
End BSpec.
