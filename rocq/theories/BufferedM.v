(** [buffered::Stream] (stream/buffered.rs) over any source. *)
From Coq Require Import String List Bool Arith NArith.
Import ListNotations.
From Verif Require Import Base.
Set Implicit Arguments.

Section Buffered.
Context {Src T P E : Type}.
(** The source: a one-pass stream with its [position] and [uncons]; [uncons] may fail and may change the source even then. *)
Variable src_pos : Src -> P.
Variable src_uncons : Src -> (T + E) * Src.
(** What [VecDeque::push_back] makes of the capacity when the deque is full (standard library, at least one more). *)
Variable grow : nat -> nat.

(** The error is that of the source or "Backtracked to far". *)
Inductive berr : Type := BSource (e : E) | BTooFar.

(** stream/buffered.rs:28-36; [bcap] is the capacity of the [VecDeque]. *)
Record bstream : Type := MkB { boffset : nat; biter : Src; bbuf_offset : nat; bbuf : list (T * P); bcap : nat }.

(** stream/buffered.rs:70-77; [with_capacity(lookahead)] gives a capacity [cap >= lookahead]. *)
Definition b_new (iter : Src) (cap : nat) : bstream := MkB 0 iter 0 [] cap.

(** [usize] subtraction: an overflow is a panic (in release builds it would wrap). *)
Definition usub (a b : nat) : outcome nat := if b <=? a then Done (a - b) else Panic.

(** [VecDeque::index]. *)
Definition bindex (l : list (T * P)) (k : nat) : outcome (T * P) :=
  match nth_error l k with Some x => Done x | None => Panic end.

(** stream/buffered.rs:44-46 *)
Definition b_checkpoint (s : bstream) : nat := boffset s.

(** stream/buffered.rs:85-99 *)
Definition b_position (s : bstream) : outcome P :=
  if bbuf_offset s <=? boffset s then Done (src_pos (biter s))
  else obind (usub (bbuf_offset s) (length (bbuf s))) (fun start =>
    if boffset s <? start then match bbuf s with (_, p) :: _ => Done p | [] => Panic end
    else obind (usub (bbuf_offset s) (boffset s)) (fun back =>
         obind (usub (length (bbuf s)) back) (fun k => omap snd (bindex (bbuf s) k)))).

(** stream/buffered.rs:48-59 *)
Definition b_reset (cp : nat) (s : bstream) : outcome ((unit + (P * berr)) * bstream) :=
  obind (usub (bbuf_offset s) (length (bbuf s))) (fun start =>
    if cp <? start then omap (fun p => (inr (p, BTooFar), s)) (b_position s)
    else Done (inl tt, MkB cp (biter s) (bbuf_offset s) (bbuf s) (bcap s))).

(** stream/buffered.rs:113-136 *)
Definition b_uncons (s : bstream) : outcome ((T + berr) * bstream) :=
  if bbuf_offset s <=? boffset s then
    let position := src_pos (biter s) in
    match src_uncons (biter s) with
    | (inr e, it) => Done (inr (BSource e), MkB (boffset s) it (bbuf_offset s) (bbuf s) (bcap s))
    | (inl token, it) =>
        let buf := if length (bbuf s) =? bcap s then tl (bbuf s) else bbuf s in
        let cap := if length buf =? bcap s then grow (bcap s) else bcap s in
        Done (inl token, MkB (boffset s + 1) it (bbuf_offset s + 1) (buf ++ [(token, position)]) cap)
    end
  else obind (usub (bbuf_offset s) (length (bbuf s))) (fun start =>
    if boffset s <? start then Done (inr BTooFar, s)
    else obind (usub (bbuf_offset s) (boffset s)) (fun back =>
         obind (usub (length (bbuf s)) back) (fun k =>
         omap (fun x => (inl (fst x), MkB (boffset s + 1) (biter s) (bbuf_offset s) (bbuf s) (bcap s))) (bindex (bbuf s) k)))).

(** A history of calls; checkpoints are remembered, [BReset k] uses the [k]-th one. *)
Inductive bcall : Type := BUncons | BPosition | BCheckpoint | BReset (k : nat).
Inductive bresult : Type := RToken (r : T + berr) | RPosition (p : P) | RDone | RFailed (p : P) (e : berr).
Definition b_call (c : bcall) (s : bstream) (cps : list nat) : outcome (bresult * bstream * list nat) :=
  match c with
  | BUncons => omap (fun y => (RToken (fst y), snd y, cps)) (b_uncons s)
  | BPosition => omap (fun p => (RPosition p, s, cps)) (b_position s)
  | BCheckpoint => Done (RDone, s, b_checkpoint s :: cps)
  | BReset k =>
      match nth_error cps k with
      | None => Done (RDone, s, cps)
      | Some cp => omap (fun y => (match fst y with inl _ => RDone | inr (p, e) => RFailed p e end, snd y, cps)) (b_reset cp s)
      end
  end.
Fixpoint b_calls (cs : list bcall) (s : bstream) (cps : list nat) : outcome (list bresult * bstream * list nat) :=
  match cs with
  | [] => Done ([], s, cps)
  | c :: r => obind (b_call c s cps) (fun y => match y with (x, s1, cps1) =>
              omap (fun z => match z with (xs, s2, cps2) => (x :: xs, s2, cps2) end) (b_calls r s1 cps1) end)
  end.
End Buffered.
Arguments BSource {E}. Arguments BTooFar {E}.
Arguments RToken {T P E}. Arguments RPosition {T P E}. Arguments RDone {T P E}. Arguments RFailed {T P E}.
