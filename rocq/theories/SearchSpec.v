(** Searching a text that arrives in pieces.  Nothing here models code. *)
From Coq Require Import String List Bool Arith NArith.
Import ListNotations.
From Verif Require Import Base Parser Spec RangeSpec DecodeSpec ChunkSpec.
Set Implicit Arguments.

(** [first_in is w b]: [b] is what comes before the first of the bytes [is] in [w]. *)
Definition first_in (is : N -> Prop) (w b : list N) : Prop := exists t a, w = b ++ t :: a /\ is t /\ Forall (fun x => ~ is x) b.
(** The same for the first occurrence of a text. *)
Definition first_of (needle w b : list N) : Prop := exists a, first_occurrence needle w b a.

Section SearchSpec.
Context {C : Cfg}.
Notation T := (tok C).
Variable code : T -> N.

(** A parser which, given the text in whatever pieces, reads the text before the first place that [F] describes, as soon as
    that place can be told, and makes [out] of it; nothing is used up until then.  [F w b]: that place in [w] is after [b]. *)
Definition finds_in_pieces {S A} (F : list N -> list N -> Prop) (out : list T -> A) (p : parser C S A) : Prop :=
  forall IoE st eof, ready IoE p st eof -> forall pos b cs used (fin : ending (C:=C) IoE A) st' pos' b' eof',
  session p st pos b eof cs used fin st' pos' b' eof' ->
  let found (w v : list T) := F (List.map code w) (List.map code v) in
  (cs <> [] -> forall v, ~ found (b ++ concat (removelast cs)) v) /\ used ++ b' = b ++ concat cs /\
  match fin with
  | EndValue v => v = out used /\ found (b ++ concat cs) used
  | EndParse _ => eof' = true /\ used = [] /\ forall v, ~ found (b ++ concat cs) v
  | EndIo _ _ => used = [] /\ forall v, ~ found (b ++ concat cs) v
  end.

(** Whatever the pieces, the session ends with a value or a parse error. *)
Definition ends_in_pieces {S A} (p : parser C S A) : Prop :=
  forall IoE st eof, ready IoE p st eof -> forall pos b cs, (forall c, In c cs -> c <> []) ->
  exists cs1 cs2 used (fin : ending (C:=C) IoE A) st' pos' b' eof', (if eof then cs1 = [] else cs ++ [[]] = cs1 ++ cs2) /\
    session p st pos b eof cs1 used fin st' pos' b' eof' /\ (forall q e, fin <> EndIo q e).

(** The states that calls with these buffers leave, each call being made with the state of the one before. *)
Fixpoint states {S A} (p : parser C S A) (pos : Pos C) (st : S) (bufs : list (list T)) : list S :=
  match bufs with
  | [] => []
  | b :: bufs => match p_run p false (Inp b pos true) st with Done (_, _, st') => st' :: states p pos st' bufs | _ => [] end
  end.
End SearchSpec.
