(** What asynchronous decoding should mean.  Nothing here models code. *)
From Coq Require Import String List Bool Arith NArith.
Import ListNotations.
From Verif Require Import Base Parser Spec DecodeM DecodeSpec AsyncM.
Set Implicit Arguments.

Section AsyncSpec.
Context {C : Cfg}.
Notation T := (tok C).
Notation E := (Err C).
Variables Rd IoE : Type.

(** What comes out of a reader, poll by poll: it is never asked for nothing, and never delivers more than it was asked
    for; sometimes it is not ready or fails ([ok] tells whether failures may occur), nothing comes out then. *)
Variable poll_read : Rd -> nat -> poll (list T + IoE) * Rd.
Inductive yields (ok : bool) : Rd -> list (list T) -> Rd -> Prop :=
| yd_nil : forall rd, yields ok rd [] rd
| yd_data : forall rd n bs rd1 cs rd2, 1 <= n -> poll_read rd n = (Ready (inl bs), rd1) -> length bs <= n ->
    yields ok rd1 cs rd2 -> yields ok rd (bs :: cs) rd2
| yd_pending : forall rd n rd1 cs rd2, 1 <= n -> poll_read rd n = (Pending, rd1) -> yields ok rd1 cs rd2 -> yields ok rd cs rd2
| yd_error : forall rd n e rd1 cs rd2, ok = false -> 1 <= n -> poll_read rd n = (Ready (inr e), rd1) -> yields ok rd1 cs rd2 -> yields ok rd cs rd2.

(** The same for [Read::read], with failures in between. *)
Variable rd_read : Rd -> nat -> (list T + IoE) * Rd.
Inductive gives (size : nat) : Rd -> list (list T) -> Rd -> Prop :=
| gv_nil : forall rd, gives size rd [] rd
| gv_data : forall rd n bs rd1 cs rd2, 1 <= n <= size -> rd_read rd n = (inl bs, rd1) -> length bs <= n ->
    gives size rd1 cs rd2 -> gives size rd (bs :: cs) rd2
| gv_error : forall rd n e rd1 cs rd2, 1 <= n <= size -> rd_read rd n = (inr e, rd1) -> gives size rd1 cs rd2 -> gives size rd cs rd2.

(** A decoding session (DecodeSpec.v) that may be interrupted: having run out of data, the parser may also be called again
    on what it left without anything new ([is_again]). *)
Inductive isession {S A} (p : parser C S A) :
    S -> Pos C -> list T -> bool -> list (list T) -> list T -> ending (C:=C) IoE A -> S -> Pos C -> list T -> bool -> Prop :=
| is_value : forall st pos b eof used v st' b',
    b = used ++ b' -> call_value p b pos (negb eof) st v b' (pos_after pos used) st' ->
    isession p st pos b eof [] used (EndValue v) st' (pos_after pos used) b' eof
| is_error : forall st pos b eof e st' b' pos',
    call_error p b pos (negb eof) st e b' pos' st' -> eof = true \/ e_is_eoi C e = false ->
    isession p st pos b eof [] [] (EndParse e) st' pos' b eof
| is_io : forall st pos b used e st' b' ioe,
    b = used ++ b' -> call_error p b pos true st e b' (pos_after pos used) st' -> e_is_eoi C e = true ->
    isession p st pos b false [] used (EndIo (pos_after pos used) ioe) st' (pos_after pos used) b' false
| is_again : forall st pos b used e st1 b1 cs used2 fin st' pos' b' eof',
    b = used ++ b1 -> call_error p b pos true st e b1 (pos_after pos used) st1 -> e_is_eoi C e = true ->
    isession p st1 (pos_after pos used) b1 false cs used2 fin st' pos' b' eof' ->
    isession p st pos b false cs (used ++ used2) fin st' pos' b' eof'
| is_read : forall st pos b used e st1 b1 bs cs used2 fin st' pos' b' eof',
    b = used ++ b1 -> call_error p b pos true st e b1 (pos_after pos used) st1 -> e_is_eoi C e = true -> bs <> [] ->
    isession p st1 (pos_after pos used) (b1 ++ bs) false cs used2 fin st' pos' b' eof' ->
    isession p st pos b false (bs :: cs) (used ++ used2) fin st' pos' b' eof'
| is_eof : forall st pos b used e st1 b1 cs used2 fin st' pos' b' eof',
    b = used ++ b1 -> call_error p b pos true st e b1 (pos_after pos used) st1 -> e_is_eoi C e = true ->
    isession p st1 (pos_after pos used) b1 true cs used2 fin st' pos' b' eof' ->
    isession p st pos b false ([] :: cs) (used ++ used2) fin st' pos' b' eof'.

(** The states between two messages when sessions may be interrupted. *)
Inductive iready {S A} (p : parser C S A) : S -> bool -> Prop :=
| iready_init : forall eof, iready p (p_init p) eof
| iready_next : forall st eof pos b cs used v st' pos' b' eof', iready p st eof ->
    isession p st pos b eof cs used (EndValue v) st' pos' b' eof' -> iready p st' eof'.

(** A reader that records everything that comes out of it. *)
Definition alogging (r : Rd * list T) (n : nat) : poll (list T + IoE) * (Rd * list T) :=
  let (x, rd') := poll_read (fst r) n in (x, (rd', snd r ++ match x with Ready (inl bs) => bs | _ => [] end)).

End AsyncSpec.
