(** What decoding from a reader should mean.  Nothing here models code. *)
From Coq Require Import String List Bool Arith NArith.
Import ListNotations.
From Verif Require Import Base Parser Spec.
Set Implicit Arguments.

(** [n] is the number of units of the data [whole] in front of [left]. *)
Definition drops {T} (whole : list T) (n : nat) (left : list T) : Prop := skipn n whole = left /\ n + length left = length whole.

(** A parser run with a state (through [parse_with_state]) on the data [b] at [pos], more data possibly following if
    [more]. *)
Section Calls.
Context {C : Cfg}.
Notation T := (tok C).
Notation E := (Err C).

Definition call_value {S A} (p : parser C S A) b pos more (st : S) (v : A) (b' : list T) pos' (st' : S) : Prop :=
  parse_with_state p (Inp b pos more) st = Done (inl v, Inp b' pos' more, st').
Definition call_error {S A} (p : parser C S A) (b : list T) pos more (st : S) (e : E) (b' : list T) pos' (st' : S) : Prop :=
  parse_with_state p (Inp b pos more) st = Done (inr e, Inp b' pos' more, st').

(** A reader delivers chunks: it is never asked for nothing nor for more than [size], and never delivers more than it
    was asked for. *)
Variables Rd IoE : Type.
Variable rd_read : Rd -> nat -> (list T + IoE) * Rd.

Inductive delivers (size : nat) : Rd -> list (list T) -> Rd -> Prop :=
| dl_nil : forall rd, delivers size rd [] rd
| dl_cons : forall rd n bs rd1 cs rd2, 1 <= n <= size -> rd_read rd n = (inl bs, rd1) -> length bs <= n ->
    delivers size rd1 cs rd2 -> delivers size rd (bs :: cs) rd2.

(** How a decoding session ends. *)
Inductive ending (A : Type) : Type := EndValue (v : A) | EndParse (e : E) | EndIo (pos : Pos C) (e : IoE).
Arguments EndValue {A}.
Arguments EndParse {A}.
Arguments EndIo {A}.

(** A session: the parser is called on the buffered data; each time it runs out of data while the end has not been seen,
    one chunk is appended to what it left (an empty chunk being the end of the data) and it is called again with
    the state it left, at the position it reached.  [session p st pos b eof chunks used fin st' pos' b' eof']:
    from state [st] at [pos] with [b] buffered and [eof] telling whether the end was seen, reading [chunks] and using
    up [used], it ends with [fin] and state [st'], position [pos'], [b'] buffered. *)
Inductive session {S A} (p : parser C S A) :
    S -> Pos C -> list T -> bool -> list (list T) -> list T -> ending A -> S -> Pos C -> list T -> bool -> Prop :=
| ses_value : forall st pos b eof used v st' b',
    b = used ++ b' -> call_value p b pos (negb eof) st v b' (pos_after pos used) st' ->
    session p st pos b eof [] used (EndValue v) st' (pos_after pos used) b' eof
| ses_error : forall st pos b eof e st' b' pos',
    call_error p b pos (negb eof) st e b' pos' st' -> eof = true \/ e_is_eoi C e = false ->
    session p st pos b eof [] [] (EndParse e) st' pos' b eof
| ses_io : forall st pos b used e st' b' ioe,
    b = used ++ b' -> call_error p b pos true st e b' (pos_after pos used) st' -> e_is_eoi C e = true ->
    session p st pos b false [] used (EndIo (pos_after pos used) ioe) st' (pos_after pos used) b' false
| ses_read : forall st pos b used e st1 b1 bs cs used2 fin st' pos' b' eof',
    b = used ++ b1 -> call_error p b pos true st e b1 (pos_after pos used) st1 -> e_is_eoi C e = true -> bs <> [] ->
    session p st1 (pos_after pos used) (b1 ++ bs) false cs used2 fin st' pos' b' eof' ->
    session p st pos b false (bs :: cs) (used ++ used2) fin st' pos' b' eof'
| ses_eof : forall st pos b used e st1 b1 cs used2 fin st' pos' b' eof',
    b = used ++ b1 -> call_error p b pos true st e b1 (pos_after pos used) st1 -> e_is_eoi C e = true ->
    session p st1 (pos_after pos used) b1 true cs used2 fin st' pos' b' eof' ->
    session p st pos b false ([] :: cs) (used ++ used2) fin st' pos' b' eof'.

End Calls.
Arguments EndValue {C IoE A}.
Arguments EndParse {C IoE A}.
Arguments EndIo {C IoE A}.

(** A reader that records everything it does. *)
Definition logging {T Rd IoE} (rd_read : Rd -> nat -> (list T + IoE) * Rd) (r : Rd * list (list T + IoE)) (n : nat) :
    (list T + IoE) * (Rd * list (list T + IoE)) :=
  let (x, rd') := rd_read (fst r) n in (x, (rd', snd r ++ [x])).

(** The bytes successfully read, over a log. *)
Definition read_bytes {T IoE} (log : list (list T + IoE)) : list T :=
  concat (List.map (fun x => match x with inl bs => bs | inr _ => [] end) log).

(** What can be asked of a buffered reader. *)
Inductive br_call : Type := KRead (n : nat) | KFill | KConsume (n : nat) | KExtend.
