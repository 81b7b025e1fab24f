(** Asynchronous decoding: [decode_futures_03!], [decode_tokio_02!], [decode_tokio_03!], [decode_tokio!]
    (stream/mod.rs:1464-1847), [Decoder::__before_parse_async] and its siblings (stream/decoder.rs:155-228), the
    asynchronous reading functions of stream/buf_reader.rs, and the callers of the resulting futures. *)
From Coq Require Import String List Bool Arith NArith.
Import ListNotations.
From Verif Require Import Base Parser Errors DecodeM.
Set Implicit Arguments.

(** [std::task::Poll]. *)
Inductive poll (X : Type) : Type := Pending | Ready (x : X).
Arguments Pending {X}.
Arguments Ready {X}.

Section Async.
Context {C : Cfg}.
Notation T := (tok C).
Notation E := (Err C).

(** The reader: [AsyncRead::poll_read] called with a buffer of the given length (the four versions of the trait differ in
    how the buffer is passed only).  The waker has no counterpart: the model says what each poll does, not when it
    happens.  [grow len additional]: the capacity [BytesMut::reserve] arrives at. *)
Variables Rd IoE : Type.
Variable poll_read : Rd -> nat -> poll (list T + IoE) * Rd.
Variable grow : nat -> nat -> nat.

(** [BufMut::chunk_mut for BytesMut]: room for 64 units is made if there is none.  The [reserve(8 * 1024)] in front of it
    (buf_reader.rs:232-234, 256-258, 298-300, 322-324, 420-422, 479-481) is skipped whatever the buffer:
    [has_remaining_mut] asks whether the length is below [usize::MAX], not the capacity. *)
Definition chunk_mut (b : buf (C:=C)) : buf (C:=C) :=
  if bcap b =? length (bbytes b) then Buf (bbytes b) (grow (length (bbytes b)) 64) else b.

(** buf_reader.rs:496-524 [poll_extend_buf] (futures), 292-310 [tokio_03_read_buf], 316-326 [tokio_read_buf], 249-261
    (tokio 0.2), for the decoder's own buffer (212-290, 312-314) and for that of a [BufReader] (392-493); 157-185
    [ExtendBuf] polls it.  The whole spare capacity is offered.  The [assert!] (516-519) is the futures version's, the
    others rely on types for it.  Zeroing the spare room has no counterpart. *)
Definition poll_extend_buf (b : buf (C:=C)) (rd : Rd) : outcome (poll (nat + IoE) * buf (C:=C) * Rd) :=
  let b1 := chunk_mut b in
  let room := bcap b1 - length (bbytes b1) in
  match poll_read rd room with
  | (Pending, rd') => Done (Pending, b1, rd')
  | (Ready (inr e), rd') => Done (Ready (inr e), b1, rd')
  | (Ready (inl bs), rd') =>
      if length bs <=? room then Done (Ready (inl (length bs)), Buf (bbytes b1 ++ bs) (bcap b1), rd') else Panic
  end.

(** decoder.rs:155-228 [__before_parse_tokio_02], [__before_parse_tokio_03], [__before_parse_tokio],
    [__before_parse_async]: one poll of the future. *)
Definition poll_before_parse {S} (d : dec (C:=C) S) (rd : Rd) : outcome (poll (unit + IoE) * dec (C:=C) S * Rd) :=
  omap (fun x => match x with
    | (Pending, b, rd') => (Pending, Dec (dpos d) (dstate d) b (deoi d), rd')
    | (Ready (inl n), b, rd') => (Ready (inl tt), Dec (dpos d) (dstate d) b (if n =? 0 then true else deoi d), rd')
    | (Ready (inr e), b, rd') => (Ready (inr e), Dec (dpos d) (dstate d) b (deoi d), rd')
    end) (poll_extend_buf (dbuf d) rd).

(** One poll of the future of [decode_futures_03!] (stream/mod.rs:1517-1556) and of the tokio macros (1608-1647, 1700-1739,
    1796-1847): it runs the loop until the reader is not ready or there is a result.  [waiting] says where the future was
    suspended: nowhere yet, or at the [.await] of the read; everything else it needs is in the decoder and the reader,
    which it borrows.  [fl] bounds the number of rounds of one poll. *)
Fixpoint poll_decode {S A} (fl : nat) (waiting : bool) (p : parser C S A) (d : dec (C:=C) S) (rd : Rd)
    : outcome (poll (A + dec_error (C:=C) IoE) * dec (C:=C) S * Rd) :=
  match fl with
  | 0 => OOF
  | Datatypes.S fl' =>
      let read d1 := obind (poll_before_parse d1 rd) (fun y => match y with
        | (Pending, d2, rd') => Done (Pending, d2, rd')
        | (Ready (inr e), d2, rd') => Done (Ready (inr (DIo (dpos d2) e)), d2, rd')
        | (Ready (inl tt), d2, rd') => poll_decode fl' false p d2 rd'
        end) in
      if waiting then read d
      else
        obind (decode p (Inp (bbytes (dbuf d)) (dpos d) (negb (deoi d))) (dstate d)) (fun x => match x with (res, i', st') =>
          match res with
          | inr err => Done (Ready (inr (DParse err)), Dec (ipos i') st' (dbuf d) (deoi d), rd)
          | inl (opt, removed) =>
              obind (b_advance removed (dbuf d)) (fun b =>
                let d1 := Dec (ipos i') st' b (deoi d) in
                match opt with
                | Some v => Done (Ready (inl v), d1, rd)
                | None => read d1
                end)
          end end)
  end.

(** What the callers of the macros may do (no code in /repo; the contract of [std::future::Future]): poll the future until
    it is ready ([dv_poll]); drop it while it waits, as [select!] or a timeout does, and later call the macro again with
    the same decoder and reader ([dv_drop]); call it again after an I/O error ([dv_retry]).  With [steady] only the
    first.  [driven steady fl p waiting d rd r d' rd']: it comes to an end with [r]. *)
Inductive driven (steady : bool) (fl : nat) {S A} (p : parser C S A) :
    bool -> dec (C:=C) S -> Rd -> A + dec_error (C:=C) IoE -> dec (C:=C) S -> Rd -> Prop :=
| dv_ready : forall w d rd r d' rd', poll_decode fl w p d rd = Done (Ready r, d', rd') -> driven steady fl p w d rd r d' rd'
| dv_poll : forall w d rd d1 rd1 r d' rd', poll_decode fl w p d rd = Done (Pending, d1, rd1) ->
    driven steady fl p true d1 rd1 r d' rd' -> driven steady fl p w d rd r d' rd'
| dv_drop : forall w d rd d1 rd1 r d' rd', steady = false -> poll_decode fl w p d rd = Done (Pending, d1, rd1) ->
    driven steady fl p false d1 rd1 r d' rd' -> driven steady fl p w d rd r d' rd'
| dv_retry : forall w d rd pos e d1 rd1 r d' rd', steady = false -> poll_decode fl w p d rd = Done (Ready (inr (DIo pos e)), d1, rd1) ->
    driven steady fl p false d1 rd1 r d' rd' -> driven steady fl p w d rd r d' rd'.

(** * [AsyncRead] and [AsyncBufRead] for [BufReader] (buf_reader.rs:526-730; the three tokio versions are alike) *)

(** buf_reader.rs:392-493 [CombineRead], [CombineAsyncRead] for [Bufferless]. *)
Definition abr_extend (r : bufreader (C:=C) Rd) : outcome (poll (nat + IoE) * bufreader (C:=C) Rd) :=
  omap (fun x => match x with (n, b, rd) => (n, BR rd b) end) (poll_extend_buf (br_buf r) (br_inner r)).

(** buf_reader.rs:557-571, 628-637, 693-702 [poll_fill_buf]. *)
Definition abr_fill_buf (r : bufreader (C:=C) Rd) : outcome (poll (list T + IoE) * bufreader (C:=C) Rd) :=
  match bbytes (br_buf r) with
  | [] =>
      omap (fun x => match x with
        | (Pending, r') => (Pending, r')
        | (Ready (inl _), r') => (Ready (inl (bbytes (br_buf r'))), r')
        | (Ready (inr e), r') => (Ready (inr e), r')
        end) (abr_extend r)
  | l => Done (Ready (inl l), r)
  end.

(** buf_reader.rs:528-548, 606-624, 671-689 [poll_read] into a buffer with [n] units of room; the result is the bytes
    copied.  The first branch needs a buffer of [usize::MAX] bytes and is left out, as in [br_read]. *)
Definition abr_read (n : nat) (r : bufreader (C:=C) Rd) : outcome (poll (list T + IoE) * bufreader (C:=C) Rd) :=
  obind (abr_fill_buf r) (fun x => match x with
  | (Pending, r') => Done (Pending, r')
  | (Ready (inr e), r') => Done (Ready (inr e), r')
  | (Ready (inl rem), r') =>
      let got := firstn n rem in
      omap (fun r2 => (Ready (inl got), r2)) (br_consume (length got) r')
  end).

End Async.

(** * [decode!] called again after I/O errors *)
Section Retry.
Context {C : Cfg}.
Variables Rd IoE : Type.
Variable rd_read : Rd -> nat -> (list (tok C) + IoE) * Rd.
Variable grow : nat -> nat -> nat.
(** A caller of [decode!] (stream/mod.rs:1421-1461) that calls it again with the same decoder and reader whenever the
    reader fails; [Read::read] errors such as [Interrupted] and [WouldBlock] are handed to the caller
    (buf_reader.rs:381, decoder.rs:147) and mean "try again". *)
Inductive retried (fl : nat) {S A} (p : parser C S A) :
    dec (C:=C) S -> Rd -> A + dec_error (C:=C) IoE -> dec (C:=C) S -> Rd -> Prop :=
| rt_end : forall d rd r d' rd', decode_loop rd_read grow fl p d rd = Done (r, d', rd') -> retried fl p d rd r d' rd'
| rt_again : forall d rd pos e d1 rd1 r d' rd', decode_loop rd_read grow fl p d rd = Done (inr (DIo pos e), d1, rd1) ->
    retried fl p d1 rd1 r d' rd' -> retried fl p d rd r d' rd'.
End Retry.
