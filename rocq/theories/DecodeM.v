(** [decode], [decode_tokio], the read buffer, [Decoder], the [decode!] loop and [BufReader]
    (stream/mod.rs:1298-1462, stream/decoder.rs, stream/buf_reader.rs).  The asynchronous variants are in AsyncM.v. *)
From Coq Require Import String List Bool Arith NArith.
Import ListNotations.
From Verif Require Import Base Parser Errors.
Set Implicit Arguments.

Section Decode.
Context {C : Cfg}.
Notation T := (tok C).
Notation E := (Err C).

(** stream/mod.rs:1306-1334 [decode]: [Ok((opt, removed))] is [inl], the parse error is [inr].  The stream and the
    state are changed in place, the model returns them. *)
Definition decode {S A} (p : parser C S A) (i : input C) (st : S) : outcome (((option A * nat) + E) * input C * S) :=
  omap (fun x => match x with (res, i', st') =>
    (match res with
     | inl v => inl (Some v, distance i' i)
     | inr err =>
         if e_is_eoi C err then
           if ipart i' then inl (None, distance i' i) else inr err
         else inr err
     end, i', st') end)
  (parse_with_state p i st).

(** stream/mod.rs:1347-1378 [decode_tokio]. *)
Definition decode_tokio {S A} (p : parser C S A) (i : input C) (st : S) : outcome (((option A * nat) + E) * input C * S) :=
  omap (fun x => match x with (res, i', st') =>
    (match res with
     | inl v => inl (Some v, distance i' i)
     | inr err =>
         if e_is_eoi C err then
           if ipart i' then inl (None, distance i' i)
           else if input_at_eof i' && (distance i' i =? 0) then inl (None, 0)
           else inr err
         else inr err
     end, i', st') end)
  (parse_with_state p i st).

(** [bytes::BytesMut]: contents and capacity (the invariant [length <= capacity] is the crate's). *)
Record buf : Type := Buf { bbytes : list T; bcap : nat }.

(** [Buf::advance for BytesMut]: panics if more is dropped than there is; the room in front is given up, so the
    capacity shrinks with the contents. *)
Definition b_advance (n : nat) (b : buf) : outcome buf :=
  if n <=? length (bbytes b) then Done (Buf (skipn n (bbytes b)) (bcap b - n)) else Panic.

(** buf_reader.rs:359 [let size = 8 * 1024]. *)
Definition read_size : nat := 8 * 1024.

(** The reader: a state, and [Read::read] called with a buffer of the given length, returning the bytes it wrote (and
    counted) or an I/O error.  [grow len additional]: the capacity [BytesMut::reserve] arrives at. *)
Variables Rd IoE : Type.
Variable rd_read : Rd -> nat -> (list T + IoE) * Rd.
Variable grow : nat -> nat -> nat.

(** buf_reader.rs:356-390 [extend_buf_sync].  The zeroing of the spare room (370-377) only serves memory safety and
    has no counterpart. *)
Definition extend_buf_sync (b : buf) (rd : Rd) : outcome ((nat + IoE) * buf * Rd) :=
  let b1 := if bcap b =? length (bbytes b) then Buf (bbytes b) (grow (length (bbytes b)) read_size) else b in
  let room := Nat.min (bcap b1 - length (bbytes b1)) read_size in
  match rd_read rd room with
  | (inr e, rd') => Done (inr e, b1, rd')
  | (inl bs, rd') =>
      if length bs <=? room then Done (inl (length bs), Buf (bbytes b1 ++ bs) (bcap b1), rd') else Panic
  end.

(** decoder.rs:51-58 [struct Decoder].  The buffer is the decoder's own ([Buffer], buf_reader.rs:187-209) or that of
    the [BufReader] it reads from ([Bufferless], 332-354, [CombineBuffer for Bufferless], 141-160); the operations on
    it are the same, the model keeps it here. *)
Record dec (S : Type) : Type := Dec { dpos : Pos C; dstate : S; dbuf : buf; deoi : bool }.
Arguments Dec {S}.
Arguments dpos {S}.
Arguments dstate {S}.
Arguments dbuf {S}.
Arguments deoi {S}.

(** decoder.rs:20-48 [enum Error<E, P>]. *)
Inductive dec_error : Type := DIo (p : Pos C) (e : IoE) | DParse (e : E).

(** decoder.rs:138-152 [__before_parse]. *)
Definition before_parse {S} (d : dec S) (rd : Rd) : outcome ((unit + IoE) * dec S * Rd) :=
  omap (fun x => match x with
    | (inl n, b, rd') => (inl tt, Dec (dpos d) (dstate d) b (if n =? 0 then true else deoi d), rd')
    | (inr e, b, rd') => (inr e, Dec (dpos d) (dstate d) b (deoi d), rd')
    end) (extend_buf_sync (dbuf d) rd).

(** stream/mod.rs:1421-1461 the loop of [decode!] with
    [|input, position| position::Stream::with_positioner(input, position)] as [input_stream]; [post_decode] is the
    default, which does nothing.  (With the default [input_stream] the position is the address of the data.)
    [fl] bounds the number of rounds. *)
Fixpoint decode_loop {S A} (fl : nat) (p : parser C S A) (d : dec S) (rd : Rd)
    : outcome ((A + dec_error) * dec S * Rd) :=
  match fl with
  | 0 => OOF
  | Datatypes.S fl' =>
      obind (decode p (Inp (bbytes (dbuf d)) (dpos d) (negb (deoi d))) (dstate d)) (fun x => match x with (res, i', st') =>
        match res with
        | inr err => Done (inr (DParse err), Dec (ipos i') st' (dbuf d) (deoi d), rd)
        | inl (opt, removed) =>
            obind (b_advance removed (dbuf d)) (fun b =>
              let d1 := Dec (ipos i') st' b (deoi d) in
              match opt with
              | Some v => Done (inl v, d1, rd)
              | None =>
                  obind (before_parse d1 rd) (fun y => match y with
                  | (inr e, d2, rd') => Done (inr (DIo (dpos d2) e), d2, rd')
                  | (inl tt, d2, rd') => decode_loop fl' p d2 rd'
                  end)
              end)
        end end)
  end.

(** * [BufReader] (buf_reader.rs:38-75): the inner reader and a buffer. *)
Record bufreader : Type := BR { br_inner : Rd; br_buf : buf }.

(** buf_reader.rs:332-354 [CombineSyncRead for Bufferless]. *)
Definition br_extend (r : bufreader) : outcome ((nat + IoE) * bufreader) :=
  omap (fun x => match x with (n, b, rd) => (n, BR rd b) end) (extend_buf_sync (br_buf r) (br_inner r)).

(** buf_reader.rs:751-762 [BufRead::fill_buf]: the whole buffer, filled first if empty. *)
Definition br_fill_buf (r : bufreader) : outcome ((list T + IoE) * bufreader) :=
  match bbytes (br_buf r) with
  | [] =>
      omap (fun x => match x with
        | (inl _, r') => (inl (bbytes (br_buf r')), r')
        | (inr e, r') => (inr e, r')
        end) (br_extend r)
  | l => Done (inl l, r)
  end.

(** buf_reader.rs:764-766 [BufRead::consume]. *)
Definition br_consume (n : nat) (r : bufreader) : outcome bufreader :=
  omap (fun b => BR (br_inner r) b) (b_advance n (br_buf r)).

(** buf_reader.rs:732-748 [Read::read] into a buffer of length [n]; the result is the bytes copied.  The first branch
    (736-740) calls itself; it needs [!has_remaining_mut()], which for [BytesMut] means a buffer of [usize::MAX] bytes,
    so it is left out. *)
Definition br_read (n : nat) (r : bufreader) : outcome ((list T + IoE) * bufreader) :=
  obind (br_fill_buf r) (fun x => match x with
  | (inr e, r') => Done (inr e, r')
  | (inl rem, r') =>
      let got := firstn n rem in
      omap (fun r2 => (inl got, r2)) (br_consume (length got) r')
  end).

End Decode.
Arguments Buf {C}.
Arguments bbytes {C}.
Arguments bcap {C}.
Arguments Dec {C S}.
Arguments dpos {C S}.
Arguments dstate {C S}.
Arguments dbuf {C S}.
Arguments deoi {C S}.
Arguments DIo {C IoE}.
Arguments DParse {C IoE}.
Arguments BR {C Rd}.
Arguments br_inner {C Rd}.
Arguments br_buf {C Rd}.

(** * [read::Stream] (stream/read.rs) on a reader that fails *)

(** stream/read.rs:11-16 [enum Error]; the [io::Error] inside is dropped. *)
Inductive read_error := REUnexpected | REEndOfInput | REIo.

(** stream/read.rs:127-132 [ParseError::add]. *)
Definition re_add (a b : read_error) : read_error := match a with REEndOfInput => REEndOfInput | _ => b end.

(** stream/read.rs:88-90, 145-147 [is_unexpected_end_of_input] with [PartialEq] (28-36). *)
Definition re_is_eoi (a : read_error) : bool := match a with REEndOfInput => true | _ => false end.

(** stream/read.rs:38-156 the error traits of [Error]; [failing] tells what [uncons] (167-173) answers after the last
    token: end of input ([false]), or an I/O error ([true]), in which case the reader goes on failing.  (In Rust this is
    the behaviour of the stream, not of the error type; in the model the error of [uncons] is a field of the
    configuration.) *)
Definition cfg_read (T : TokCfg) (failing : bool) (fl : nat) (d : bool) : Cfg := {|
  tok := t_tok T; tok_eqb := t_eqb T; width := t_width T;
  Pos := t_Pos T; pos_eqb := t_pos_eqb T; pos_step := t_pos_step T;
  SErr := read_error;
  se_unexpected := fun _ => REUnexpected;
  se_expected := fun _ => REUnexpected;
  se_message := fun _ => REUnexpected;
  se_eoi := if failing then REIo else REEndOfInput;
  se_boundary := REUnexpected;
  se_is_eoi := re_is_eoi;
  Err := read_error;
  e_empty := fun _ => REUnexpected;
  e_from := fun _ e => e;
  e_position := fun _ => t_pos_default T;
  e_setpos := fun e _ => e;
  e_merge := fun _ b => b;
  e_add := re_add;
  e_set_expected := fun t x f => Trk x (toff (f t));
  e_clear_expected := fun e => e;
  e_is_eoi := re_is_eoi;
  fuel := fl; dbg := d
|}.
