(** The parser of benches/mp4.rs. *)
From Coq Require Import String List Bool Arith NArith.
Import ListNotations.
From Verif Require Import Base Parser Errors Token Combinator Sequence Choice Repeat RangeP ByteP Instances.
Set Implicit Arguments.

(** benches/mp4.rs:19-34 [FileType], [MP4Box].  A [&str] is the list of its bytes. *)
Inductive mp4_v (X : Type) : Type :=
| Ftyp (major_brand major_brand_version : list X) (compatible_brands : list (list X))
| Moov | Mdat | Free | Skip | Wide | Unknown.
Arguments Moov {X}. Arguments Mdat {X}. Arguments Free {X}. Arguments Skip {X}. Arguments Wide {X}. Arguments Unknown {X}.

Section Mp4.
Context {C : Cfg}.
Notation T := (tok C).
Notation E := (Err C).
(** The tokens are bytes. *)
Variable code : T -> N.
Variable lit : N -> T.
(** [str::from_utf8(bytes).is_ok()], and its error as a stream error. *)
Variable utf8 : list T -> bool.
Variable utf8_error : list T -> SErr C.

(** A byte string literal. *)
Definition blits (s : string) : list T := List.map lit (chars s).
(** benches/mp4.rs:37 *)
Definition brand_name := and_then (take 4) (fun b => if utf8 b then inl b else inr (utf8_error b)).
(** benches/mp4.rs:38-50 *)
Definition filetype_box :=
  map (tuple (TC (range (blits "ftyp")) (TC brand_name (TC (take 4) (T1 (many brand_name))))))
    (fun x => match x with (_, (m, (v, c))) => Ftyp m v c end).

(** The subtraction of line 52 overflows: a panic.  Not a combinator; it stands for the closure of [then], which is called
    just before its parser runs. *)
Definition overflow : parser C unit (list T) := mk_lazy (fun _ => Panic) no_err no_err 1.
(** benches/mp4.rs:52, [usize] of 64 bits: with overflow checks ([dbg C]) the subtraction panics, without it wraps. *)
Definition box_rest (offset : N) : parser C unit (list T) :=
  if (4 <=? offset)%N then take (N.to_nat (offset - 4))
  else if dbg C then overflow else take (N.to_nat (offset + 2 ^ 64 - 4)).
Definition mp4_box := then_ (be_u code 4) tt box_rest.
(** benches/mp4.rs:53-61 *)
Definition box_parser :=
  choice (AC filetype_box (AC (map (range (blits "moov")) (fun _ => Moov)) (AC (map (range (blits "mdat")) (fun _ => Mdat))
         (AC (map (range (blits "free")) (fun _ => Free)) (AC (map (range (blits "skip")) (fun _ => Skip))
         (AC (map (range (blits "wide")) (fun _ => Wide)) (AL (value Unknown)))))))).
(** benches/mp4.rs:63, the closure.  The positions of the inner errors, addresses in the Rust code, are counted from the beginning of the box
    ([p0]); what follows what the box parser reads is dropped.  The box parser neither panics nor runs out of fuel if that is at least
    the length of the data (proved with C67), the last case does not occur then. *)
Variable p0 : Pos C.
Definition interpret (box_data : list T) : mp4_v T + E :=
  match parse box_parser (Inp box_data p0 false) with
  | Done (inl b, _) => inl b
  | Done (inr e, _) => inr e
  | _ => inr (e_empty C p0)
  end.
(** benches/mp4.rs:62-65 *)
Definition data_interpreter := flat_map mp4_box interpret.
Definition parse_mp4 (i : input C) := parse (many data_interpreter) i.
End Mp4.
