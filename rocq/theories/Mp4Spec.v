(** Specification of the MP4 parser: the files it reads. *)
From Coq Require Import String List Bool Arith NArith.
Import ListNotations.
From Verif Require Import Instances Mp4M.
Set Implicit Arguments.

Section Mp4Spec.
Variable X : Type.
Variable code : X -> N.
Variable utf8 : list X -> bool.

(** The number of four bytes. *)
Definition size_of (s : list X) (n : N) : Prop :=
  exists a b c d, s = [a; b; c; d] /\ n = (code a * 16777216 + code b * 65536 + code c * 256 + code d)%N.
Definition tagged (s : string) (d : list X) : Prop := exists t r, d = t ++ r /\ List.map code t = chars s.
Definition brand (b : list X) : Prop := length b = 4 /\ utf8 b = true.
(** What a box with these data is. *)
Definition ftyp_data (d m v : list X) (c : list (list X)) : Prop :=
  exists t r, d = t ++ m ++ v ++ concat c ++ r /\ List.map code t = chars "ftyp" /\ brand m /\ length v = 4 /\ Forall brand c /\ length r < 4.
Definition box_of (d : list X) (b : mp4_v X) : Prop :=
  match b with
  | Ftyp m v c => ftyp_data d m v c
  | Moov => tagged "moov" d
  | Mdat => tagged "mdat" d
  | Free => tagged "free" d
  | Skip => tagged "skip" d
  | Wide => tagged "wide" d
  | Unknown => forall s, In s ["ftyp"; "moov"; "mdat"; "free"; "skip"; "wide"]%string -> ~ tagged s d
  end.
(** An [ftyp] box which is too short or one of whose brands is not UTF-8. *)
Definition bad_ftyp (d : list X) : Prop :=
  exists t r, d = t ++ r /\ List.map code t = chars "ftyp" /\
    (length r < 8 \/ utf8 (firstn 4 r) = false \/ exists k, 8 + 4 * k + 4 <= length r /\ utf8 (firstn 4 (skipn (8 + 4 * k) r)) = false).
(** A box: its size (which counts the size field), its data. *)
Definition box_text (w : list X) (b : mp4_v X) : Prop :=
  exists s d n, w = s ++ d /\ size_of s n /\ n = N.of_nat (4 + length d) /\ box_of d b.
(** A file begins with boxes and goes on with [r]. *)
Definition boxes_then (l : list X) (r : list X) : Prop := exists ws bs, l = concat ws ++ r /\ Forall2 box_text ws bs.
(** The size field is smaller than itself; the box is longer than the rest of the file; the box is a bad file type box. *)
Definition small_box (r : list X) : Prop := exists s d n, r = s ++ d /\ size_of s n /\ (n < 4)%N.
Definition bad_box (r : list X) : Prop :=
  exists s d n, r = s ++ d /\ size_of s n /\ (4 <= n)%N /\
    ((N.of_nat (4 + length d) < n)%N \/ exists d1 d2, d = d1 ++ d2 /\ n = N.of_nat (4 + length d1) /\ bad_ftyp d1).
End Mp4Spec.
