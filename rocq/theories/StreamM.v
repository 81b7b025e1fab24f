(** The slice and string streams at the level of indices and bytes (stream/mod.rs:481-752, 1030-1180). *)
From Coq Require Import String List Bool Arith NArith.
Import ListNotations.
From Verif Require Import Base.
Set Implicit Arguments.

(** A [FnMut] closure: captured state, argument; result and new captured state. *)
Definition fnmut (X A : Type) : Type := X -> A -> bool * X.

(** Stream errors of slices and strings (error.rs:571-575 [UnexpectedParse], 752-757 [StringStreamError]). *)
Inductive serr : Type := SeUnexpected | SeEoi | SeBoundary.

(** * Slices *)
Section Slice.
Context {T X : Type}.
Variable debug : bool.   (* [debug_assert!] enabled *)
Variable f : fnmut X T.

(** stream/mod.rs:635-643, 1082-1090 [check!]: [get_unchecked(i)] outside the slice is undefined behaviour ([Panic]);
    the boolean tells if the macro's [break] was taken. *)
Definition check (l : list T) (i : nat) (x : X) : outcome (bool * nat * X) :=
  match nth_error l i with
  | None => Panic
  | Some t => let (b, x') := f x t in if b then Done (false, S i, x') else Done (true, i, x')
  end.

(** [n] times [check!] in a row. *)
Fixpoint checks (n : nat) (l : list T) (i : nat) (x : X) : outcome (bool * nat * X) :=
  match n with
  | 0 => Done (false, i, x)
  | S n' => obind (check l i x) (fun y => match y with
            | (true, j, x') => Done (true, j, x')
            | (false, j, x') => checks n' l j x'
            end)
  end.

(** stream/mod.rs:646-655 [while len - i >= 8 { check!() * 8 }]; [len - i] is a [usize] subtraction. *)
Fixpoint while8 (fl : nat) (l : list T) (i : nat) (x : X) : outcome (bool * nat * X) :=
  match fl with
  | 0 => OOF
  | S fl' =>
      if length l <? i then Panic
      else if 8 <=? length l - i then
        obind (checks 8 l i x) (fun y => match y with
          | (true, j, x') => Done (true, j, x')
          | (false, j, x') => while8 fl' l j x'
          end)
      else Done (false, i, x)
  end.

(** stream/mod.rs:658-663 [while let Some(c) = slice.get(i)]. *)
Fixpoint tail_loop (fl : nat) (l : list T) (i : nat) (x : X) : outcome (nat * X) :=
  match fl with
  | 0 => OOF
  | S fl' =>
      match nth_error l i with
      | None => Done (i, x)
      | Some c => let (b, x') := f x c in if b then tail_loop fl' l (S i) x' else Done (i, x')
      end
  end.

(** [slice::split_at]: panics if the index is past the end. *)
Definition split_at (l : list T) (i : nat) : outcome (list T * list T) :=
  if i <=? length l then Done (firstn i l, skipn i l) else Panic.

(** stream/mod.rs:624-669 [slice_uncons_while]; [start] is [UnconsStart as usize] (618-622). The two loops run at
    most [length] times, which is the fuel given. *)
Definition slice_uncons_while (start : nat) (l : list T) (x : X) : outcome (list T * list T * X) :=
  if debug && (length l <? start) then Panic
  else
    obind (while8 (S (length l)) l start x) (fun y => match y with (found, i, x1) =>
    obind (if found then Done (i, x1) else tail_loop (S (length l)) l i x1) (fun z => match z with (j, x2) =>
    omap (fun w => (w, x2)) (split_at l j) end) end).

(** stream/mod.rs:1072-1116 [slice_uncons_while_ref]: the same code over references instead of clones. *)
Definition slice_uncons_while_ref (start : nat) (l : list T) (x : X) : outcome (list T * list T * X) :=
  slice_uncons_while start l x.

(** stream/mod.rs:687-692, 1134-1139 [uncons_while]. *)
Definition sl_uncons_while (l : list T) (x : X) : outcome ((list T + serr) * list T * X) :=
  omap (fun y => match y with (a, b, x') => (inl a, b, x') end) (slice_uncons_while 0 l x).

(** stream/mod.rs:695-711, 1142-1156 [uncons_while1]: [first] is tested, then the scan starts at index one. *)
Definition sl_uncons_while1 (l : list T) (x : X) : outcome ((list T + serr) * list T * X) :=
  match l with
  | c :: _ =>
      let (b, x') := f x c in
      if b then omap (fun y => match y with (a, r, x2) => (inl a, r, x2) end) (slice_uncons_while 1 l x')
      else Done (inr SeUnexpected, l, x')
  | [] => Done (inr SeEoi, l, x)
  end.
End Slice.

(** stream/mod.rs:743-751, 1061-1069 [uncons]. *)
Definition sl_uncons {T} (l : list T) : (T + serr) * list T :=
  match l with t :: r => (inl t, r) | [] => (inr SeEoi, l) end.

(** stream/mod.rs:676-684, 1123-1131 [uncons_range]. *)
Definition sl_uncons_range {T} (size : nat) (l : list T) : outcome ((list T + serr) * list T) :=
  if size <=? length l then omap (fun y => (inl (fst y), snd y)) (split_at l size)
  else Done (inr SeEoi, l).

(** stream/mod.rs:714-716 [distance]: [end] is the older stream; a [usize] subtraction. *)
Definition sl_distance {T} (self end_ : list T) : outcome nat :=
  if length self <=? length end_ then Done (length end_ - length self) else Panic.

(** * Strings: a [&str] is its bytes *)

(** Unicode scalar values ([char]). *)
Definition is_char (c : N) : bool := ((c <? 55296) || ((57344 <=? c) && (c <? 1114112)))%N.

(** [char::encode_utf8] of the standard library, the bit operations written arithmetically. *)
Definition encode (c : N) : list N :=
  if (c <? 128)%N then [c]
  else if (c <? 2048)%N then [192 + c / 64; 128 + c mod 64]%N
  else if (c <? 65536)%N then [224 + c / 4096; 128 + (c / 64) mod 64; 128 + c mod 64]%N
  else [240 + c / 262144; 128 + (c / 4096) mod 64; 128 + (c / 64) mod 64; 128 + c mod 64]%N.
Definition encode_all (l : list N) : list N := List.concat (List.map encode l).

(** [char::len_utf8]. *)
Definition len_utf8 (c : N) : nat :=
  if (c <? 128)%N then 1 else if (c <? 2048)%N then 2 else if (c <? 65536)%N then 3 else 4.

(** [Chars::next] ([core::str::validations::next_code_point]), the bit operations written arithmetically; it reads the
    continuation bytes without checks, past the end is undefined behaviour. *)
Definition chars_next (s : list N) : outcome (option N * list N) :=
  match s with
  | [] => Done (None, s)
  | x :: s1 =>
      if (x <? 128)%N then Done (Some x, s1)
      else match s1 with
      | [] => Panic
      | y :: s2 =>
          let ini := (x mod 32)%N in
          if (x <? 224)%N then Done (Some (ini * 64 + y mod 64)%N, s2)
          else match s2 with
          | [] => Panic
          | z :: s3 =>
              let yz := ((y mod 64) * 64 + z mod 64)%N in
              if (x <? 240)%N then Done (Some (ini * 4096 + yz)%N, s3)
              else match s3 with
              | [] => Panic
              | w :: s4 => Done (Some ((ini mod 8) * 262144 + (yz * 64 + w mod 64))%N, s4)
              end
          end
      end
  end.

(** stream/mod.rs:488-497 [uncons]. *)
Definition str_uncons (s : list N) : outcome ((N + serr) * list N) :=
  omap (fun y => match y with (Some c, r) => (inl c, r) | (None, _) => (inr SeEoi, s) end) (chars_next s).

(** [str::is_char_boundary] of the standard library, used by [str::split_at]. *)
Definition std_boundary (s : list N) (n : nat) : bool :=
  (n =? 0) || (match nth_error s n with None => n =? length s | Some b => ((b <? 128) || (192 <=? b))%N end).
Definition str_split_at (s : list N) (n : nat) : outcome (list N * list N) :=
  if std_boundary s n then Done (firstn n s, skipn n s) else Panic.

(** stream/mod.rs:572-580 [is_char_boundary]. *)
Definition is_char_boundary (s : list N) (index : nat) : bool :=
  if index =? length s then true
  else match nth_error s index with
       | None => false
       | Some b => negb ((128 <=? b) && (b <=? 192))%N
       end.

(** stream/mod.rs:571-592 [uncons_range]. *)
Definition str_uncons_range (size : nat) (s : list N) : outcome ((list N + serr) * list N) :=
  if size <=? length s then
    if is_char_boundary s size then omap (fun y => (inl (fst y), snd y)) (str_split_at s size)
    else Done (inr SeBoundary, s)
  else Done (inr SeEoi, s).

Section StrWhile.
Context {X : Type}.
Variable f : fnmut X N.

(** stream/mod.rs:514-526 [test_next!]: [Some last_char_size] if the loop is left. *)
Definition test_next (chars : list N) (x : X) : outcome (option nat * list N * X) :=
  omap (fun y => match y with
    | (Some c, r) => let (b, x') := f x c in (if b then None else Some (len_utf8 c), r, x')
    | (None, r) => (Some 0, r, x)
    end) (chars_next chars).

Fixpoint test_nexts (n : nat) (chars : list N) (x : X) : outcome (option nat * list N * X) :=
  match n with
  | 0 => Done (None, chars, x)
  | S n' => obind (test_next chars x) (fun y => match y with
            | (Some k, r, x') => Done (Some k, r, x')
            | (None, r, x') => test_nexts n' r x'
            end)
  end.

(** stream/mod.rs:527-536 [loop { test_next!() * 8 }]. *)
Fixpoint str_loop (fl : nat) (chars : list N) (x : X) : outcome (nat * list N * X) :=
  match fl with
  | 0 => OOF
  | S fl' => obind (test_nexts 8 chars x) (fun y => match y with
             | (Some k, r, x') => Done (k, r, x')
             | (None, r, x') => str_loop fl' r x'
             end)
  end.

(** stream/mod.rs:508-542 [str_uncons_while]; the subtractions are on [usize]. *)
Definition str_scan (slice chars : list N) (x : X) : outcome (list N * list N * X) :=
  obind (str_loop (S (length chars)) chars x) (fun y => match y with (last_char_size, r, x') =>
    if length slice <? length r + last_char_size then Panic
    else omap (fun w => (w, x')) (str_split_at slice (length slice - length r - last_char_size)) end).

(** stream/mod.rs:545-550 [uncons_while]. *)
Definition str_uncons_while (s : list N) (x : X) : outcome ((list N + serr) * list N * X) :=
  omap (fun y => match y with (a, b, x') => (inl a, b, x') end) (str_scan s s x).

(** stream/mod.rs:553-568 [uncons_while1]. *)
Definition str_uncons_while1 (s : list N) (x : X) : outcome ((list N + serr) * list N * X) :=
  obind (chars_next s) (fun y => match y with
  | (Some c, r) =>
      let (b, x') := f x c in
      if b then omap (fun z => match z with (a, b, x2) => (inl a, b, x2) end) (str_scan s r x')
      else Done (inr SeUnexpected, s, x')
  | (None, _) => Done (inr SeEoi, s, x)
  end).
End StrWhile.

(** * [position::Stream] over either (stream/position.rs) *)

(** The operations of the inner stream.  [R] is the range type. *)
Record stream_ops (S T R : Type) : Type := MkOps {
  so_uncons : S -> outcome ((T + serr) * S);
  so_range : nat -> S -> outcome ((R + serr) * S);
  so_while : forall X, fnmut X T -> S -> X -> outcome ((R + serr) * S * X);
  so_while1 : forall X, fnmut X T -> S -> X -> outcome ((R + serr) * S * X)
}.
(** [&[T]] and [&str]. *)
Definition slice_ops (debug : bool) (T : Type) : stream_ops (list T) T (list T) :=
  MkOps (fun s => Done (sl_uncons s)) (@sl_uncons_range T) (fun X f => sl_uncons_while debug f) (fun X f => sl_uncons_while1 debug f).
Definition str_ops : stream_ops (list N) N (list N) :=
  MkOps str_uncons str_uncons_range (fun X f => str_uncons_while f) (fun X f => str_uncons_while1 f).

(** stream/position.rs:14-33 [Positioner], [RangePositioner]: checkpoints are copies. *)
Record positioner (P T R : Type) : Type := MkPosr { po_update : P -> T -> P; po_range : P -> R -> P }.

(** stream/position.rs:200-226, 238-246 [IndexPositioner]; [len] is [Range::len]. *)
Definition index_positioner {T R} (len : R -> nat) : positioner nat T R :=
  MkPosr (fun p _ => p + 1) (fun p r => p + len r).

(** stream/position.rs:275-339 [SourcePosition]; [i32] fields as unbounded numbers. *)
Record src_pos : Type := SrcPos { line : N; column : N }.
(** stream/position.rs:257-261. *)
Definition src_default : src_pos := SrcPos 1 1.
Definition src_update (p : src_pos) (c : N) : src_pos :=
  let p1 := SrcPos (line p) (column p + 1) in
  if (c =? 10)%N then SrcPos (line p1 + 1) 1 else p1.
(** stream/position.rs:333-339 [update_range]: [for c in range.chars()]; iterating over invalid bytes never happens and
    stops the loop here. *)
Fixpoint src_update_bytes (fl : nat) (p : src_pos) (s : list N) : src_pos :=
  match fl with
  | 0 => p
  | S fl' => match chars_next s with Done (Some c, r) => src_update_bytes fl' (src_update p c) r | _ => p end
  end.
Definition source_positioner : positioner src_pos N (list N) :=
  MkPosr src_update (fun p r => src_update_bytes (length r) p r).

Section PStream.
Context {S T R P : Type}.
Variable ops : stream_ops S T R.
Variable posr : positioner P T R.

(** stream/position.rs:84-90. *)
Definition pstream : Type := (S * P)%type.

(** stream/position.rs:142-147. *)
Definition ps_uncons (s : pstream) : outcome ((T + serr) * pstream) :=
  omap (fun y => match y with
    | (inl c, s') => (inl c, (s', po_update posr (snd s) c))
    | (inr e, s') => (inr e, (s', snd s))
    end) (so_uncons ops (fst s)).

(** stream/position.rs:351-356. *)
Definition ps_range (n : nat) (s : pstream) : outcome ((R + serr) * pstream) :=
  omap (fun y => match y with
    | (inl r, s') => (inl r, (s', po_range posr (snd s) r))
    | (inr e, s') => (inr e, (s', snd s))
    end) (so_range ops n (fst s)).

(** stream/position.rs:359-372, 375-391: the closure updates the positioner on every accepted token. *)
Definition ps_closure {X} (f : fnmut X T) : fnmut (X * P) T :=
  fun xp t => let (b, x') := f (fst xp) t in if b then (true, (x', po_update posr (snd xp) t)) else (false, (x', snd xp)).
Definition ps_while {X} (f : fnmut X T) (s : pstream) (x : X) : outcome ((R + serr) * pstream * X) :=
  omap (fun y => match y with (r, s', (x', p')) => (r, (s', p'), x') end) (so_while ops (ps_closure f) (fst s) (x, snd s)).
Definition ps_while1 {X} (f : fnmut X T) (s : pstream) (x : X) : outcome ((R + serr) * pstream * X) :=
  omap (fun y => match y with (r, s', (x', p')) => (r, (s', p'), x') end) (so_while1 ops (ps_closure f) (fst s) (x, snd s)).

(** A history of calls on one stream: consumption, [checkpoint] (remembered in a list) and [reset] to the [k]-th
    remembered checkpoint (stream/position.rs:411-422, 443-460; nothing happens if there is none).  The predicates are
    stateless; results are forgotten. *)
Inductive call : Type := CUncons | CRange (n : nat) | CWhile (f : T -> bool) | CWhile1 (f : T -> bool) | CCheckpoint | CReset (k : nat).
Definition stateless (f : T -> bool) : fnmut unit T := fun x t => (f t, x).
Definition do_call (c : call) (s : pstream) (cps : list pstream) : outcome (pstream * list pstream) :=
  match c with
  | CUncons => omap (fun y => (snd y, cps)) (ps_uncons s)
  | CRange n => omap (fun y => (snd y, cps)) (ps_range n s)
  | CWhile f => omap (fun y => match y with (_, s', _) => (s', cps) end) (ps_while (stateless f) s tt)
  | CWhile1 f => omap (fun y => match y with (_, s', _) => (s', cps) end) (ps_while1 (stateless f) s tt)
  | CCheckpoint => Done (s, s :: cps)
  | CReset k => Done (match nth_error cps k with Some s' => s' | None => s end, cps)
  end.
Fixpoint do_calls (cs : list call) (s : pstream) (cps : list pstream) : outcome (pstream * list pstream) :=
  match cs with
  | [] => Done (s, cps)
  | c :: r => obind (do_call c s cps) (fun y => do_calls r (fst y) (snd y))
  end.
End PStream.
Arguments CUncons {T}. Arguments CRange {T}. Arguments CCheckpoint {T}. Arguments CReset {T}.
