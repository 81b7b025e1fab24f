(** The stream wrappers ([&mut S], [PartialStream], [CompleteStream], [MaybePartialStream], [state::Stream],
    [easy::Stream], [span::Stream], [position::Stream]) at the level of the stream traits. *)
From Coq Require Import String List Bool Arith NArith.
Import ListNotations.
From Verif Require Import Base StreamM.
Set Implicit Arguments.

(** stream/mod.rs:115-241 the traits [StreamOnce], [Positioned], [ResetStream], [RangeStreamOnce]: [S] is the stream,
    [T]/[R]/[P] tokens, ranges and positions, [K] checkpoints, [SE]/[PE] stream errors and parse errors.  Methods
    returning a reference into the stream return the value. *)
Record strm (S T R P K SE PE : Type) : Type := MkStrm {
  w_uncons : S -> outcome ((T + SE) * S);
  w_partial : S -> bool;
  w_position : S -> P;
  w_checkpoint : S -> K;
  w_reset : S -> K -> (unit + PE) * S;
  w_range : nat -> S -> outcome ((R + SE) * S);
  w_while : forall X, fnmut X T -> S -> X -> outcome ((R + SE) * S * X);
  w_while1 : forall X, fnmut X T -> S -> X -> outcome (PR R SE * S * X);
  w_distance : S -> K -> outcome nat;
  w_whole : S -> R
}.

(** stream/mod.rs:481-603 [&str], 672-752 [&[T]] and 1030-1180 [SliceStream]: a pointer and the elements from there on.
    [size] is [size_of::<T>()], by which the pointer moves per element.  Errors are those of [StreamM.v]. *)
Definition ptr_move (size : N) {T} (s : N * list T) (r : list T) : N * list T := ((fst s + size * N.of_nat (length (snd s) - length r))%N, r).
Definition one_to_pr {R} (x : R + serr) : PR R serr :=
  match x with inl r => CommitOk r | inr e => PeekErr (to_trk e) end.
(** The elements are moved over, the pointer with them. *)
Definition ptr_strm (size : N) {T R : Type} {U : Type} (uncons1 : list T -> outcome ((U + serr) * list T))
    (while_ while1_ : forall X, fnmut X U -> list T -> X -> outcome ((R + serr) * list T * X))
    (range_ : nat -> list T -> outcome ((R + serr) * list T)) (dist : N * list T -> N * list T -> outcome nat) (whole : list T -> R)
  : strm (N * list T) U R N (N * list T) serr serr :=
  MkStrm
    (fun s => omap (fun y => (fst y, ptr_move size s (snd y))) (uncons1 (snd s)))
    (fun _ => false)
    (fun s => fst s)
    (fun s => s)
    (fun _ k => (inl tt, k))
    (fun n s => omap (fun y => (fst y, ptr_move size s (snd y))) (range_ n (snd s)))
    (fun X f s x => omap (fun y => match y with (r, s', x') => (r, ptr_move size s s', x') end) (while_ X f (snd s) x))
    (fun X f s x => omap (fun y => match y with (r, s', x') => (one_to_pr r, ptr_move size s s', x') end) (while1_ X f (snd s) x))
    dist
    (fun s => whole (snd s)).
(** [&[T]]: [distance] by lengths (714-716). *)
Definition slice_strm (debug : bool) (size : N) (T : Type) : strm (N * list T) T (list T) N (N * list T) serr serr :=
  ptr_strm size (fun s => Done (sl_uncons s)) (fun X f => sl_uncons_while debug f) (fun X f => sl_uncons_while1 debug f)
    (@sl_uncons_range T) (fun s k => sl_distance (snd s) (snd k)) (fun l => l).
(** [&str]: the elements are the bytes, the tokens the characters; [distance] by pointers (595-597). *)
Definition str_strm : strm (N * list N) N (list N) N (N * list N) serr serr :=
  ptr_strm 1 str_uncons (fun X f => str_uncons_while f) (fun X f => str_uncons_while1 f)
    str_uncons_range (fun s k => if (fst k <=? fst s)%N then Done (N.to_nat (fst s - fst k)) else Panic) (fun l => l).

(** stream/mod.rs:1289-1295 [PointerOffset::translate_position]; a [usize] subtraction. *)
Definition translate_position (p base : N) : outcome N := if (base <=? p)%N then Done (p - base)%N else Panic.

Section Wrappers.
Context {S T R P K SE PE : Type}.
Variable I : strm S T R P K SE PE.

(** stream/mod.rs:393-470 [impl for &mut I]: everything is forwarded; the referent is the state. *)
Definition mut_strm : strm S T R P K SE PE := I.

(** stream/mod.rs:754-844 [PartialStream], 846-942 [CompleteStream], 944-1027 [MaybePartialStream]: only [is_partial]
    differs. *)
Definition set_partial (b : bool) : strm S T R P K SE PE :=
  MkStrm (w_uncons I) (fun _ => b) (w_position I) (w_checkpoint I) (w_reset I) (w_range I) (@w_while _ _ _ _ _ _ _ I)
    (@w_while1 _ _ _ _ _ _ _ I) (w_distance I) (w_whole I).
Definition partial_strm := set_partial true.
Definition complete_strm := set_partial false.
Definition maybe_strm : strm (S * bool) T R P K SE PE :=
  MkStrm (fun s => omap (fun y => (fst y, (snd y, snd s))) (w_uncons I (fst s))) (fun s => snd s) (fun s => w_position I (fst s))
    (fun s => w_checkpoint I (fst s)) (fun s k => let (r, s') := w_reset I (fst s) k in (r, (s', snd s)))
    (fun n s => omap (fun y => (fst y, (snd y, snd s))) (w_range I n (fst s)))
    (fun X f s x => omap (fun y => match y with (r, s', x') => (r, (s', snd s), x') end) (w_while I f (fst s) x))
    (fun X f s x => omap (fun y => match y with (r, s', x') => (r, (s', snd s), x') end) (w_while1 I f (fst s) x))
    (fun s k => w_distance I (fst s) k) (fun s => w_whole I (fst s)).

(** stream/state.rs:6-92 [state::Stream]: a user state beside the stream; checkpoints do not contain it. *)
Definition state_strm (U : Type) : strm (S * U) T R P K SE PE :=
  MkStrm (fun s => omap (fun y => (fst y, (snd y, snd s))) (w_uncons I (fst s))) (fun s => w_partial I (fst s)) (fun s => w_position I (fst s))
    (fun s => w_checkpoint I (fst s)) (fun s k => let (r, s') := w_reset I (fst s) k in (r, (s', snd s)))
    (fun n s => omap (fun y => (fst y, (snd y, snd s))) (w_range I n (fst s)))
    (fun X f s x => omap (fun y => match y with (r, s', x') => (r, (s', snd s), x') end) (w_while I f (fst s) x))
    (fun X f s x => omap (fun y => match y with (r, s', x') => (r, (s', snd s), x') end) (w_while1 I f (fst s) x))
    (fun s k => w_distance I (fst s) k) (fun s => w_whole I (fst s)).

Definition sum_map {A B B2} (f : B -> B2) (x : A + B) : A + B2 := match x with inl a => inl a | inr b => inr (f b) end.

(** stream/easy.rs:806-897 [easy::Stream] and stream/span.rs:38-157 [span::Stream]: errors are converted ([into_other]),
    and [span::Stream] turns a position into the span starting and ending there. *)
Definition conv_strm {P2 SE2 PE2 : Type} (fp : P -> P2) (fs : SE -> SE2) (fe : PE -> PE2) : strm S T R P2 K SE2 PE2 :=
  MkStrm (fun s => omap (fun y => (sum_map fs (fst y), snd y)) (w_uncons I s)) (w_partial I) (fun s => fp (w_position I s))
    (w_checkpoint I) (fun s k => let (r, s') := w_reset I s k in (sum_map fe r, s'))
    (fun n s => omap (fun y => (sum_map fs (fst y), snd y)) (w_range I n s))
    (fun X f s x => omap (fun y => match y with (r, s', x') => (sum_map fs r, s', x') end) (w_while I f s x))
    (fun X f s x => omap (fun y => match y with (r, s', x') => (pr_map_err fs r, s', x') end) (w_while1 I f s x))
    (w_distance I) (w_whole I).
Definition easy_strm {SE2 PE2 : Type} (fs : SE -> SE2) (fe : PE -> PE2) : strm S T R P K SE2 PE2 := conv_strm (fun p => p) fs fe.
(** stream/span.rs:9-27 [Span], [Span::from]. *)
Record span (Q : Type) : Type := MkSpan { sp_start : Q; sp_end : Q }.
Definition span_from {Q} (p : Q) : span Q := MkSpan p p.
Definition span_strm {SE2 PE2 : Type} (fs : SE -> SE2) (fe : PE -> PE2) : strm S T R (span P) K SE2 PE2 := conv_strm (@span_from P) fs fe.

(** stream/position.rs:100-152, 341-425 [position::Stream]: the positioner is updated on every consumed token or range;
    checkpoints hold both. *)
Definition pos_strm {Q : Type} (posr : positioner Q T R) : strm (S * Q) T R Q (K * Q) SE PE :=
  MkStrm
    (fun s => omap (fun y => match y with (inl c, s') => (inl c, (s', po_update posr (snd s) c)) | (inr e, s') => (inr e, (s', snd s)) end)
       (w_uncons I (fst s)))
    (fun s => w_partial I (fst s))
    (fun s => snd s)
    (fun s => (w_checkpoint I (fst s), snd s))
    (fun s k => match w_reset I (fst s) (fst k) with (inl _, s') => (inl tt, (s', snd k)) | (inr e, s') => (inr e, (s', snd s)) end)
    (fun n s => omap (fun y => match y with (inl r, s') => (inl r, (s', po_range posr (snd s) r)) | (inr e, s') => (inr e, (s', snd s)) end)
       (w_range I n (fst s)))
    (fun X f s x => omap (fun y => match y with (r, s', (x', p')) => (r, (s', p'), x') end) (w_while I (ps_closure posr f) (fst s) (x, snd s)))
    (fun X f s x => omap (fun y => match y with (r, s', (x', p')) => (r, (s', p'), x') end) (w_while1 I (ps_closure posr f) (fst s) (x, snd s)))
    (fun s k => w_distance I (fst s) (fst k))
    (fun s => w_whole I (fst s)).
End Wrappers.
