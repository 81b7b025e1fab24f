(** C54: code using a stream only through the stream traits.  Nothing here models code. *)
From Coq Require Import String List Bool Arith NArith.
Import ListNotations.
From Verif Require Import Base StreamM WrapM.
Set Implicit Arguments.

(** A client of a stream: any program whose only access to the stream are the trait methods.  It may remember
    checkpoints (they go to a list, [Reset] and [Distance] name one by its index) and may choose what to do next by
    every answer it got. *)
Inductive client (T R P SE PE A : Type) : Type :=
| Return (a : A)
| Uncons (k : T + SE -> client T R P SE PE A)
| IsPartial (k : bool -> client T R P SE PE A)
| Position (k : P -> client T R P SE PE A)
| Checkpoint (k : client T R P SE PE A)
| Reset (n : nat) (k : unit + PE -> client T R P SE PE A)
| UnconsRange (n : nat) (k : R + SE -> client T R P SE PE A)
| UnconsWhile (X : Type) (f : fnmut X T) (x : X) (k : R + SE -> X -> client T R P SE PE A)
| UnconsWhile1 (X : Type) (f : fnmut X T) (x : X) (k : PR R SE -> X -> client T R P SE PE A)
| Distance (n : nat) (k : nat -> client T R P SE PE A)
| Whole (k : R -> client T R P SE PE A).

Arguments Return {T R P SE PE A} a.
Arguments Reset {T R P SE PE A} n k.
Arguments UnconsRange {T R P SE PE A} n k.
Arguments Distance {T R P SE PE A} n k.

Section Run.
Context {S T R P K SE PE A : Type}.
Variable I : strm S T R P K SE PE.

(** Running a client.  Naming a checkpoint that does not exist panics. *)
Fixpoint run_client (c : client T R P SE PE A) (s : S) (ks : list K) : outcome (A * S * list K) :=
  match c with
  | Return a => Done (a, s, ks)
  | Uncons k => obind (w_uncons I s) (fun y => run_client (k (fst y)) (snd y) ks)
  | IsPartial k => run_client (k (w_partial I s)) s ks
  | Position k => run_client (k (w_position I s)) s ks
  | Checkpoint k => run_client k s (w_checkpoint I s :: ks)
  | Reset n k => match nth_error ks n with Some c => let (r, s') := w_reset I s c in run_client (k r) s' ks | None => Panic end
  | UnconsRange n k => obind (w_range I n s) (fun y => run_client (k (fst y)) (snd y) ks)
  | UnconsWhile f x k => obind (w_while I f s x) (fun y => match y with (r, s', x') => run_client (k r x') s' ks end)
  | UnconsWhile1 f x k => obind (w_while1 I f s x) (fun y => match y with (r, s', x') => run_client (k r x') s' ks end)
  | Distance n k => match nth_error ks n with Some c => obind (w_distance I s c) (fun d => run_client (k d) s ks) | None => Panic end
  | Whole k => run_client (k (w_whole I s)) s ks
  end.
End Run.

Section Translate.
Context {T R P P2 SE SE2 PE PE2 A : Type}.
Variables (fb : bool -> bool) (fp : P -> P2) (fs : SE -> SE2) (fe : PE -> PE2).
(** The client of the inner stream that sees the answers the wrapper would have given. *)
Fixpoint translate (c : client T R P2 SE2 PE2 A) : client T R P SE PE A :=
  match c with
  | Return a => Return a
  | Uncons k => Uncons (fun r => translate (k (sum_map fs r)))
  | IsPartial k => IsPartial (fun b => translate (k (fb b)))
  | Position k => Position (fun p => translate (k (fp p)))
  | Checkpoint k => Checkpoint (translate k)
  | Reset n k => Reset n (fun r => translate (k (sum_map fe r)))
  | UnconsRange n k => UnconsRange n (fun r => translate (k (sum_map fs r)))
  | UnconsWhile f x k => UnconsWhile f x (fun r x => translate (k (sum_map fs r) x))
  | UnconsWhile1 f x k => UnconsWhile1 f x (fun r x => translate (k (pr_map_err fs r) x))
  | Distance n k => Distance n (fun d => translate (k d))
  | Whole k => Whole (fun r => translate (k r))
  end.
End Translate.

(** Clients that never ask for the position. *)
Inductive position_free {T R P SE PE A : Type} : client T R P SE PE A -> Prop :=
| pf_return : forall a, position_free (Return a)
| pf_uncons : forall k, (forall r, position_free (k r)) -> position_free (Uncons k)
| pf_partial : forall k, (forall r, position_free (k r)) -> position_free (IsPartial k)
| pf_checkpoint : forall k, position_free k -> position_free (Checkpoint k)
| pf_reset : forall n k, (forall r, position_free (k r)) -> position_free (Reset n k)
| pf_range : forall n k, (forall r, position_free (k r)) -> position_free (UnconsRange n k)
| pf_while : forall X (f : fnmut X T) x k, (forall r x, position_free (k r x)) -> position_free (UnconsWhile f x k)
| pf_while1 : forall X (f : fnmut X T) x k, (forall r x, position_free (k r x)) -> position_free (UnconsWhile1 f x k)
| pf_distance : forall n k, (forall r, position_free (k r)) -> position_free (Distance n k)
| pf_whole : forall k, (forall r, position_free (k r)) -> position_free (Whole k).

(** A scan does not look into the state of the closure it calls: two closures that give the same answers, their states
    related by [g], make it do the same. *)
Definition natural {S T R P K SE PE : Type} (I : strm S T R P K SE PE) : Prop :=
  forall X Y (g : Y -> X) (f : fnmut X T) (f' : fnmut Y T),
    (forall y t, (fst (f' y t), g (snd (f' y t))) = f (g y) t) ->
    forall s y,
      omap (fun z => match z with (r, s', y') => (r, s', g y') end) (w_while I f' s y) = w_while I f s (g y) /\
      omap (fun z => match z with (r, s', y') => (r, s', g y') end) (w_while1 I f' s y) = w_while1 I f s (g y).
