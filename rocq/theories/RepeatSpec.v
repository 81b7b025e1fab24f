(** Vocabulary for repetition: consecutive successes of an "item". *)
From Coq Require Import String List Bool Arith NArith.
Import ListNotations.
From Verif Require Import Base Parser Spec.
Set Implicit Arguments.

Section RepeatSpec.
Context {C : Cfg}.
Notation T := (tok C).
Notation E := (Err C).
Notation beh := (@Spec.beh C).

(** [reps ok i c l i']: items [l], one after the other from [i] to [i']; [c] tells if one of them was committed. *)
Inductive reps {A} (ok : input C -> bool -> A -> input C -> Prop) : input C -> bool -> list A -> input C -> Prop :=
| reps_nil : forall i, reps ok i false [] i
| reps_cons : forall i c a i1 c' l i', ok i c a i1 -> reps ok i1 c' l i' -> reps ok i (c || c') (a :: l) i'.

(** First [bs], then [bp]; the value of the second. *)
Definition pair_ok {A B} (bs : beh B) (bp : beh A) (i : input C) (c : bool) (a : A) (i' : input C) : Prop :=
  exists c1 x i1 c2, succeeds bs i c1 x i1 /\ succeeds bp i1 c2 a i' /\ c = c1 || c2.
(** ... both values. *)
Definition pair_ok2 {A B} (bs : beh B) (bp : beh A) (i : input C) (c : bool) (xa : B * A) (i' : input C) : Prop :=
  exists c1 i1 c2, succeeds bs i c1 (fst xa) i1 /\ succeeds bp i1 c2 (snd xa) i' /\ c = c1 || c2.
Definition pair_fails {A B} (bs : beh B) (bp : beh A) (i : input C) (c : bool) : Prop :=
  fails bs i c \/ exists c1 x i1 c2, succeeds bs i c1 x i1 /\ fails bp i1 c2 /\ c = c1 || c2.

(** The end parser does not match, the item does. *)
Definition item_ok {A B} (be : beh B) (bp : beh A) (i : input C) (c : bool) (a : A) (i' : input C) : Prop :=
  fails be i false /\ succeeds bp i c a i'.

(** One token is passed because the end parser does not match before it. *)
Definition passed {B} (be : beh B) (i : input C) (c : bool) (t : T) (i' : input C) : Prop :=
  c = true /\ fails be i false /\ advanced_by i [t] i'.

(** One step of an escaped text: a piece of normal text, or (where that does not match) the escape token and what it
    escapes. *)
Definition escaped_step {A B} (bp : beh A) (esc : T) (bq : beh B) (i : input C) (c : bool) (u : unit) (i' : input C) : Prop :=
  (exists a, succeeds bp i c a i') \/
  (exists i1 x, fails bp i false /\ advanced_by i [esc] i1 /\ succeeds bq i1 c x i').

(** The behaviours of a list of parsers, run one after the other. *)
Inductive runs_all {A} : list (beh A) -> input C -> bool -> list A -> input C -> Prop :=
| ra_nil : forall i, runs_all [] i false [] i
| ra_cons : forall b bs i c a i1 c' l i', succeeds b i c a i1 -> runs_all bs i1 c' l i' -> runs_all (b :: bs) i (c || c') (a :: l) i'.

(** Right associated reading of an operator chain, as [chainr1] does it: [chr i c v i'] operand and what follows,
    [cht l c0 i c v i'] what follows the operand [l]. *)
Inductive chr {A} (bp : beh A) (bo : beh (A -> A -> A)) : input C -> bool -> A -> input C -> Prop :=
| chr_operand : forall i c1 a i1 c v i', succeeds bp i c1 a i1 -> cht bp bo a c1 i1 c v i' -> chr bp bo i c v i'
with cht {A} (bp : beh A) (bo : beh (A -> A -> A)) : A -> bool -> input C -> bool -> A -> input C -> Prop :=
| cht_stop : forall l c i, fails bo i false -> cht bp bo l c i c l i
| cht_drop : forall l c i c1 f i1, succeeds bo i c1 f i1 -> fails bp i1 false -> cht bp bo l c i (c || c1) l i1
| cht_step : forall l c i c1 f i1 c2 v i2 c3 w i3, succeeds bo i c1 f i1 -> chr bp bo i1 c2 v i2 ->
    cht bp bo (f l v) (c || c1 || c2) i2 c3 w i3 -> cht bp bo l c i c3 w i3.

(** [x1 o1 x2 o2 ... xn] read from the right: [x1 o1 (x2 o2 (... xn))]. *)
Fixpoint foldr_chain {A} (x : A) (l : list ((A -> A -> A) * A)) : A :=
  match l with
  | [] => x
  | (f, y) :: l' => f x (foldr_chain y l')
  end.
(** ... and from the left. *)
Definition foldl_chain {A} (x : A) (l : list ((A -> A -> A) * A)) : A :=
  fold_left (fun a fx => fst fx a (snd fx)) l x.

(** Whether started for the first time or in resuming mode, from the default state the parser does the same. *)
Definition starts_alike {S A} (p : parser C S A) : Prop := forall i, p_run p false i (p_init p) = p_run p true i (p_init p).

(** A failure that is backtrackable leaves the input where it was. *)
Definition restores {A} (b : beh A) : Prop := forall i e i', b i = Done (PeekErr e, i') -> i' = i.

(** Successes do not lengthen the input. *)
Definition shrinks {A} (b : beh A) : Prop := forall i r i', b i = Done (r, i') -> is_ok r = true -> length (rest i') <= length (rest i).

(** Never gets stuck or panics. *)
Definition total {A} (b : beh A) : Prop := forall i, exists x, b i = Done x.
End RepeatSpec.
