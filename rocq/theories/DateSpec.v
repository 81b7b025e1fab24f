(** Specification of the date parser: the texts it reads. *)
From Coq Require Import String List Bool Arith NArith ZArith.
Import ListNotations.
From Verif Require Import JsonSpec DateM.
Set Implicit Arguments.

Section DateSpec.
Variable X : Type.
Variable code : X -> N.
Notation is := (is_char code).
Notation num := (decimal_value code).

(** Two digits. *)
Definition two (l : list X) : Prop := length l = 2 /\ Forall (decimal code) l.
(** [Z], or a sign, hours, and perhaps minutes with or without a colon; without minutes no digit and no colon may follow. *)
Inductive zone_text : list X -> list X -> Z -> Prop :=
| zt_utc : forall t r, is 90 t -> zone_text [t] r 0
| zt_hours : forall s h r sg, signed s sg -> two h -> stops (fun t => is 58 t \/ decimal code t) r -> zone_text (s :: h) r (sg * (60 * num h))
| zt_minutes : forall s h c m r sg, signed s sg -> two h -> two m -> (c = [] \/ exists t, c = [t] /\ is 58 t) ->
    zone_text (s :: h ++ c ++ m) r (sg * (60 * num h + num m))
with signed : X -> Z -> Prop :=
| sg_plus : forall s, is 43 s -> signed s 1
| sg_minus : forall s, is 45 s -> signed s (-1).

(** Digits of the year, minus, month, minus, day. *)
Definition date_form (w y m d : list X) : Prop :=
  exists a b, w = y ++ a :: m ++ b :: d /\ Forall (decimal code) y /\ is 45 a /\ two m /\ is 45 b /\ two d.
(** The year as an [i32]. *)
Definition year_ok (y : list X) : Prop := y <> [] /\ (num y < 2 ^ 31)%Z.
Definition date_text (w : list X) (v : date_v) : Prop :=
  exists y m d, date_form w y m d /\ year_ok y /\ v = DateV (num y) (num m) (num d).
Definition time_text (w r : list X) (v : time_v) : Prop :=
  exists h a m b s z zv, w = h ++ a :: m ++ b :: s ++ z /\ two h /\ is 58 a /\ two m /\ is 58 b /\ two s /\ zone_text z r zv /\
    v = TimeV (num h) (num m) (num s) zv.
Definition date_time_text (w r : list X) (v : date_time_v) : Prop :=
  exists wd t wt dv tv, w = wd ++ t :: wt /\ date_text wd dv /\ is 84 t /\ time_text wt r tv /\ v = DateTimeV dv tv.
End DateSpec.
