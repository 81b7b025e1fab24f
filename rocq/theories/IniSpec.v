(** Specification of the INI parser: the texts it reads. *)
From Coq Require Import String List Bool Arith NArith.
Import ListNotations.
From Verif Require Import JsonSpec IniM.
Set Implicit Arguments.

Section IniSpec.
Variable X : Type.
Variable code : X -> N.
Notation is := (is_char code).

Definition in_key (t : X) : Prop := ~ is 61 t /\ ~ is 91 t /\ ~ is 59 t.
Definition in_value (t : X) : Prop := ~ is 10 t /\ ~ is 59 t.
(** White space and comments, up to something else. *)
Inductive gap : list X -> list X -> Prop :=
| gap_end : forall r, stops (fun t => white code t \/ is 59 t) r -> gap [] r
| gap_space : forall t w r, white code t -> gap w r -> gap (t :: w) r
| gap_comment : forall t c w r, is 59 t -> Forall (fun t => ~ is 10 t) c -> stops (fun t => ~ is 10 t) (w ++ r) -> gap w r -> gap (t :: c ++ w) r.
(** Key, [=], value (as much as possible). *)
Definition property_text (w r k v : list X) : Prop :=
  exists e, w = k ++ e :: v /\ k <> [] /\ Forall in_key k /\ is 61 e /\ v <> [] /\ span in_value v r.
(** Properties, until one of [= [ ;] or the end. *)
Inductive properties_text : list X -> list X -> list (list X * list X) -> Prop :=
| pt_end : forall r, stops in_key r -> properties_text [] r []
| pt_more : forall w s u r k v l, property_text w (s ++ u ++ r) k v -> gap s (u ++ r) -> properties_text u r l ->
    properties_text (w ++ s ++ u) r ((k, v) :: l).
Definition section_text (w r name : list X) (l : list (list X * list X)) : Prop :=
  exists a b s u, w = a :: name ++ b :: s ++ u /\ is 91 a /\ Forall (fun t => ~ is 93 t) name /\ is 93 b /\ gap s (u ++ r) /\ properties_text u r l.
Inductive sections_text : list X -> list X -> list (list X * list (list X * list X)) -> Prop :=
| st_end : forall r, stops (is 91) r -> sections_text [] r []
| st_more : forall w u r name l ss, section_text w (u ++ r) name l -> sections_text u r ss -> sections_text (w ++ u) r ((name, l) :: ss).
Definition ini_text (w r : list X) (v : ini_v X) : Prop :=
  exists s u x, w = s ++ u ++ x /\ gap s (u ++ x ++ r) /\ properties_text u (x ++ r) (i_global v) /\ sections_text x r (i_sections v).

(** A file written from such values. *)
Variable lit : N -> X.
Definition write_properties (l : list (list X * list X)) : list X := concat (List.map (fun p => fst p ++ lit 61 :: snd p ++ [lit 10]) l).
Definition write_ini (v : ini_v X) : list X :=
  write_properties (i_global v) ++ concat (List.map (fun s => lit 91 :: fst s ++ lit 93 :: lit 10 :: write_properties (snd s)) (i_sections v)).
(** Keys neither begin with white space nor contain [= [ ;]; values contain neither [;] nor line breaks; neither is empty. *)
Definition writable_property (p : list X * list X) : Prop :=
  fst p <> [] /\ Forall in_key (fst p) /\ stops (white code) (fst p) /\ snd p <> [] /\ Forall in_value (snd p).
Definition writable (v : ini_v X) : Prop :=
  Forall writable_property (i_global v) /\ Forall (fun s => Forall (fun t => ~ is 93 t) (fst s) /\ Forall writable_property (snd s)) (i_sections v).
End IniSpec.
