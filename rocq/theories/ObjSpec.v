(** C72, C73: what driving an iterator by hand and building parsers on demand should mean.  Nothing here models code. *)
From Coq Require Import String List Bool Arith NArith.
Import ListNotations.
From Verif Require Import Base Parser Combinator Repeat Spec RepeatSpec ObjM.
Set Implicit Arguments.

Section ObjSpec.
Context {C : Cfg}.
Notation T := (tok C).
Notation E := (Err C).

(** [next] called again and again, each time giving an element. *)
Inductive nexts {O S A} (m : machine (C:=C) O S A) : iter (C:=C) O S -> list A -> iter (C:=C) O S -> Prop :=
| nx_nil : forall it, nexts m it [] it
| nx_cons : forall it v it1 vs it2, iter_next m it = Done (Some v, it1) -> nexts m it1 vs it2 -> nexts m it (v :: vs) it2.

(** ... until it gives none. *)
Definition drains {O S A} (m : machine (C:=C) O S A) (it : iter (C:=C) O S) (vs : list A) (it2 : iter (C:=C) O S) : Prop :=
  exists it1, nexts m it vs it1 /\ iter_next m it1 = Done (None, it2).

(** [next] called [n] times, always giving none. *)
Inductive nones {O S A} (m : machine (C:=C) O S A) : nat -> iter (C:=C) O S -> iter (C:=C) O S -> Prop :=
| no_nil : forall it, nones m 0 it it
| no_cons : forall n it it1 it2, iter_next m it = Done (None, it1) -> nones m n it1 it2 -> nones m (Datatypes.S n) it it2.

(** A user collecting the elements of [partial_iter] in chunks: at every call the elements are appended to what was
    collected; the unfinished call ([into_result] fails asking for more data) leaves [kept] in the input, and the next call
    gets this and one more chunk, with the partial state of the call before. *)
Inductive collects {S A} (p : parser C S A) : S -> Pos C -> list T -> list (list T) -> list A -> list T -> Prop :=
| co_end : forall st pos b used vs it2 b2, drains (parser_machine p) (iter_new tt false (Inp b pos true) st) vs it2 ->
    is_ok (into_result it2 tt) = true -> b = used ++ b2 -> it_in it2 = Inp b2 (pos_after pos used) true ->
    collects p st pos b [] vs b2
| co_more : forall st pos b vs it2 e used kept bs cs vs2 b2,
    drains (parser_machine p) (iter_new tt false (Inp b pos true) st) vs it2 ->
    into_result it2 tt = CommitErr e -> e_is_eoi C e = true ->
    b = used ++ kept -> it_in it2 = Inp kept (pos_after pos used) true -> bs <> [] ->
    collects p (it_st it2) (pos_after pos used) (kept ++ bs) cs vs2 b2 ->
    collects p st pos b (bs :: cs) (vs ++ vs2) b2.

(** The items of a repetition whose parser is built anew for every item, by a closure with state [F] looking at the
    input the item starts at (and possibly reading from it). *)
Inductive built {F S A} (f : F -> input C -> parser C S A * input C * F) :
    F -> input C -> bool -> list A -> F -> input C -> Prop :=
| bu_nil : forall s i, built f s i false [] s i
| bu_cons : forall s i q i1 s1 c a i2 c2 l s3 i3, f s i = (q, i1, s1) -> succeeds (fresh q) i1 c a i2 ->
    built f s1 i2 c2 l s3 i3 -> built f s i (c || c2) (a :: l) s3 i3.

(** Successive calls of [parse_with_state] on the inputs [l], with the state each call leaves; the answers. *)
Fixpoint calls {O S A} (m : machine (C:=C) O S A) (o : O) (st : S) (l : list (input C)) : outcome (list ((A + E) * input C)) :=
  match l with
  | [] => Done []
  | i :: l' => obind (m_with_state m o i st) (fun x => match x with (r, i', o', st') => omap (cons (r, i')) (calls m o' st' l') end)
  end.
End ObjSpec.
