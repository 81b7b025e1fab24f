(** A decoder on one text, for every cut of it: the finitely many situations it can be in are closed under reading. *)
From Coq Require Import String List Bool Arith NArith Lia.
Import ListNotations.
From Verif Require Import Base Errors Parser Combinator FramedM.
Unset Implicit Arguments.

Section Fin.
Context {C : Cfg} {S A : Type} (p : parser C S A).
Notation T := (tok C).
(** A situation: the decoder, what is not read yet, and the values still to come. *)
Notation sit := (fdec (C:=C) S * list T * list A)%type.
Variable sit_eq : forall a b : sit, {a = b} + {a <> b}.
Variable val_eq : forall a b : A, {a = b} + {a <> b}.

Fixpoint splits (l : list T) : list (list T * list T) :=
  ([], l) :: match l with [] => [] | t :: l' => List.map (fun x => (t :: fst x, snd x)) (splits l') end.
Lemma splits_in : forall a b, In (a, b) (splits (a ++ b)).
Proof.
  induction a as [|t a IH]; intros b; [destruct b; left; reflexivity|]. right. apply in_map_iff. exists (a, b). split; [reflexivity|apply IH].
Qed.

Definition mem (x : sit) (K : list sit) : bool := existsb (fun y => if sit_eq x y then true else false) K.
Lemma mem_in : forall x K, mem x K = true -> In x K.
Proof. intros x K H. apply existsb_exists in H. destruct H as [y [H1 H2]]. destruct (sit_eq x y); [subst; exact H1|discriminate]. Qed.

(** What may come next, or [None] when the decoder goes wrong. *)
Definition nexts (x : sit) : option (list sit) :=
  match x with (d, rem, vs) =>
    match decode_stream p false d with
    | Done (inl (Some v), d') => match vs with w :: vs' => if val_eq v w then Some [(d', rem, vs')] else None | [] => None end
    | Done (inl None, d') => Some (List.map (fun s => (fd_add (fst s) d', snd s, vs)) (splits rem))
    | _ => None
    end end.
(** At the end nothing more comes. *)
Definition ends (x : sit) : bool :=
  match x with (d, rem, vs) =>
    match rem, decode_stream p false d with
    | [], Done (inl None, d') =>
        match vs, decode_stream p true d' with [], Done (inl None, _) => true | _, _ => false end
    | _, _ => true
    end end.
Fixpoint explore (n : nat) (todo seen : list sit) : list sit :=
  match n, todo with
  | Datatypes.S n, x :: todo => if mem x seen then explore n todo seen else explore n (match nexts x with Some l => l | None => [] end ++ todo) (x :: seen)
  | _, _ => seen
  end.
Definition closed (K : list sit) : bool := forallb (fun x => match nexts x with Some l => forallb (fun y => mem y K) l | None => false end && ends x) K.

Lemma closed_items : forall K, closed K = true -> forall m cs d vs, In (d, concat cs, vs) K -> length vs + length cs + 1 < m -> framed_items m p false d cs = Done (inl vs).
Proof.
  intros K HK. induction m as [|m IH]; intros cs d vs Hi Hm; [lia|].
  unfold closed in HK. rewrite forallb_forall in HK. pose proof (HK _ Hi) as H. apply andb_true_iff in H. destruct H as [H1 H2].
  cbn [nexts ends] in H1, H2. cbn [framed_items].
  destruct (decode_stream p false d) as [[[[v|]|e] d']| |] eqn:Q; try discriminate H1; cbn [obind].
  - destruct vs as [|w vs]; [discriminate|]. destruct (val_eq v w) as [->|]; [|discriminate].
    cbn [forallb] in H1. rewrite andb_true_r in H1. apply mem_in in H1. rewrite (IH cs d' vs H1) by (cbn [length] in Hm; lia). reflexivity.
  - destruct cs as [|c cs].
    + cbn [concat] in H2. destruct vs as [|w vs]; [|discriminate H2]. destruct (decode_stream p true d') as [[[[v|]|e] d'']| |] eqn:Q2; try discriminate H2.
      destruct m as [|m]; [cbn in Hm; lia|]. cbn [framed_items]. rewrite Q2. reflexivity.
    + rewrite forallb_forall in H1. apply IH; [|cbn [length] in Hm; lia]. apply mem_in. apply H1.
      apply in_map_iff. exists (c, concat cs). split; [reflexivity|]. apply splits_in.
Qed.
End Fin.

Definition starts {C : Cfg} {S A} (pos : Pos C) (text : list (tok C)) (vs : list A) :=
  List.map (fun s => (Fd (C:=C) (@None S) (fst s) pos, snd s, vs)) (splits text).
(** The check that is computed: all starts are among the situations found, and these are closed. *)
Definition all_cuts {C : Cfg} {S A} (p : parser C S A) se ve (n : nat) (pos : Pos C) (text : list (tok C)) (vs : list A) : bool :=
  let s := starts pos text vs in let K := explore (any_partial_state p) se ve n s [] in
  closed (any_partial_state p) se ve K && forallb (fun x => mem se x K) s.
Lemma closed_runs : forall (C : Cfg) S A (p : parser C S A) se ve n pos text vs, text <> [] -> all_cuts p se ve n pos text vs = true ->
  forall cs m, concat cs = text -> length vs + length cs < m -> run_decoder m p pos cs = Done (inl vs).
Proof.
  intros C S A p se ve n pos text vs Ht HA cs m Hc Hm. destruct cs as [|c cs]; [cbn in Hc; congruence|]. unfold run_decoder.
  unfold all_cuts in HA. cbv zeta in HA. apply andb_true_iff in HA. destruct HA as [HK HS].
  eapply closed_items; [exact HK| |cbn [length] in Hm; lia]. apply mem_in with (sit_eq := se). rewrite forallb_forall in HS. apply HS.
  apply in_map_iff. exists (c, concat cs). split; [reflexivity|]. rewrite <- Hc. apply splits_in.
Qed.
