(** C01: commitment as an effect. *)
From Coq Require Import List Bool.
Import ListNotations.
From Verif Require Import Base Spec.
Set Implicit Arguments.

Section Results.
Variables (A B D E : Type).

Lemma pr_and_then_assoc : forall (r : PR A E) (f : A -> PR B E) (g : B -> PR D E),
  pr_and_then (pr_and_then r f) g = pr_and_then r (fun x => pr_and_then (f x) g).
Proof. intros [a|a|e|e] f g; simpl; auto. destruct (f a) as [b|b|e|e]; simpl; auto. destruct (g b); auto. Qed.

Lemma pr_and_then_left_unit : forall (a : A) (f : A -> PR B E), pr_and_then (PeekOk a) f = f a.
Proof. reflexivity. Qed.

Lemma pr_and_then_right_unit : forall (r : PR A E), pr_and_then r PeekOk = r.
Proof. intros [a|a|e|e]; reflexivity. Qed.

Lemma commit_merge_assoc : forall (a b c : commit A),
  commit_merge (commit_merge a b) c = commit_merge a (commit_merge b c).
Proof. intros [a|a] [b|b] [c|c]; reflexivity. Qed.

(** The commit view of a success. *)
Definition of_commit (c : commit A) : PR A E := match c with Commit a => CommitOk a | Peek a => PeekOk a end.

Lemma combine_commit_and_then : forall (c : commit A) (f : A -> PR B E),
  combine_commit c f = pr_and_then (of_commit c) f.
Proof. intros [a|a] f; simpl; auto. Qed.

Lemma combine_and_then : forall (c : commit A) (f : A -> std_result B E),
  from_std (commit_combine c f) = pr_and_then (of_commit c) (fun a => from_std (f a)).
Proof.
  intros [a|a] f; simpl; auto.
  destruct (f a) as [[v [[]|[]]]|[e|e]]; reflexivity.
Qed.

Lemma from_into_std : forall (r : PR A E), from_std (into_std r) = r.
Proof. intros [a|a|e|[e o]]; reflexivity. Qed.
End Results.

(** A chain of steps on one type, run with [and_then]; and the results of the steps it executes, in order. *)
Section Chain.
Variables (A E : Type).
Fixpoint chain (fs : list (A -> PR A E)) (r : PR A E) : PR A E :=
  match fs with [] => r | f :: fs' => chain fs' (pr_and_then r f) end.

Inductive executed : list (A -> PR A E) -> A -> list (PR A E) -> Prop :=
| ex_nil : forall a, executed [] a []
| ex_ok : forall f fs a b rs, value_of (f a) = Some b -> executed fs b rs -> executed (f :: fs) a (f a :: rs)
| ex_err : forall f fs a, is_ok (f a) = false -> executed (f :: fs) a [f a].

Lemma chain_err : forall fs (r : PR A E), is_ok r = false -> chain fs r = r.
Proof. induction fs; intros [x|x|e|e] H; simpl in *; try discriminate; auto. Qed.

Lemma last_default : forall {X} (l : list X) x d d', last (x :: l) d = last (x :: l) d'.
Proof. induction l as [|y l IH]; intros; simpl in *; auto. Qed.

Lemma chain_spec_gen : forall fs a rs, executed fs a rs ->
  forall r, value_of r = Some a ->
  committed (chain fs r) = committed r || existsb committed rs /\
  value_of (chain fs r) = value_of (last rs r) /\ error_of (chain fs r) = error_of (last rs r).
Proof.
  induction 1; intros r Hr.
  - simpl. rewrite orb_false_r. auto.
  - assert (Hv : value_of (pr_and_then r f) = Some b /\ committed (pr_and_then r f) = committed r || committed (f a)).
    { destruct r as [x|x|e|e]; simpl in *; try discriminate; inversion Hr; subst;
        destruct (f a) as [y|y|e|e]; simpl in *; try discriminate; auto. }
    destruct Hv as [Hv Hc]. simpl chain. destruct (IHexecuted _ Hv) as [I1 [I2 I3]].
    rewrite I1, I2, I3, Hc. simpl existsb. rewrite orb_assoc. split; auto.
    destruct rs as [|r0 rs']; [|change (last (f a :: r0 :: rs') r) with (last (r0 :: rs') r);
      rewrite (last_default rs' r0 (pr_and_then r f) r); auto].
    simpl.
    split. { rewrite Hv. auto. }
    destruct r; simpl in *; try discriminate; inversion Hr; subst; destruct (f a); auto.
  - simpl. assert (He : is_ok (pr_and_then r f) = false /\ committed (pr_and_then r f) = committed r || committed (f a)
      /\ value_of (pr_and_then r f) = value_of (f a) /\ error_of (pr_and_then r f) = error_of (f a)).
    { destruct r as [x|x|e|e]; simpl in *; try discriminate; inversion Hr; subst;
        destruct (f a) as [y|y|e|e]; simpl in *; try discriminate; auto. }
    destruct He as [H1 [H2 [H3 H4]]]. rewrite chain_err by auto. rewrite orb_false_r. auto.
Qed.

(** The chain started from an uncommitted value. *)
Lemma chain_spec : forall fs a rs, executed fs a rs ->
  committed (chain fs (PeekOk a)) = existsb committed rs /\
  value_of (chain fs (PeekOk a)) = value_of (last rs (PeekOk a)) /\
  error_of (chain fs (PeekOk a)) = error_of (last rs (PeekOk a)).
Proof. intros fs a rs H. exact (chain_spec_gen H (PeekOk a) eq_refl). Qed.
End Chain.

Lemma executed_example : executed
  [fun n => CommitOk (S n); fun n => PeekOk (n + n); fun _ => PeekErr (to_trk false); fun n => CommitOk n] 3
  [CommitOk 4; PeekOk 8; PeekErr (to_trk false)].
Proof.
  eapply (@ex_ok nat bool (fun n => CommitOk (S n))); [reflexivity|].
  eapply (@ex_ok nat bool (fun n => PeekOk (n + n))); [reflexivity|].
  apply (@ex_err nat bool (fun _ => PeekErr (to_trk false))). reflexivity.
Qed.
