(** Property C79: laws for rewriting parsers. *)
From Coq Require Import String List Bool Arith NArith Lia.
Import ListNotations.
From Verif Require Import Base Errors Instances Parser Token Combinator Sequence Choice Repeat RangeP ByteP.
From Verif Require Import Spec LibSpec TidySpec RepeatSpec AgreeProofs TidyProofs EqSpec EqProofs EqProofs2 Properties1 Properties3 Properties4.
Unset Implicit Arguments.

(** Parsers that the laws make equal, under any combinators, behave alike on every complete input. *)
Theorem C79_equal : forall C S1 S2 A (p : parser C S1 A) (q : parser C S2 A), eqn p q ->
  forall i, ipart i = false -> length (rest i) < fuel C ->
  (forall c a i', succeeds (fresh p) i c a i' <-> succeeds (fresh q) i c a i') /\ (forall c, fails (fresh p) i c <-> fails (fresh q) i c).
Proof. intros C S1 S2 A p q H i Hi Hf. apply (eqn_sound _ _ _ _ _ H i (conj Hi Hf)). Qed.
Print Assumptions C79_equal.

(** ... also when called through [parse]. *)
Theorem C79_parse : forall T fl d S1 S2 A (p : parser (cfg_easy T fl d) S1 A) (q : parser (cfg_easy T fl d) S2 A), lib p -> lib q -> eqn p q ->
  forall i v i', ipart i = false -> length (rest i) < fl -> (parse p i = Done (inl v, i') <-> parse q i = Done (inl v, i')).
Proof.
  intros T fl d S1 S2 A p q Hp Hq H i v i' Hi Hf. rewrite (C26_parse_ok _ _ _ _ _ p Hp), (C26_parse_ok _ _ _ _ _ q Hq).
  destruct (C79_equal _ _ _ _ p q H i Hi Hf) as [K _]. split; intros [c R]; exists c; apply K; exact R.
Qed.
Print Assumptions C79_parse.

(** A common beginning can be taken out of any number of alternatives, if all but the last are attempted. *)
Fixpoint c79_before {C : Cfg} {S1 S2 A B} (p : parser C S1 A) (qs : list (parser C S2 B)) (r : parser C S2 B) : {SS : Type & alts (C:=C) B SS} :=
  match qs with
  | [] => existT _ _ (AL (with_ p r))
  | q :: qs => existT _ _ (AC (attempt (with_ p q)) (projT2 (c79_before p qs r)))
  end.
Fixpoint c79_inside {C : Cfg} {S2 B} (qs : list (parser C S2 B)) (r : parser C S2 B) : {SS : Type & alts (C:=C) B SS} :=
  match qs with
  | [] => existT _ _ (AL r)
  | q :: qs => existT _ _ (AC (attempt q) (projT2 (c79_inside qs r)))
  end.
Theorem C79_factor : forall C S1 S2 A B (p : parser C S1 A) (qs : list (parser C S2 B)) r, lib p -> Forall (fun q => lib q) qs ->
  eqn (choice (projT2 (c79_before p qs r))) (with_ p (choice (projT2 (c79_inside qs r)))).
Proof.
  intros C S1 S2 A B p qs r Hp. induction qs as [|q qs IH]; intros Hq; simpl.
  - eapply eq_trans_; [apply eq_choice_one|]. apply eq_in_with; [exact Hp|apply eq_refl_|]. apply eq_sym_. apply eq_choice_one.
  - inversion Hq; subst. eapply eq_trans_; [apply eq_choice_more|].
    eapply eq_trans_; [eapply eq_in_or; [apply eq_refl_|apply IH; assumption]|].
    eapply eq_trans_; [apply eq_factor_left; assumption|]. apply eq_in_with; [exact Hp|apply eq_refl_|]. apply eq_sym_. apply eq_choice_more.
Qed.
Print Assumptions C79_factor.

(** [many] is its own unfolding. *)
Theorem C79_unfold : forall C S A (p : parser C S A), history_free false p -> productive (fresh p) -> lib p ->
  eqn (many p) (or_ (map (pair2 p (many p)) (fun x => fst x :: snd x)) (value [])).
Proof.
  intros C S A p H1 H2 H3. eapply eq_trans_; [apply eq_many; assumption|]. apply eq_in_or; [apply eq_many1; assumption|apply eq_refl_].
Qed.
Print Assumptions C79_unfold.

(** "let x", "let y" and "let z" with the keyword taken out; and what goes wrong without [attempt]. *)
Definition c79_let := with_ (bt 108%N) (with_ (bt 101%N) (bt 116%N)).
Definition c79_xyz := choice (projT2 (c79_before c79_let [bt 120%N; bt 121%N] (bt 122%N))).
Definition c79_short := with_ c79_let (choice (projT2 (c79_inside [bt 120%N; bt 121%N] (bt 122%N)))).
Example C79_ex : eqn c79_xyz c79_short /\ lib c79_xyz /\ lib c79_short /\
  parse c79_xyz (bin [108; 101; 116; 121; 7]%N) = Done (inl 121%N, @Inp BC [7%N] 4 false) /\
  parse c79_short (bin [108; 101; 116; 121; 7]%N) = Done (inl 121%N, @Inp BC [7%N] 4 false).
Proof.
  split; [apply C79_factor; [repeat constructor|repeat constructor]|]. split; [repeat constructor|]. split; [repeat constructor|].
  split; vm_compute; reflexivity.
Qed.
Definition c79_a := satisfy (C:=BC) (fun t => (t =? 97)%N).
Example C79_unfold_ex : history_free false c79_a /\ productive (fresh c79_a) /\ lib c79_a /\
  succeeds (fresh (or_ (map (pair2 c79_a (many c79_a)) (fun x => fst x :: snd x)) (value []))) (bin [97; 97; 98]%N) true [97; 97]%N (@Inp BC [98%N] 2 false).
Proof.
  split; [apply C28_tidy_history_free; unfold c79_a; tidy_tac|]. split; [apply C12_satisfy_progress|]. split; [constructor|vm_compute; reflexivity].
Qed.

(** Not laws.  Alternatives cannot be exchanged ... *)
Ltac differ i := let F := fresh "F" in assert (F : fits i) by (split; [reflexivity|vm_compute; lia]).
Theorem C79_or_comm_refuted : ~ (forall S1 S2 A (p : parser BC S1 A) (q : parser BC S2 A), lib p -> lib q -> same (fresh (or_ p q)) (fresh (or_ q p))).
Proof.
  intros H. specialize (H _ _ _ (value 1) (map c79_a (fun _ => 2)) (lib_value _) (lib_map _ (lib_satisfy _)) (bin [97]%N)).
  differ (bin [97]%N). destruct (H F) as [K _]. specialize (K false 1 (bin [97]%N)). vm_compute in K. destruct K as [K _]. specialize (K eq_refl). discriminate.
Qed.
Print Assumptions C79_or_comm_refuted.
(** ... a common beginning cannot be taken out if the alternatives are not attempted ... *)
Theorem C79_factor_no_attempt_refuted : ~ (forall S1 S2 S3 A B (p : parser BC S1 A) (q : parser BC S2 B) (r : parser BC S3 B), lib p -> lib q -> lib r ->
  same (fresh (or_ (with_ p q) (with_ p r))) (fresh (with_ p (or_ q r)))).
Proof.
  intros H. specialize (H _ _ _ _ _ c79_a c79_a (@any BC) (lib_satisfy _) (lib_satisfy _) lib_any (bin [97; 98]%N)).
  differ (bin [97; 98]%N). destruct (H F) as [K _]. specialize (K true 98%N (@Inp BC [] 2 false)). vm_compute in K. destruct K as [_ K]. specialize (K eq_refl). discriminate.
Qed.
Print Assumptions C79_factor_no_attempt_refuted.
(** ... nor a common end if the first alternative can succeed without committing ... *)
Theorem C79_factor_right_refuted : ~ (forall S1 S2 S3 A B (p : parser BC S1 A) (q : parser BC S2 A) (r : parser BC S3 B), lib p -> lib q -> lib r ->
  same (fresh (or_ (with_ p r) (with_ q r))) (fresh (with_ (or_ p q) r))).
Proof.
  intros H. specialize (H _ _ _ _ _ (value 98%N) (@any BC) c79_a (lib_value _) lib_any (lib_satisfy _) (bin [98; 97]%N)).
  differ (bin [98; 97]%N). destruct (H F) as [K _]. specialize (K true 97%N (@Inp BC [] 2 false)). vm_compute in K. destruct K as [K _]. specialize (K eq_refl). discriminate.
Qed.
Print Assumptions C79_factor_right_refuted.
(** ... and [attempt] around a choice is not the choice of the attempts. *)
Theorem C79_attempt_or_refuted : ~ (forall S1 S2 A (p : parser BC S1 A) (q : parser BC S2 A), lib p -> lib q ->
  same (fresh (attempt (or_ p q))) (fresh (or_ (attempt p) (attempt q)))).
Proof.
  intros H. specialize (H _ _ _ (with_ c79_a c79_a) (@any BC) (lib_with (lib_satisfy _) (lib_satisfy _)) lib_any (bin [97; 98]%N)).
  differ (bin [97; 98]%N). destruct (H F) as [K _]. specialize (K true 97%N (@Inp BC [98%N] 1 false)). vm_compute in K. destruct K as [_ K]. specialize (K eq_refl). discriminate.
Qed.
Print Assumptions C79_attempt_or_refuted.
(** * C01: the methods of [Commit] (error.rs), seen through the result that [combine_commit] makes of them.  [map] keeps the
    commitment and composes; [into_commit] and [into_peek] set the commitment and keep the value; [is_peek] tells it. *)
Theorem C01_methods : forall (A B E : Type) (c : commit A) (f : A -> B),
  let as_result X (d : commit X) := combine_commit d (@PeekOk X E) in
  as_result _ (commit_map f c) = pr_map f (as_result _ c) /\
  committed (as_result _ (into_commit c)) = true /\ committed (as_result _ (into_peek c)) = false /\
  value_of (as_result _ (into_commit c)) = value_of (as_result _ c) /\ value_of (as_result _ (into_peek c)) = value_of (as_result _ c) /\
  is_peek c = negb (committed (as_result _ c)) /\ Some (into_inner c) = value_of (as_result _ c).
Proof. intros A B E [a|a] f; repeat split. Qed.
Print Assumptions C01_methods.
Example C01_methods_ex : combine_commit (commit_map N.succ (into_peek (Commit 4%N))) (@PeekOk N unit) = PeekOk 5%N /\
  combine_commit (commit_map N.succ (Commit 4%N)) (@PeekOk N unit) = CommitOk 5%N.
Proof. split; reflexivity. Qed.
