(** Proofs for C80: which parsers keep the end of input reported. *)
From Coq Require Import String List Bool Arith NArith Lia.
Import ListNotations.
From Verif Require Import Base Errors Instances Parser Sequence Repeat Choice Combinator Token RangeP ByteP Spec LibSpec ChunkSpec SteadySpec FramedSpec.
From Verif Require Import ChunkProofs7.
Unset Implicit Arguments.

Section Keeps.
Context {C : Cfg} (EL : eoi_laws C) (SK : set_keeps C).
Notation T := (tok C).
Notation E := (Err C).
Definition keep (f : trk E -> trk E) : Prop := forall t, e_is_eoi C (terr t) = true -> e_is_eoi C (terr (f t)) = true.

Lemma keep_id : keep no_err.
Proof. intros t H. exact H. Qed.
Lemma keep_add s : keep (on_err (fun e => e_add C e s)).
Proof. intros t H. cbn. rewrite (el_add EL), H. reflexivity. Qed.
Lemma keep_fold fns : Forall keep fns -> keep (fun e => fold_left (fun e f => f (set_off e 1%N)) fns e).
Proof. induction 1 as [|f l Hf Hl IH]; intros t H; [exact H|]. cbn [fold_left]. apply IH. apply Hf. exact H. Qed.
Lemma keep_choice fns : Forall keep fns -> keep (choice_adderr fns).
Proof. intros Hf t H. unfold choice_adderr, add_error_choice. cbn. destruct (toff t =? 0)%N; [exact H|]. apply (keep_fold fns Hf t H). Qed.
Lemma keep_rest l : Forall (fun g => keep (ef_add g)) l -> forall t, e_is_eoi C (terr t) = true -> e_is_eoi C (terr (tuple_adderr_rest t l)) = true.
Proof.
  induction 1 as [|g l Hg Hl IH]; intros t H; [exact H|]. cbn [tuple_adderr_rest]. pose proof (Hg t H) as K.
  destruct (toff (ef_add g t) <=? 1)%N; [exact K|]. apply IH. destruct l; [exact K|]. destruct (toff (ef_add g t) =? toff t)%N; exact K.
Qed.
Lemma keep_tuple l : Forall (fun g => keep (ef_add g)) l -> keep (tuple_adderr l).
Proof.
  intros Hl t H. destruct Hl as [|g l Hg Hl]; [exact H|]. cbn [tuple_adderr]. pose proof (Hg t H) as K.
  destruct (toff (ef_add g t) <=? 1)%N; [exact K|]. apply keep_rest; auto. destruct (toff (ef_add g t) =? toff t)%N; exact K.
Qed.

Definition KP (x a n h : bool) J S A (f : J -> parser C S A) : Prop := forall j, keep (p_adderr (f j)).
Definition KT (x n h : bool) J SS B (t : J -> tup (C:=C) SS B) : Prop := forall j, Forall (fun g => keep (ef_add g)) (tup_errfns (t j)).
Definition KA (x a n h : bool) J A SS (t : J -> alts (C:=C) A SS) : Prop := forall j, Forall keep (alts_adderr (t j)).
Lemma steady_keeps z : (forall x a n h J S A f, steady z x a n h f -> KP x a n h J S A f) /\
  (forall x n h J SS B t, steady_tup z x n h t -> KT x n h J SS B t) /\ (forall x a n h J A SS t, steady_alts z x a n h t -> KA x a n h J A SS t).
Proof.
  apply steady_ind3; unfold KP, KT, KA; intros; try (cbn; solve [auto using keep_id, keep_add]).
  - intros u K. cbn. unfold e_add_expected. rewrite (el_add EL), K. reflexivity.
  - intros u K. cbn. revert u K. induction (g j) as [|c l IH]; intros u K; [exact K|]. cbn [fold_left]. apply IH.
    cbn. unfold e_add_expected. rewrite (el_add EL), K. reflexivity.
  - intros u K. cbn. unfold e_add_expected. rewrite (el_add EL), K. reflexivity.
  - intros u K. cbn. unfold e_add_message. rewrite (el_add EL), (H0 j u K). reflexivity.
  - intros u K. cbn. apply SK; [exact K|]. exact (H0 j).
  - intros u K. cbn. apply SK; [exact K|]. auto.
  - intros u K. cbn. unfold e_add_expected. apply SK; [exact K|]. auto.
  - intros u K. cbn. apply SK; [exact K|]. auto.
  - destruct (g j); cbn; auto.
  - rewrite H1. auto.
  - contradiction (H j).
  - destruct (g j) as [k|k]; cbn; auto. exact (H2 k).
  - apply keep_tuple. auto.
  - apply (keep_tuple [errfns_of (ignore (p j)); errfns_of (q j)]). repeat constructor; [exact (H0 j)|exact (H2 j)].
  - apply (keep_tuple [errfns_of (p j); errfns_of (ignore (q j))]). repeat constructor; [exact (H0 j)|exact (H2 j)].
  - apply keep_choice. auto.
  - intros u K. cbn. destruct (toff u =? 0)%N; [exact K|]. apply (keep_choice [p_adderr (p j); p_adderr (q j)]); [|exact K]. repeat constructor; auto.
  - repeat constructor. apply H0.
  - constructor; [apply H0|apply H2].
Qed.
End Keeps.

Lemma easy_set_keeps (T : TokCfg) fl d : set_keeps (cfg_easy T fl d).
Proof.
  intros t s f Ht Hf. specialize (Hf t Ht). cbn [e_set_expected cfg_easy] in *. unfold easy_set_expected. cbn [terr].
  change (easy_is_eoi T (terr (f t)) = true) in Hf. change (easy_is_eoi T (easy_add T (MkErrs (eposition (terr (f t)))
    (firstn (length (elist (terr t))) (elist (terr (f t))) ++ filter (fun e => negb (is_expected e)) (skipn (length (elist (terr t))) (elist (terr (f t)))))) s) = true).
  rewrite easy_add_eoi. apply orb_true_iff. left. unfold easy_is_eoi in *. cbn [elist]. apply existsb_exists in Hf. destruct Hf as [y [K1 K2]].
  apply existsb_exists. exists y. split; [|exact K2]. rewrite <- (firstn_skipn (length (elist (terr t))) (elist (terr (f t)))) in K1.
  apply in_app_or in K1. apply in_or_app. destruct K1 as [K1|K1]; [left; exact K1|right]. apply filter_In. split; [exact K1|].
  apply easy1_eoi_iff in K2. destruct K2 as [-> | ->]; reflexivity.
Qed.
