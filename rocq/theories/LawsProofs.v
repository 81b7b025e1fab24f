(** All four error representations over a lawful token type are lawful configurations; so are the concrete streams. *)
From Coq Require Import String List Bool Arith NArith Lia.
Import ListNotations.
From Verif Require Import Base Errors Instances Spec.
Set Implicit Arguments.

(** Contract of [PartialEq]/[Ord] on tokens and positions, and non-empty tokens. *)
Record tok_lawful (T : TokCfg) : Prop := {
  tl_tok : forall a b, t_eqb T a b = true <-> a = b;
  tl_pos : forall a b, t_pos_cmp T a b = Eq <-> a = b;
  tl_width : forall t, 1 <= t_width T t
}.

Section Laws.
Variable T : TokCfg.
Hypothesis L : tok_lawful T.

Lemma t_pos_eqb_spec a b : t_pos_eqb T a b = true <-> a = b.
Proof.
  unfold t_pos_eqb. rewrite <- (tl_pos L). destruct (t_pos_cmp T a b); split; auto; discriminate.
Qed.

Lemma lawful_unexpected fl d : lawful (cfg_unexpected T fl d).
Proof.
  constructor; simpl; auto.
  - apply (tl_tok L).
  - apply t_pos_eqb_spec.
  - apply (tl_width L).
Qed.

Lemma lawful_string fl d : lawful (cfg_string T fl d).
Proof.
  constructor; simpl; auto.
  - apply (tl_tok L).
  - apply t_pos_eqb_spec.
  - apply (tl_width L).
Qed.

Lemma lawful_easy fl d : lawful (cfg_easy T fl d).
Proof.
  constructor; simpl; auto.
  - apply (tl_tok L).
  - apply t_pos_eqb_spec.
  - apply (tl_width L).
Qed.

Lemma lawful_easy1 fl d : lawful (cfg_easy1 T fl d).
Proof.
  constructor; simpl; auto.
  - apply (tl_tok L).
  - apply t_pos_eqb_spec.
  - apply (tl_width L).
Qed.
End Laws.

Lemma bytes_lawful : tok_lawful bytes_tok.
Proof.
  constructor; simpl; intros.
  - apply N.eqb_eq.
  - apply Nat.compare_eq_iff.
  - lia.
Qed.

Lemma utf8_len_pos c : 1 <= utf8_len c.
Proof. unfold utf8_len. destruct (c <? 128)%N, (c <? 2048)%N, (c <? 65536)%N; lia. Qed.

Lemma str_lawful : tok_lawful str_tok.
Proof.
  constructor; simpl; intros.
  - apply N.eqb_eq.
  - apply Nat.compare_eq_iff.
  - apply utf8_len_pos.
Qed.

Lemma src_lawful : tok_lawful src_tok.
Proof.
  constructor; simpl; intros.
  - apply N.eqb_eq.
  - destruct a as [a1 a2], b as [b1 b2]. unfold source_cmp; simpl.
    destruct (Nat.compare_spec a1 b1); simpl.
    + subst. rewrite Nat.compare_eq_iff. split; [intros ->; auto|intros H; inversion H; auto].
    + split; [discriminate|]. intros Hq; inversion Hq; lia.
    + split; [discriminate|]. intros Hq; inversion Hq; lia.
  - apply utf8_len_pos.
Qed.
