(** C04, C05, C49: sequencing. *)
From Coq Require Import String List Bool Arith NArith Lia.
Import ListNotations.
From Verif Require Import Base Parser Token Combinator Sequence Spec SeqSpec.
Unset Implicit Arguments.

Section Seq.
Context {C : Cfg}.
Notation E := (Err C).

Lemma okr_is_ok {A} c (a : A) : is_ok (@okr A E c a) = true.
Proof. destruct c; reflexivity. Qed.

(** Child states which behave as default ones. *)
Definition eqv {S A} (p : parser C S A) (s : S) : Prop := forall i, omap fst (p_run p true i s) = fresh p i.

Fixpoint tup_eqv {SS B} (t : tup (C:=C) SS B) : SS -> Prop :=
  match t in tup SS B return SS -> Prop with
  | T1 p => fun st => eqv p (snd st)
  | TC p r => fun st => eqv p (snd (fst st)) /\ tup_eqv r (snd st)
  end.

Lemma tup_eqv_init {SS B} (t : tup (C:=C) SS B) : tup_eqv t (tup_init t).
Proof. induction t; simpl; repeat split; auto; intros i; reflexivity. Qed.

Lemma eqv_run {S A} (p : parser C S A) s i r i' :
  eqv p s -> fresh p i = Done (r, i') -> exists s', p_run p true i s = Done (r, i', s').
Proof.
  intros He Hf. specialize (He i). rewrite Hf in He.
  destruct (p_run p true i s) as [[[r0 i0] s0]| |]; simpl in He; inversion He; subst; eauto.
Qed.

Lemma seq_elem_ok {S A} (p : parser C S A) cur fep i st off c a i' :
  eqv p (snd st) -> fresh p i = Done (okr c a, i') ->
  exists s' fep', seq_elem p true cur fep i st off
    = Done (KOk true (cur + 1) fep', i', (Some a, s'), sat_add off (p_count p)) /\
    (fep' =? 0) = negb c && (fep =? 0).
Proof.
  intros He Hf. destruct st as [v s]. destruct (eqv_run _ _ _ _ _ He Hf) as [s' Hr]. simpl in Hr. unfold seq_elem.
  simpl. rewrite Hr. simpl. exists s'. destruct c; simpl; eexists; split; try reflexivity.
  apply Nat.eqb_neq. lia.
Qed.

Lemma seq_head_ok {S A} (p : parser C S A) i st off c a i' :
  eqv p (snd st) -> fresh p i = Done (okr c a, i') ->
  exists s' fep', seq_head p true i st off
    = Done (KOk true 0 fep', i', (Some a, s'), sat_add (p_count p) 1) /\ (fep' =? 0) = negb c.
Proof.
  intros He Hf. destruct st as [v s]. destruct (eqv_run _ _ _ _ _ He Hf) as [s' Hr]. simpl in Hr. unfold seq_head.
  simpl. rewrite Hr. simpl. exists s'. destruct c; simpl; eexists; split; reflexivity.
Qed.

Lemma seq_rest_ok {SS B} (t : tup (C:=C) SS B) : forall cur fep i st off c b i',
  tup_eqv t st -> seq_ok t i c b i' ->
  exists cur' fep' st' off', seq_rest t true cur fep i st off = Done (KOk true cur' fep', i', st', off') /\
    (fep' =? 0) = negb c && (fep =? 0) /\ exists st2, tup_take t st' = Some (b, st2).
Proof.
  induction t as [S A p|S A SS B p r IH]; intros cur fep i st off c b i' He Hs; simpl in *.
  - destruct (seq_elem_ok p cur fep i st off _ _ _ He Hs) as [s' [fep' [Hr Hf]]].
    rewrite Hr. do 4 eexists. split; [reflexivity|]. split; [exact Hf|]. simpl. eauto.
  - destruct He as [He1 He2]. destruct Hs as [c1 [i1 [c2 [H1 [H2 ->]]]]].
    destruct (seq_elem_ok p cur fep i (fst st) off _ _ _ He1 H1) as [s' [fep' [Hr Hf]]]. rewrite Hr. simpl.
    destruct (IH (cur + 1) fep' i1 (snd st) (sat_add off (p_count p)) c2 (snd b) i' He2 H2)
      as [cur' [fep2 [st' [off' [Hr2 [Hf2 [st2 Ht]]]]]]].
    rewrite Hr2. simpl. do 4 eexists. split; [reflexivity|]. split.
    + rewrite Hf2, Hf. destruct c1, c2, (fep =? 0); reflexivity.
    + simpl. rewrite Ht. destruct b; simpl. eauto.
Qed.

Lemma seq_rest_commit {SS B} (t : tup (C:=C) SS B) : forall cur fep i st off k c e ib ia,
  tup_eqv t st -> seq_stop t i k c (inl e) ib ia ->
  exists st' off', seq_rest t true cur fep i st off = Done (KCommit e, ia, st', off').
Proof.
  induction t as [S A p|S A SS B p r IH]; intros cur fep i st off k c e ib ia He Hs; simpl in *.
  - destruct Hs as [_ [_ [_ Hf]]]. destruct (eqv_run _ _ _ _ _ He Hf) as [s' Hr]. unfold seq_elem. destruct st as [v s].
    simpl in *. rewrite Hr. simpl. eauto.
  - destruct He as [He1 He2]. destruct Hs as [Hs|[c1 [a [i1 [k' [c2 [H1 [H2 _]]]]]]]].
    + destruct Hs as [_ [_ [_ Hf]]]. destruct (eqv_run _ _ _ _ _ He1 Hf) as [s' Hr]. unfold seq_elem.
      destruct st as [[v s] ss]. simpl in *. rewrite Hr. simpl. eauto.
    + destruct (seq_elem_ok p cur fep i (fst st) off _ _ _ He1 H1) as [s' [fep' [Hr Hf]]]. rewrite Hr. simpl.
      destruct (IH (cur + 1) fep' i1 (snd st) (sat_add off (p_count p)) _ _ _ _ _ He2 H2) as [st' [off' Hr2]].
      rewrite Hr2. simpl. eauto.
Qed.

Lemma seq_rest_peek {SS B} (t : tup (C:=C) SS B) : forall cur fep i st off k c e ib ia,
  tup_eqv t st -> seq_stop t i k c (inr e) ib ia ->
  exists fep' st' off', seq_rest t true cur fep i st off = Done (KPeek e fep', ib, st', off') /\
    (fep' =? 0) = negb c && (fep =? 0).
Proof.
  induction t as [S A p|S A SS B p r IH]; intros cur fep i st off k c e ib ia He Hs; simpl in *.
  - destruct Hs as [_ [-> [-> Hf]]]. destruct (eqv_run _ _ _ _ _ He Hf) as [s' Hr]. unfold seq_elem. destruct st as [v s].
    simpl in *. rewrite Hr. simpl. eauto 10.
  - destruct He as [He1 He2]. destruct Hs as [Hs|[c1 [a [i1 [k' [c2 [H1 [H2 [_ ->]]]]]]]]].
    + destruct Hs as [_ [-> [-> Hf]]]. destruct (eqv_run _ _ _ _ _ He1 Hf) as [s' Hr]. unfold seq_elem.
      destruct st as [[v s] ss]. simpl in *. rewrite Hr. simpl. eauto 10.
    + destruct (seq_elem_ok p cur fep i (fst st) off _ _ _ He1 H1) as [s' [fep' [Hr Hf]]]. rewrite Hr. simpl.
      destruct (IH (cur + 1) fep' i1 (snd st) (sat_add off (p_count p)) _ _ _ _ _ He2 H2) as [fep2 [st' [off' [Hr2 Hf2]]]].
      rewrite Hr2. simpl. do 3 eexists. split; [reflexivity|]. rewrite Hf2, Hf.
      destruct c1, c2, (fep =? 0); reflexivity.
Qed.

(** The tuple run in first mode from any state whose parts behave as default ones. *)
Lemma tuple_run_ok {SS B} (t : tup (C:=C) SS B) : forall i st c b i',
  tup_eqv t (fst st) -> seq_ok t i c b i' -> exists st', tuple_run t true i st = Done (okr c b, i', st').
Proof.
  destruct t as [S A p|S A SS B p r]; intros i [st off] c b i' He Hs; simpl in *; unfold tuple_run; simpl.
  - destruct (seq_head_ok p i st off _ _ _ He Hs) as [s' [fep' [Hr Hf]]]. rewrite Hr. simpl. rewrite Hf.
    destruct c; eauto.
  - destruct He as [He1 He2]. destruct Hs as [c1 [i1 [c2 [H1 [H2 ->]]]]].
    destruct (seq_head_ok p i (fst st) off _ _ _ He1 H1) as [s' [fep' [Hr Hf]]]. rewrite Hr. simpl.
    destruct (seq_rest_ok r 0 fep' i1 (snd st) (sat_add (p_count p) 1) c2 (snd b) i' He2 H2)
      as [cur' [fep2 [st' [off' [Hr2 [Hf2 [st2 Ht]]]]]]].
    rewrite Hr2. simpl. rewrite Ht. rewrite Hf2, Hf. destruct b; simpl. destruct c1, c2; simpl; eauto.
Qed.

Lemma tuple_run_commit {SS B} (t : tup (C:=C) SS B) : forall i st k c e ib ia,
  tup_eqv t (fst st) -> seq_stop t i k c (inl e) ib ia -> exists st', tuple_run t true i st = Done (CommitErr e, ia, st').
Proof.
  destruct t as [S A p|S A SS B p r]; intros i [st off] k c e ib ia He Hs; simpl in *; unfold tuple_run; simpl.
  - destruct Hs as [_ [_ [_ Hf]]]. destruct (eqv_run _ _ _ _ _ He Hf) as [s' Hr]. unfold seq_head. destruct st as [v s].
    simpl in *. rewrite Hr. simpl. eauto.
  - destruct He as [He1 He2]. destruct Hs as [Hs|[c1 [a [i1 [k' [c2 [H1 [H2 _]]]]]]]].
    + destruct Hs as [_ [_ [_ Hf]]]. destruct (eqv_run _ _ _ _ _ He1 Hf) as [s' Hr]. unfold seq_head.
      destruct st as [[v s] ss]. simpl in *. rewrite Hr. simpl. eauto.
    + destruct (seq_head_ok p i (fst st) off _ _ _ He1 H1) as [s' [fep' [Hr Hf]]]. rewrite Hr. simpl.
      destruct (seq_rest_commit r 0 fep' i1 (snd st) (sat_add (p_count p) 1) _ _ _ _ _ He2 H2) as [st' [off' Hr2]].
      rewrite Hr2. simpl. eauto.
Qed.

(** The input after a failed element following a committed one: the unexpected token was read. *)
Definition after_uncons (i : input C) : input C := snd (uncons i).

Lemma add_errors_peek {A} i e off l : @add_errors C A i e 0 off l = (PeekErr (Trk (terr e) off), i).
Proof. reflexivity. Qed.

Lemma add_errors_commit {A} i e fep off l : (fep =? 0) = false ->
  exists e', @add_errors C A i e fep off l = (CommitErr e', after_uncons i).
Proof.
  intros H. unfold add_errors, after_uncons. rewrite H. destruct (uncons i) as [[t|] i'] eqn:Hu; simpl; eauto.
Qed.

Lemma tuple_run_peek {SS B} (t : tup (C:=C) SS B) : forall i st k c e ib ia,
  tup_eqv t (fst st) -> seq_stop t i k c (inr e) ib ia ->
  exists st' x, tuple_run t true i st =
    Done ((if c then CommitErr (terr x) else PeekErr (if k =? 0 then e else Trk (terr e) (toff x))),
          (if c then after_uncons ib else if k =? 0 then ia else ib), st').
Proof.
  destruct t as [S A p|S A SS B p r]; intros i [st off] k c e ib ia He Hs; simpl in *; unfold tuple_run; simpl.
  - destruct Hs as [-> [-> [-> Hf]]]. destruct (eqv_run _ _ _ _ _ He Hf) as [s' Hr]. unfold seq_head. destruct st as [v s].
    simpl in *. rewrite Hr. simpl. exists ((v, s'), off), e. reflexivity.
  - destruct He as [He1 He2]. destruct Hs as [Hs|[c1 [a [i1 [k' [c2 [H1 [H2 [-> ->]]]]]]]]].
    + destruct Hs as [-> [-> [-> Hf]]]. destruct (eqv_run _ _ _ _ _ He1 Hf) as [s' Hr]. unfold seq_head.
      destruct st as [[v s] ss]. simpl in *. rewrite Hr. simpl. eexists _, e. reflexivity.
    + destruct (seq_head_ok p i (fst st) off _ _ _ He1 H1) as [s' [fep' [Hr Hf]]]. rewrite Hr. simpl.
      destruct (seq_rest_peek r 0 fep' i1 (snd st) (sat_add (p_count p) 1) _ _ _ _ _ He2 H2) as [fep2 [st' [off' [Hr2 Hf2]]]].
      rewrite Hr2. simpl. rewrite Hf in Hf2.
      destruct (fep2 =? 0) eqn:Hz.
      * apply Nat.eqb_eq in Hz. subst. rewrite add_errors_peek. destruct c1, c2; try discriminate. simpl.
        eexists _, (Trk (terr e) off'). reflexivity.
      * destruct (@add_errors_commit (A * B) ib e fep2 off'
           (errfns_of p :: tup_errfns r) Hz) as [e' He']. rewrite He'.
        destruct c1, c2; try discriminate; eexists _, (Trk e' 0%N); reflexivity.
Qed.

(** Exhaustiveness: the sequence succeeds or has a first failing part, unless a part itself panics or diverges. *)
Lemma seq_cases {SS B} (t : tup (C:=C) SS B) : forall i,
  (exists c b i', seq_ok t i c b i') \/ (exists k c f ib ia, seq_stop t i k c f ib ia) \/
  (forall st, tup_eqv t st -> forall cur fep off,
     (forall x, seq_rest t true cur fep i st off <> Done x) /\ (forall x, seq_all t true i st off <> Done x)).
Proof.
  induction t as [S A p|S A SS B p r IH]; intros i; simpl.
  - destruct (fresh p i) as [[[a|a|e|e] i']| |] eqn:Hf.
    + left. exists true, a, i'. reflexivity.
    + left. exists false, a, i'. reflexivity.
    + right; left. exists 0, false, (inl e), i, i'. auto.
    + right; left. exists 0, false, (inr e), i, i'. auto.
    + right; right. intros [v s] He cur fep off. specialize (He i). simpl in He. rewrite Hf in He.
      unfold seq_elem, seq_head. simpl. destruct (p_run p true i s) as [[[? ?] ?]| |]; simpl in *; split; congruence.
    + right; right. intros [v s] He cur fep off. specialize (He i). simpl in He. rewrite Hf in He.
      unfold seq_elem, seq_head. simpl. destruct (p_run p true i s) as [[[? ?] ?]| |]; simpl in *; split; congruence.
  - destruct (fresh p i) as [[r0 i1]| |] eqn:Hf.
    + assert (Hcase : (exists c a, r0 = okr c a) \/ (exists f : E + trk E, r0 = match f with inl e => CommitErr e | inr e => PeekErr e end)).
      { destruct r0 as [a|a|e|e].
        - left; exists true, a; auto.
        - left; exists false, a; auto.
        - right; exists (inl e); auto.
        - right; exists (inr e); auto. }
      destruct Hcase as [[c1 [a ->]]|[f ->]].
      * destruct (IH i1) as [[c [b [i' Hok]]]|[[k [c [f [ib [ia Hst]]]]]|Hn]].
        { left. exists (c1 || c), (a, b), i'. simpl. exists c1, i1, c. auto. }
        { right; left. exists (Datatypes.S k), (c1 || c), f, ib, ia. right. exists c1, a, i1, k, c. auto. }
        { right; right. intros st [He1 He2] cur fep off. split; intros x Hx.
          - destruct (seq_elem_ok p cur fep i (fst st) off _ _ _ He1 Hf) as [s' [fep' [Hr _]]]. rewrite Hr in Hx. simpl in Hx.
            destruct (Hn _ He2 (cur + 1) fep' (sat_add off (p_count p))) as [Hn1 _].
            destruct (seq_rest r true (cur + 1) fep' i1 (snd st) (sat_add off (p_count p))) as [y| |]; simpl in Hx; try discriminate.
            apply (Hn1 y); auto.
          - destruct (seq_head_ok p i (fst st) off _ _ _ He1 Hf) as [s' [fep' [Hr _]]]. rewrite Hr in Hx. simpl in Hx.
            destruct (Hn _ He2 0 fep' (sat_add (p_count p) 1)) as [Hn1 _].
            destruct (seq_rest r true 0 fep' i1 (snd st) (sat_add (p_count p) 1)) as [y| |]; simpl in Hx; try discriminate.
            apply (Hn1 y); auto. }
      * right; left. exists 0, false, f, i, i1. left. auto.
    + right; right. intros [[v s] ss] [He1 He2] cur fep off. specialize (He1 i). simpl in He1. rewrite Hf in He1.
      unfold seq_elem, seq_head. simpl. destruct (p_run p true i s) as [[[? ?] ?]| |]; simpl in *; split; congruence.
    + right; right. intros [[v s] ss] [He1 He2] cur fep off. specialize (He1 i). simpl in He1. rewrite Hf in He1.
      unfold seq_elem, seq_head. simpl. destruct (p_run p true i s) as [[[? ?] ?]| |]; simpl in *; split; congruence.
Qed.

Lemma fresh_tuple_ok {SS B} (t : tup (C:=C) SS B) i c b i' :
  seq_ok t i c b i' -> fresh (tuple t) i = Done (okr c b, i').
Proof.
  intros H. destruct (tuple_run_ok t i (tup_init t, 0%N) c b i' (tup_eqv_init t) H) as [st' Hr].
  unfold fresh. simpl. rewrite Hr. reflexivity.
Qed.

Lemma fresh_tuple_commit {SS B} (t : tup (C:=C) SS B) i k c e ib ia :
  seq_stop t i k c (inl e) ib ia -> fresh (tuple t) i = Done (CommitErr e, ia).
Proof.
  intros H. destruct (tuple_run_commit t i (tup_init t, 0%N) _ _ _ _ _ (tup_eqv_init t) H) as [st' Hr].
  unfold fresh. simpl. rewrite Hr. reflexivity.
Qed.

Lemma fresh_tuple_peek {SS B} (t : tup (C:=C) SS B) i k c e ib ia :
  seq_stop t i k c (inr e) ib ia -> exists x,
  fresh (tuple t) i = Done ((if c then CommitErr (terr x) else PeekErr (if k =? 0 then e else Trk (terr e) (toff x))),
          (if c then after_uncons ib else if k =? 0 then ia else ib)).
Proof.
  intros H. destruct (tuple_run_peek t i (tup_init t, 0%N) _ _ _ _ _ (tup_eqv_init t) H) as [st' [x Hr]].
  unfold fresh. exists x. simpl. rewrite Hr. reflexivity.
Qed.

Lemma fresh_tuple_cases {SS B} (t : tup (C:=C) SS B) i r i' :
  fresh (tuple t) i = Done (r, i') ->
  (exists c b, r = okr c b /\ seq_ok t i c b i') \/
  (exists k c f ib ia, seq_stop t i k c f ib ia /\ is_ok r = false).
Proof.
  intros Hr. destruct (seq_cases t i) as [[c [b [i2 Hok]]]|[[k [c [f [ib [ia Hst]]]]]|Hn]].
  - left. pose proof (fresh_tuple_ok t i c b i2 Hok) as H. rewrite Hr in H. inversion H; subst. eauto.
  - right. exists k, c, f, ib, ia. split; auto. destruct f as [e|e].
    + pose proof (fresh_tuple_commit t i k c e ib ia Hst) as H. rewrite Hr in H. inversion H; subst. auto.
    + destruct (fresh_tuple_peek t i k c e ib ia Hst) as [x H]. rewrite Hr in H. inversion H; subst.
      destruct c; auto.
  - unfold fresh in Hr. simpl in Hr. unfold tuple_run in Hr. simpl in Hr.
    destruct (Hn _ (tup_eqv_init t) 0 0 0%N) as [_ Hn2].
    destruct (seq_all t true i (tup_init t) 0%N) as [y| |] eqn:Hq; try discriminate. destruct (Hn2 y eq_refl).
Qed.

End Seq.
