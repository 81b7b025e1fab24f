(** C06-C08: choice. *)
From Coq Require Import String List Bool Arith NArith Lia.
Import ListNotations.
From Verif Require Import Base Parser Token Combinator Sequence Choice Spec SeqProofs CombProofs ChoiceSpec.
Unset Implicit Arguments.

Section Ch.
Context {C : Cfg}.
Notation T := (tok C).
Notation E := (Err C).
Notation beh := (@Spec.beh C).

Lemma fails_false {A} (b : beh A) i : fails b i false <-> exists e i', b i = Done (PeekErr e, i').
Proof.
  split.
  - intros [e [r [i' [H1 [H2 H3]]]]]. destruct r; try discriminate. eauto.
  - intros [e [i' H]]. exists (terr e), (PeekErr e), i'. auto.
Qed.

Lemma backtracks_ok {A} (r : PR A E) : backtracks r = true -> exists e, r = PeekErr e.
Proof. destruct r; try discriminate. eauto. Qed.

(** ** tuples *)
Lemma choice_try_chosen {A SS} (t : alts (C:=C) A SS) : forall i r i',
  chosen (alts_beh t) i r i' -> exists st, choice_try t i = Done (TEnd r i' st).
Proof.
  induction t as [S p|S SS p q IH]; intros i r i' H; simpl in *.
  - inversion H as [b bs j r0 j' Hb Hn|b bs j r0 i0 r1 j' Hb Hn Hl]; subst.
    + apply fresh_run in Hb. destruct Hb as [s Hb]. unfold try_one. rewrite Hb. simpl. destruct r; try discriminate; eauto.
    + inversion Hl.
  - inversion H as [b bs j r0 j' Hb Hn|b bs j r0 i0 r1 j' Hb Hn Hl]; subst.
    + apply fresh_run in Hb. destruct Hb as [s Hb]. unfold try_one. rewrite Hb. simpl. destruct r; try discriminate; simpl; eauto.
    + destruct (backtracks_ok _ Hn) as [e ->]. apply fresh_run in Hb. destruct Hb as [s Hb]. unfold try_one. rewrite Hb. simpl.
      destruct (IH _ _ _ Hl) as [st Hst]. rewrite Hst. simpl. eauto.
Qed.

Lemma choice_try_none {A SS} (t : alts (C:=C) A SS) : forall i,
  none_matches (alts_beh t) i -> exists e errs, choice_try t i = Done (TFail (e :: errs)).
Proof.
  induction t as [S p|S SS p q IH]; intros i H; simpl in *.
  - inversion H as [|b bs Hb Hl]; subst. apply fails_false in Hb. destruct Hb as [e [i' Hb]].
    apply fresh_run in Hb. destruct Hb as [s Hb]. unfold try_one. rewrite Hb. simpl. eauto.
  - inversion H as [|b bs Hb Hl]; subst. apply fails_false in Hb. destruct Hb as [e [i' Hb]].
    apply fresh_run in Hb. destruct Hb as [s Hb]. unfold try_one. rewrite Hb. simpl.
    destruct (IH _ Hl) as [e' [errs He]]. rewrite He. simpl. eauto.
Qed.

Lemma choice_try_cases {A SS} (t : alts (C:=C) A SS) : forall i x, choice_try t i = Done x ->
  (exists r i', chosen (alts_beh t) i r i') \/ none_matches (alts_beh t) i.
Proof.
  induction t as [S p|S SS p q IH]; intros i x H; simpl in *.
  - unfold try_one in H. destruct (p_run p true i (p_init p)) as [[[r i'] s]| |] eqn:Hp; try discriminate.
    assert (Hf : fresh p i = Done (r, i')) by (apply fresh_run; eauto).
    destruct (backtracks r) eqn:Hb.
    + right. constructor; auto. apply fails_false. destruct (backtracks_ok _ Hb) as [e ->]. eauto.
    + left. exists r, i'. apply chosen_here; auto.
  - unfold try_one in H. destruct (p_run p true i (p_init p)) as [[[r i'] s]| |] eqn:Hp; try discriminate.
    assert (Hf : fresh p i = Done (r, i')) by (apply fresh_run; eauto).
    destruct (backtracks r) eqn:Hb.
    + destruct (backtracks_ok _ Hb) as [e ->]. simpl in H.
      destruct (choice_try q i) as [y| |] eqn:Hq; simpl in H; try discriminate.
      destruct (IH _ _ Hq) as [[r1 [i1 Hc]]|Hn].
      * left. exists r1, i1. eapply chosen_later; eauto.
      * right. constructor; auto. apply fails_false. eauto.
    + left. exists r, i'. apply chosen_here; auto.
Qed.

(** Whatever state is left over from earlier uses. *)
Lemma choice_run_first {A SS} (t : alts (C:=C) A SS) st :
  ordered_choice (alts_beh t) (fun i => omap fst (choice_run t true i st)).
Proof.
  assert (H1 : forall i r i', chosen (alts_beh t) i r i' -> omap fst (choice_run t true i st) = Done (r, i')).
  { intros i r i' H. destruct (choice_try_chosen t i r i' H) as [s Hs]. unfold choice_run. rewrite Hs. reflexivity. }
  assert (H2 : forall i, none_matches (alts_beh t) i -> exists e, omap fst (choice_run t true i st) = Done (PeekErr e, i)).
  { intros i H. destruct (choice_try_none t i H) as [e [errs He]]. unfold choice_run. rewrite He. simpl. eauto. }
  split; [exact H1|split].
  - intros i H. apply fails_false. destruct (H2 i H) as [e He]. eauto.
  - intros i r i' H. unfold choice_run in H. destruct (choice_try t i) as [x| |] eqn:Hx; try discriminate.
    destruct (choice_try_cases _ _ _ Hx) as [[r1 [i1 Hc]]|Hn]; auto.
    left. pose proof (H1 _ _ _ Hc) as Hq. unfold choice_run in Hq. rewrite Hx in Hq. rewrite H in Hq. inversion Hq; subst. auto.
Qed.

Lemma choice_ordered {A SS} (t : alts (C:=C) A SS) : ordered_choice (alts_beh t) (fresh (choice t)).
Proof. exact (choice_run_first t None). Qed.

Lemma or_ordered {S1 S2 A} (p : parser C S1 A) (q : parser C S2 A) : ordered_choice [fresh p; fresh q] (fresh (or_ p q)).
Proof. exact (choice_run_first (AC p (AL q)) None). Qed.

(** If all fail, the input is where it was. *)
Lemma choice_none_input {A SS} (t : alts (C:=C) A SS) i r i' :
  none_matches (alts_beh t) i -> fresh (choice t) i = Done (r, i') -> i' = i.
Proof.
  intros H Hf. destruct (choice_try_none t i H) as [e [errs He]]. unfold fresh in Hf. simpl in Hf. rewrite He in Hf.
  simpl in Hf. inversion Hf; auto.
Qed.

(** ** slices *)
Section Slice.
Context {S A : Type} (Clean : S -> Prop) (s0 : S).
Notation par := (parser C S A).

Lemma hyg_eqv (p : par) st : hyg_by Clean (p_init p) (p_run p true) -> Clean st -> eqv p st.
Proof. intros [_ H] Hc i. apply H. auto. Qed.

Lemma slice_loop_spec all before : forall (l : list par) i last prev idx st cur,
  Forall (fun p => p_init p = s0 /\ hyg_by Clean (p_init p) (p_run p true)) l -> Clean st ->
  (forall r i', chosen (List.map fresh l) before r i' ->
     exists st', slice_loop all before true i last prev l idx st cur = Done (r, i', st')) /\
  (none_matches (List.map fresh l) before ->
     exists e i' st', slice_loop all before true i last prev l idx st cur = Done (PeekErr e, i', st')) /\
  (forall x, slice_loop all before true i last prev l idx st cur = Done x ->
     (exists r i', chosen (List.map fresh l) before r i') \/ none_matches (List.map fresh l) before).
Proof.
  induction l as [|p l IH]; intros i last prev idx st cur Hl Hc.
  - repeat split.
    + intros r i' H. inversion H.
    + intros _. simpl. eauto.
    + intros x _. right. constructor.
  - inversion Hl as [|? ? [Hi Hp] Hl']; subst.
    assert (He : eqv p st) by (apply hyg_eqv; auto). destruct Hp as [Hp0 Hp].
    repeat split.
    + intros r i' H. simpl in H. inversion H as [b bs j r0 j' Hb Hn|b bs j r0 i0 r1 j' Hb Hn Hlt]; subst.
      * destruct (eqv_run _ _ _ _ _ He Hb) as [s' Hr]. simpl. rewrite Hr. simpl. destruct r; try discriminate; eauto.
      * destruct (backtracks_ok _ Hn) as [e ->]. destruct (eqv_run _ _ _ _ _ He Hb) as [s' Hr]. simpl. rewrite Hr. simpl.
        destruct (slice_merge all i last prev e) as [prev' last'].
        apply IH; auto. eapply (proj2 (Hp _ _ Hc)); eauto. simpl; auto.
    + intros H. simpl in H. inversion H as [|b bs Hb Hlt]; subst. apply fails_false in Hb. destruct Hb as [e [i' Hb]].
      destruct (eqv_run _ _ _ _ _ He Hb) as [s' Hr]. simpl. rewrite Hr. simpl.
      destruct (slice_merge all i last prev e) as [prev' last'].
      apply IH; auto. eapply (proj2 (Hp _ _ Hc)); eauto. simpl; auto.
    + intros x H. simpl in H. destruct (p_run p true before st) as [[[r i'] s']| |] eqn:Hr; simpl in H; try discriminate.
      assert (Hf : fresh p before = Done (r, i')). { rewrite <- He. rewrite Hr. reflexivity. }
      destruct (backtracks r) eqn:Hb.
      * destruct (backtracks_ok _ Hb) as [e ->]. destruct (slice_merge all i last prev e) as [prev' last'].
        assert (Hc' : Clean s'). { eapply (proj2 (Hp _ _ Hc)); eauto. simpl; auto. }
        destruct (IH (i + 1) last' prev' idx s' i' Hl' Hc') as [_ [_ Hx]].
        destruct (Hx _ H) as [[r1 [i1 Hch]]|Hn].
        { left. exists r1, i1. simpl. eapply chosen_later; eauto. }
        { right. constructor; auto. apply fails_false. eauto. }
      * left. exists r, i'. simpl. apply chosen_here; auto.
Qed.

Lemma choice_slice_ordered (ps : list par) :
  Clean s0 -> Forall (fun p => p_init p = s0 /\ hyg_by Clean s0 (p_run p true)) ps ->
  ordered_choice (List.map fresh ps) (fresh (choice_slice s0 ps)).
Proof.
  intros Hc Hps.
  assert (Hps' : Forall (fun p => p_init p = s0 /\ hyg_by Clean (p_init p) (p_run p true)) ps).
  { eapply Forall_impl; [|exact Hps]. intros p [Hi H]. rewrite Hi. auto. }
  assert (Hall : forall i, fresh (choice_slice s0 ps) i =
    omap fst (slice_loop (List.map (@p_adderr C S A) ps) i true 0 0 None ps 0 s0 i)) by reflexivity.
  split; [|split].
  - intros i r i' H. rewrite Hall.
    destruct (slice_loop_spec (List.map (@p_adderr C S A) ps) i ps 0 0 None 0 s0 i Hps' Hc) as [H1 _].
    destruct (H1 _ _ H) as [st' Hr]. rewrite Hr. reflexivity.
  - intros i H. apply fails_false. rewrite Hall.
    destruct (slice_loop_spec (List.map (@p_adderr C S A) ps) i ps 0 0 None 0 s0 i Hps' Hc) as [_ [H1 _]].
    destruct (H1 H) as [e [i' [st' Hr]]]. rewrite Hr. simpl. eauto.
  - intros i r i' H. rewrite Hall in H.
    destruct (slice_loop_spec (List.map (@p_adderr C S A) ps) i ps 0 0 None 0 s0 i Hps' Hc) as [H0 [_ H1]].
    destruct (slice_loop (List.map (@p_adderr C S A) ps) i true 0 0 None ps 0 s0 i) as [x| |] eqn:Hx; try discriminate.
    destruct (H1 x eq_refl) as [[r1 [i1 Hch]]|Hn]; auto. left.
    destruct (H0 _ _ Hch) as [st' Hr]. inversion Hr; subst. simpl in H. inversion H; subst. auto.
Qed.
End Slice.

(** ** optional *)
Lemma optional_spec {S A} (p : parser C S A) i :
  (forall c a i', succeeds (fresh p) i c a i' -> succeeds (fresh (optional p)) i c (Some a) i') /\
  (fails (fresh p) i false -> succeeds (fresh (optional p)) i false None i) /\
  (forall e, fails_with (fresh p) i true e -> fails_with (fresh (optional p)) i true e) /\
  (forall c o i', succeeds (fresh (optional p)) i c o i' ->
     (exists a, o = Some a /\ succeeds (fresh p) i c a i') \/ (o = None /\ c = false /\ i' = i /\ fails (fresh p) i false)) /\
  (forall c e, fails_with (fresh (optional p)) i c e -> c = true /\ fails_with (fresh p) i true e).
Proof.
  unfold succeeds, fails, fails_with, fresh. simpl.
  destruct (p_run p true i (p_init p)) as [[[r j] s]| |]; simpl.
  - destruct r as [a|a|e|e]; simpl; repeat split.
    + intros c x i' H. inversion H. destruct c; inversion H1; subst; auto.
    + intros [e [r [i' [H [H2 H3]]]]]. inversion H; subst; discriminate.
    + intros e [r [i' [H [H2 H3]]]]. inversion H; subst; discriminate.
    + intros c o i' H. inversion H. destruct c; inversion H1; subst. left. eauto.
    + destruct H as [r [i' [H [H2 H3]]]]. inversion H; subst; discriminate.
    + destruct H as [r [i' [H [H2 H3]]]]. inversion H; subst; discriminate.
    + intros c x i' H. inversion H. destruct c; inversion H1; subst; auto.
    + intros [e [r [i' [H [H2 H3]]]]]. inversion H; subst; discriminate.
    + intros e [r [i' [H [H2 H3]]]]. inversion H; subst; discriminate.
    + intros c o i' H. inversion H. destruct c; inversion H1; subst. left. eauto.
    + destruct H as [r [i' [H [H2 H3]]]]. inversion H; subst; discriminate.
    + destruct H as [r [i' [H [H2 H3]]]]. inversion H; subst; discriminate.
    + intros c x i' H. inversion H. destruct c; discriminate.
    + intros [e0 [r [i' [H [H2 H3]]]]]. inversion H; subst; discriminate.
    + intros e0 [r [i' [H [H2 H3]]]]. inversion H; subst. eauto.
    + intros c o i' H. inversion H. destruct c; discriminate.
    + destruct H as [r [i' [H [H2 H3]]]]. inversion H; subst. auto.
    + destruct H as [r [i' [H [H2 H3]]]]. inversion H; subst. eauto.
    + intros c x i' H. inversion H. destruct c; discriminate.
    + intros e0 [r [i' [H [H2 H3]]]]. inversion H; subst. discriminate.
    + intros c o i' H. inversion H. destruct c; inversion H1; subst. right. repeat split. eexists. eexists. eexists. repeat split; reflexivity.
    + destruct H as [r [i' [H [H2 H3]]]]. inversion H; subst. discriminate.
    + destruct H as [r [i' [H [H2 H3]]]]. inversion H; subst. discriminate.
  - repeat split; intros; repeat match goal with H : exists _, _ |- _ => destruct H | H : _ /\ _ |- _ => destruct H end; discriminate.
  - repeat split; intros; repeat match goal with H : exists _, _ |- _ => destruct H | H : _ /\ _ |- _ => destruct H end; discriminate.
Qed.

End Ch.
