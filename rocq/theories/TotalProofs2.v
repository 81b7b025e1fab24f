(** Proofs for C52, continued: sequences, choices, repetitions. *)
From Coq Require Import String List Bool Arith NArith Lia.
Import ListNotations.
From Verif Require Import Base Parser Token Combinator Sequence Choice Repeat RangeP ByteP Spec AgreeSpec RepeatSpec ForwardProofs
  RangeProofs CombProofs2 TidySpec TotalSpec TotalProofs.
Unset Implicit Arguments.

Section Total2.
Context {C : Cfg} (L : lawful C) {z : nat}.
Notation T := (tok C).
Notation E := (Err C).
Notation advanced := (@Spec.advanced C).
Notation fits := (@TotalSpec.fits C z).
Notation tot := (@TotalProofs.tot C z _ _).
Notation ztot y := (@TotalProofs.tot C y _ _).
Notation run_good := (@TotalProofs.run_good C z _ _).
Notation shorter := (@Spec.shorter C).

Ltac one Hp i Hi Hs :=
  let r := fresh "r" in let j := fresh "j" in let s := fresh "s" in let Hst := fresh "Hst" in let Hsh := fresh "Hsh" in let Heq := fresh "Heq" in
  destruct (Hp i _ Hi Hs) as [r [j [s [Heq [Hst Hsh]]]]]; rewrite Heq; cbn [omap obind].
Ltac one' Hp i st Hi Hs :=
  let r := fresh "r" in let j := fresh "j" in let s := fresh "s" in let Hst := fresh "Hst" in let Hsh := fresh "Hsh" in let Heq := fresh "Heq" in
  destruct (Hp i st Hi Hs) as [r [j [s [Heq [Hst Hsh]]]]]; rewrite Heq; cbn [omap obind].
Ltac fin := apply good_done; cbn [is_ok not_commit_err pr_map pr_map_err] in *; intuition (try discriminate; auto).

Lemma shorter_le (i j k : input C) : shorter j i -> advanced j k -> shorter k i.
Proof. intros H K. apply adv_le in K. unfold Spec.shorter in *. lia. Qed.
Lemma le_shorter (i j k : input C) : advanced i j -> shorter k j -> shorter k i.
Proof. intros K H. apply adv_le in K. unfold Spec.shorter in *. lia. Qed.

Lemma tot_weak_z {S A} y y' b n Inv (p : parser C S A) : y <= y' -> ztot y' b n Inv p -> ztot y b n Inv p.
Proof.
  intros Hz [H1 H2 H3 H4 H5 H6]. assert (K : forall i, @TotalSpec.fits C y i -> TotalSpec.fits y' i) by (unfold TotalSpec.fits; intros; lia).
  constructor; auto; intros i; auto; intros st Hi Hs; auto.
Qed.
Lemma tot_after {S A} n1 b n Inv (p : parser C S A) : tot b n Inv p -> ztot (after n1 z) b n Inv p.
Proof. apply tot_weak_z. destruct n1; simpl; lia. Qed.

(** ** sequences *)
Fixpoint tup_inv {SS B} (t : tup (C:=C) SS B) : Type :=
  match t with
  | @T1 _ S1 A p => S1 -> Prop
  | @TC _ S1 A SS B p r => ((S1 -> Prop) * tup_inv r)%type
  end.
Fixpoint tup_ok {SS B} (t : tup (C:=C) SS B) : tup_inv t -> SS -> Prop :=
  match t in tup SS B return tup_inv t -> SS -> Prop with
  | T1 p => fun I st => I (snd st)
  | TC p r => fun I st => fst I (snd (fst st)) /\ tup_ok r (snd I) (snd st)
  end.
Fixpoint tup_all_some {SS B} (t : tup (C:=C) SS B) : SS -> Prop :=
  match t in tup SS B return SS -> Prop with
  | T1 p => fun st => fst st <> None
  | TC p r => fun st => fst (fst st) <> None /\ tup_all_some r (snd st)
  end.
Fixpoint tup_tot {SS B} (z : nat) (b n : bool) (t : tup (C:=C) SS B) : tup_inv t -> Prop :=
  match t with
  | T1 p => fun I => ztot z b n I p
  | TC p r => fun I => exists n1 n2, n = n1 || n2 /\ ztot z b n1 (fst I) p /\ tup_tot (after n1 z) b n2 r (snd I)
  end.
Lemma tup_tot_fwd {SS B} b (t : tup (C:=C) SS B) : forall y n I, tup_tot y b n t I -> tup_fwd t.
Proof.
  induction t as [S A p|S A SS B p r IH]; simpl; intros y n I H.
  - exact (t_fwd _ _ _ _ H).
  - destruct H as [n1 [n2 [_ [H1 H2]]]]. split; eauto. exact (t_fwd _ _ _ _ H1).
Qed.
Lemma after_fits y n (i j : input C) : TotalSpec.fits y i -> advanced i j -> (n = true -> shorter j i) -> TotalSpec.fits (after n y) j.
Proof.
  intros [H1 H2] Ha Hs. apply adv_le in Ha. unfold TotalSpec.fits. destruct n; simpl; [specialize (Hs eq_refl); unfold Spec.shorter in Hs|]; lia.
Qed.
Definition not_kcommit (k : seqk (C:=C)) : Prop := match k with KCommit _ => False | _ => True end.

Definition seq_good {SS} (b n : bool) (Inv Some_ : SS -> Prop) (i : input C) (o : outcome (seqk (C:=C) * input C * SS * N)) : Prop :=
  exists k i' st' off', o = Done (k, i', st', off') /\ (b = true \/ not_kcommit k -> Inv st') /\
    (forall f c e, k = KOk f c e -> f = true /\ Some_ st' /\ advanced i i' /\ (n = true -> shorter i' i)).

Lemma elem_good {S A} y (p : parser C S A) b n Inv (H : ztot y b n Inv p) cur fep i st off : TotalSpec.fits y i -> Inv (snd st) ->
  seq_good b n (fun s => Inv (snd s)) (fun s => fst s <> None) i (seq_elem p true cur fep i st off).
Proof.
  intros Hi Hs. unfold seq_elem. destruct st as [v s]. cbn [orb snd] in *. one (t_run _ _ _ _ H) i Hi Hs.
  apply (fwd_run _ (t_fwd _ _ _ _ H)) in Heq. destruct r; do 4 eexists; (split; [reflexivity|split; [intros K; apply Hst; simpl in *; auto|]]);
    intros f c e0 K; inversion K; subst; split; auto; split; try (simpl; congruence); auto.
Qed.
Lemma head_good {S A} y (p : parser C S A) b n Inv (H : ztot y b n Inv p) i st off : TotalSpec.fits y i -> Inv (snd st) ->
  seq_good b n (fun s => Inv (snd s)) (fun s => fst s <> None) i (seq_head p true i st off).
Proof.
  intros Hi Hs. unfold seq_head. destruct st as [v s]. cbn [orb snd] in *. one (t_run _ _ _ _ H) i Hi Hs.
  apply (fwd_run _ (t_fwd _ _ _ _ H)) in Heq. destruct r; do 4 eexists; (split; [reflexivity|split; [intros K; apply Hst; simpl in *; auto|]]);
    intros f c e0 K; inversion K; subst; split; auto; split; try (simpl; congruence); auto.
Qed.
Lemma seq_step {S A SS B} y (p : parser C S A) (t : tup (C:=C) SS B) b n1 n2 (Inv : S -> Prop) I i (st : (option A * S) * SS) (o : outcome (seqk (C:=C) * input C * (option A * S) * N))
    (k : bool -> nat -> nat -> input C -> N -> outcome (seqk (C:=C) * input C * SS * N)) : TotalSpec.fits y i -> tup_ok t I (snd st) ->
  seq_good b n1 (fun s => Inv (snd s)) (fun s => fst s <> None) i o ->
  (forall c f j off, TotalSpec.fits (after n1 y) j -> seq_good b n2 (tup_ok t I) (tup_all_some t) j (k true c f j off)) ->
  seq_good b (n1 || n2) (fun s : (option A * S) * SS => Inv (snd (fst s)) /\ tup_ok t I (snd s)) (fun s : (option A * S) * SS => fst (fst s) <> None /\ tup_all_some t (snd s)) i
    (obind o (fun x => match x with (kk, i', s', off') =>
        match kk with
        | KOk first' cur' fep' =>
            omap (fun y => match y with (k2, i2, s2, off2) => (k2, i2, (s', s2), off2) end) (k first' cur' fep' i' off')
        | _ => Done (kk, i', (s', snd st), off')
        end end)).
Proof.
  intros Hi Hs [k1 [i1 [s1 [o1 [-> [H1 H2]]]]]] Hk. cbn [obind].
  destruct k1 as [f c e|e|e|e m].
  - destruct (H2 _ _ _ eq_refl) as [-> [G1 [G2 G3]]].
    destruct (Hk c e i1 o1 (after_fits _ _ _ _ Hi G2 G3)) as [k2 [i2 [s2 [o2 [-> [K1 K2]]]]]]. cbn [omap].
    do 4 eexists. split; [reflexivity|]. split.
    + intros Hb. simpl. split; [apply H1; right; exact Logic.I|auto].
    + intros f' c' e' Hq. destruct (K2 _ _ _ Hq) as [-> [J1 [J2 J3]]]. split; auto. split; [simpl; auto|]. split; [eapply adv_trans; eauto|].
      intros Hn. apply orb_true_iff in Hn. destruct Hn as [Hn|Hn]; [eapply shorter_le; eauto|eapply le_shorter; eauto].
  - do 4 eexists. split; [reflexivity|]. split; [|intros; discriminate]. intros Hb. simpl. split; auto.
  - do 4 eexists. split; [reflexivity|]. split; [|intros; discriminate]. intros Hb. simpl. split; auto.
  - do 4 eexists. split; [reflexivity|]. split; [|intros; discriminate]. intros Hb. simpl. split; auto.
Qed.
Lemma rest_good {SS B} (t : tup (C:=C) SS B) b : forall y n I, tup_tot y b n t I -> forall cur fep i st off, TotalSpec.fits y i -> tup_ok t I st ->
  seq_good b n (tup_ok t I) (tup_all_some t) i (seq_rest t true cur fep i st off).
Proof.
  induction t as [S A p|S A SS B p r IH]; simpl; intros y n I H cur fep i st off Hi Hs.
  - exact (elem_good y p b n I H cur fep i st off Hi Hs).
  - destruct H as [n1 [n2 [-> [H1 H2]]]]. destruct Hs as [Hs1 Hs2].
    apply (seq_step y p r b n1 n2 (fst I) (snd I) i st _ (fun f c e j o => seq_rest r f c e j (snd st) o)); auto.
    + eapply elem_good; eauto.
    + intros. eapply IH; eauto.
Qed.
Lemma all_good {SS B} y (t : tup (C:=C) SS B) b n I : tup_tot y b n t I -> forall i st off, TotalSpec.fits y i -> tup_ok t I st ->
  seq_good b n (tup_ok t I) (tup_all_some t) i (seq_all t true i st off).
Proof.
  destruct t as [S A p|S A SS B p r]; simpl; intros H i st off Hi Hs.
  - exact (head_good y p b n I H i st off Hi Hs).
  - destruct H as [n1 [n2 [-> [H1 H2]]]]. destruct Hs as [Hs1 Hs2].
    apply (seq_step y p r b n1 n2 (fst I) (snd I) i st _ (fun f c e j o => seq_rest r f c e j (snd st) o)); auto.
    + eapply head_good; eauto.
    + intros. eapply rest_good; eauto.
Qed.
Lemma take_ok {SS B} (t : tup (C:=C) SS B) : forall I st, tup_all_some t st -> tup_ok t I st ->
  exists v st', tup_take t st = Some (v, st') /\ tup_ok t I st'.
Proof.
  induction t as [S A p|S A SS B p r IH]; simpl; intros I st H K.
  - destruct st as [[a|] s]; simpl in *; [|congruence]. eauto.
  - destruct st as [[[a|] s] ss]; simpl in *; [|destruct H; congruence]. destruct H as [_ H]. destruct K as [K1 K2].
    destruct (IH (snd I) ss H K2) as [v [st' [-> K3]]]. do 2 eexists. split; [reflexivity|]. simpl. auto.
Qed.
Lemma tup_init_ok {SS B} b (t : tup (C:=C) SS B) : forall y n I, tup_tot y b n t I -> tup_ok t I (tup_init t).
Proof.
  induction t as [S A p|S A SS B p r IH]; simpl; intros y n I H.
  - exact (t_init _ _ _ _ H).
  - destruct H as [n1 [n2 [_ [H1 H2]]]]. split; eauto. exact (t_init _ _ _ _ H1).
Qed.
Lemma tot_tuple {SS B} (t : tup (C:=C) SS B) b n I : tup_tot z b n t I -> tot b n (fun s => tup_ok t I (fst s)) (tuple t).
Proof.
  intros H. apply tot_mk_mode; [apply fwd_tuple; eapply tup_tot_fwd; eauto|simpl; eapply tup_init_ok; eauto|].
  intros i [st off] Hi Hs. unfold tuple_run. cbn [fst snd] in *.
  destruct (all_good z t b n I H i st off Hi Hs) as [k [i' [st' [off' [-> [H1 H2]]]]]]. cbn [obind].
  destruct k as [f c e|e|e|e m].
  - destruct (H2 _ _ _ eq_refl) as [_ [G1 [_ G3]]]. destruct (take_ok t I st' G1 (H1 (or_intror Logic.I))) as [v [s2 [-> K]]].
    destruct (e =? 0); apply good_done; auto.
  - apply good_done; [|discriminate]. intros Hb. apply H1. simpl in *. tauto.
  - apply good_done; [|discriminate]. intros _. apply H1. right. exact Logic.I.
  - destruct (add_errors i' e m off' (tup_errfns t)) as [r i2] eqn:Ha. apply good_done.
    + intros _. apply H1. right. exact Logic.I.
    + unfold add_errors in Ha. destruct (m =? 0); [inversion Ha; subst; discriminate|]. destruct (uncons i') as [[u|] ju]; inversion Ha; subst; discriminate.
Qed.
Definition pair_inv {X Y S1 S2} (I1 : S1 -> Prop) (I2 : S2 -> Prop) (s : ((option X * S1) * (option Y * S2)) * N) : Prop :=
  I1 (snd (fst (fst s))) /\ I2 (snd (snd (fst s))).
Lemma tot_pair2 {S1 A S2 B} (p : parser C S1 A) (q : parser C S2 B) b n1 n2 I1 I2 : tot b n1 I1 p -> ztot (after n1 z) b n2 I2 q ->
  tot b (n1 || n2) (pair_inv I1 I2) (pair2 p q).
Proof.
  intros H1 H2. refine (tot_tuple (TC p (T1 q)) b (n1 || n2) (I1, I2) _). simpl. exists n1, n2. auto.
Qed.
Lemma tot_with {S1 A S2 B} (p : parser C S1 A) (q : parser C S2 B) b n1 n2 I1 I2 : tot b n1 I1 p -> ztot (after n1 z) b n2 I2 q ->
  tot b (n1 || n2) (pair_inv I1 I2) (with_ p q).
Proof.
  intros H1 H2. pose proof (tot_pair2 (ignore p) q b n1 n2 I1 I2 (tot_ignore p H1) H2) as H.
  apply tot_mk_both; [apply (fwd_with p q (t_fwd _ _ _ _ H1) (t_fwd _ _ _ _ H2))|exact (t_init _ _ _ _ H)| |].
  - apply (rg_result _ H); intros []; simpl; auto.
  - apply (lz_result _ H); intros []; simpl; auto.
Qed.
Lemma tot_skip {S1 A S2 B} (p : parser C S1 A) (q : parser C S2 B) b n1 n2 I1 I2 : tot b n1 I1 p -> ztot (after n1 z) b n2 I2 q ->
  tot b (n1 || n2) (pair_inv I1 I2) (skip p q).
Proof.
  intros H1 H2. pose proof (tot_pair2 p (ignore q) b n1 n2 I1 I2 H1 (tot_ignore q H2)) as H.
  apply tot_mk_mode; [apply (fwd_skip p q (t_fwd _ _ _ _ H1) (t_fwd _ _ _ _ H2))|exact (t_init _ _ _ _ H)|].
  apply (rg_result _ H); intros []; simpl; auto.
Qed.

Lemma tot_then {S1 A B} (p : parser C S1 A) (f : A -> parser C unit B) b n1 n2 I1 : (b = true -> dbg C = false) ->
  tot b n1 I1 p -> (forall a, ztot (after n1 z) false n2 (fun _ => True) (f a)) ->
  tot b (n1 || n2) (fun s => I1 (fst (fst s)) /\ (b = false -> snd (fst s) = None)) (then_ p tt f).
Proof.
  intros Hd H1 H2. apply tot_mk_mode; [apply fwd_then; [exact (t_fwd _ _ _ _ H1)|intros a; exact (t_fwd _ _ _ _ (H2 a))]| |].
  { split; auto. exact (t_init _ _ _ _ H1). }
  intros i [[sp cache] sn] Hi [Hs Hc]. cbn [fst snd] in *. unfold then_run. cbn [orb].
  assert (Hx : dbg C && negb (is_none cache) = false).
  { destruct b; [rewrite Hd; auto|]. rewrite (Hc eq_refl). destruct (dbg C); reflexivity. }
  rewrite Hx. one (t_run _ _ _ _ H1) i Hi Hs. pose proof (fwd_run _ (t_fwd _ _ _ _ H1) _ _ _ _ _ _ Heq) as Ha.
  assert (K : forall cm a, is_ok r = true -> good b (n1 || n2) (fun s => I1 (fst (fst s)) /\ (b = false -> snd (fst s) = None)) i
    (omap (then_finish cm s (Some (cm, a))) (p_cmode (f a) true j sn))).
  { intros cm a Ho. destruct (t_cmode _ _ _ _ (H2 a) j sn (after_fits _ _ _ _ Hi Ha (fun Hn => Hsh Hn Ho)) Logic.I) as [r2 [j2 [s2 [Heq2 [_ Hsh2]]]]].
    rewrite Heq2. apply (fwd_cmode _ (t_fwd _ _ _ _ (H2 a))) in Heq2. cbn [omap]. unfold then_finish.
    assert (Hi1 : I1 s) by (apply Hst; right; destruct r; simpl in *; auto; discriminate).
    assert (Hz : is_ok r2 = true -> n1 || n2 = true -> shorter j2 i).
    { intros Ho2 Hn. apply orb_true_iff in Hn. destruct Hn as [Hn|Hn]; [eapply shorter_le; [apply Hsh; auto|auto]|eapply le_shorter; eauto]. }
    destruct r2; try destruct cm; apply good_done; simpl; intuition (try discriminate); try congruence. }
  destruct r as [a|a|e|e].
  - apply K; auto.
  - apply K; auto.
  - apply good_done; [|discriminate]. simpl. intros [K1|[]]. split; auto.
  - apply good_done; [|discriminate]. simpl. intros _. split; auto. apply Hst. right. exact Logic.I.
Qed.
Lemma tot_then_ref {S1 A B} (p : parser C S1 A) (f : A -> parser C unit B) b n1 n2 I1 : (b = true -> dbg C = false) ->
  tot b n1 I1 p -> (forall a, ztot (after n1 z) false n2 (fun _ => True) (f a)) ->
  tot b (n1 || n2) (fun s => I1 (fst (fst s)) /\ (b = false -> snd (fst s) = None)) (then_ref p tt f).
Proof.
  intros Hd H1 H2. apply tot_then; auto. intros a. specialize (H2 a). constructor; simpl; auto.
  - constructor; simpl.
    + intros first i st r i' st' H. simpl in H. destruct (p_run (f a) first i st) as [[[r0 j] s]| |] eqn:Hq; try discriminate. inversion H; subst. eapply (fwd_run _ (t_fwd _ _ _ _ H2)); eauto.
    + intros first i st r i' st' H. destruct (p_cmode (f a) first i st) as [[[r0 j] s]| |] eqn:Hq; try discriminate. inversion H; subst. eapply (fwd_cmode _ (t_fwd _ _ _ _ H2)); eauto.
    + intros i r i' H. destruct (p_lazy (f a) i) as [[r0 j]| |] eqn:Hq; try discriminate. inversion H; subst. eapply (fwd_lazy _ (t_fwd _ _ _ _ H2)); eauto.
    + intros i r i' H. destruct (p_stream (f a) i) as [[r0 j]| |] eqn:Hq; try discriminate. inversion H; subst. eapply (fwd_stream _ (t_fwd _ _ _ _ H2)); eauto.
  - apply (rg_result _ H2); intros []; simpl; auto.
  - intros i st Hi Hs. one' (t_cmode _ _ _ _ H2) i st Hi Hs. destruct r; fin.
  - apply (lz_result _ H2); intros []; simpl; auto.
  - intros i Hi. destruct (t_stream _ _ _ _ H2 i Hi) as [r [i' [-> K]]]. cbn [omap fst snd]. destruct r; apply lgood_done; auto.
Qed.

(** ** choices *)
Fixpoint alts_tot {A SS} (n : bool) (t : alts (C:=C) A SS) : Prop :=
  match t with
  | AL p => exists Inv, tot false n Inv p
  | AC p r => (exists Inv, tot false n Inv p) /\ alts_tot n r
  end.
Lemma alts_tot_fwd {A SS} n (t : alts (C:=C) A SS) : alts_tot n t -> alts_fwd t.
Proof.
  induction t as [S p|S SS p r IH]; simpl.
  - intros [Inv H]. exact (t_fwd _ _ _ _ H).
  - intros [[Inv H] H2]. split; auto. exact (t_fwd _ _ _ _ H).
Qed.
Definition try_good {A SS} (n : bool) (i : input C) (o : outcome (tried (C:=C) A SS)) : Prop :=
  exists x, o = Done x /\ match x with TEnd r i' _ => n = true -> is_ok r = true -> shorter i' i | TFail errs => errs <> [] end.
Lemma one_good {S A} (p : parser C S A) n Inv (H : tot false n Inv p) i : fits i -> try_good n i (try_one p i).
Proof.
  intros Hi. unfold try_one. one (t_run _ _ _ _ H) i Hi (t_init _ _ _ _ H). eexists. split; [reflexivity|].
  destruct r; auto; discriminate.
Qed.
Lemma try_all_good {A SS} n (t : alts (C:=C) A SS) : alts_tot n t -> forall i, fits i -> try_good n i (choice_try t i).
Proof.
  induction t as [S p|S SS p r IH]; simpl.
  - intros [Inv H] i Hi. eapply one_good; eauto.
  - intros [[Inv H] H2] i Hi. destruct (one_good p n Inv H i Hi) as [x [-> K]]. cbn [obind]. destruct x as [r0 i' st|errs].
    + eexists. split; [reflexivity|]. exact K.
    + destruct (IH H2 i Hi) as [y [-> K2]]. cbn [omap]. destruct y as [r0 i' st|errs']; eexists; (split; [reflexivity|]); auto.
      destruct errs; [congruence|discriminate].
Qed.
Lemma rg_choice {A SS} b n (t : alts (C:=C) A SS) : alts_tot n t -> run_good b n (fun _ => True) (choice_run t true).
Proof.
  intros H i st Hi _. unfold choice_run. destruct (try_all_good n t H i Hi) as [x [-> K]]. cbn [obind]. destruct x as [r i' s|errs].
  - apply good_done; auto.
  - destruct errs as [|e errs]; [congruence|]. cbn [choice_error]. apply good_done; auto. discriminate.
Qed.
Lemma tot_choice {A SS} b n (t : alts (C:=C) A SS) : alts_tot n t -> tot b n (fun _ => True) (choice t).
Proof. intros H. apply tot_mk_mode; auto; [apply fwd_choice; eapply alts_tot_fwd; eauto|]. apply rg_choice; auto. Qed.
Lemma tot_or {S1 S2 A} b n (p : parser C S1 A) (q : parser C S2 A) I1 I2 : tot false n I1 p -> tot false n I2 q -> tot b n (fun _ => True) (or_ p q).
Proof.
  intros H1 H2. apply tot_mk_mode; auto; [apply fwd_or; [exact (t_fwd _ _ _ _ H1)|exact (t_fwd _ _ _ _ H2)]|].
  apply rg_choice. simpl. eauto.
Qed.
Lemma slice_good {A} n all before (l : list (parser C unit A)) : Forall (fun p => tot false n (fun _ => True) p) l -> fits before ->
  forall i last prev idx st cur b, good b n (fun _ => True) before (slice_loop all before true i last prev l idx st cur).
Proof.
  intros H Hb. induction H as [|p l H Hl IH]; intros i last prev idx st cur b; cbn [slice_loop].
  - apply good_done; auto. discriminate.
  - one' (t_run _ _ _ _ H) before st Hb Logic.I. destruct r as [a|a|e|e]; [| | |destruct (slice_merge all i last prev e) as [prev' last']; apply IH]; apply good_done; auto; discriminate.
    Qed.
Lemma tot_choice_slice {A} b n (l : list (parser C unit A)) : Forall (fun p => tot false n (fun _ => True) p) l -> tot b n (fun _ => True) (choice_slice tt l).
Proof.
  intros H. apply tot_mk_mode; auto.
  - apply fwd_choice_slice. eapply Forall_impl; [|exact H]. intros p Hp. exact (t_fwd _ _ _ _ Hp).
  - intros i [idx child] Hi _. unfold slice_run. cbn [negb andb]. apply slice_good; auto.
Qed.

(** ** repetitions *)
Definition is_fine (is : iter_state (C:=C)) : Prop := match is with ISCommit _ => False | _ => True end.
Definition it_good {S X} (b : bool) (Inv : S -> Prop) (i : input C) (o : outcome (list X * iter_state (C:=C) * bool * input C * S)) : Prop :=
  exists l is c i' st', o = Done (l, is, c, i', st') /\ (b = true \/ is_fine is -> Inv st') /\ advanced i i'.

Lemma iter_good {S A} (p : parser C S A) b Inv (H : tot b true Inv p) : forall k c i st, fits i -> Inv st -> length (rest i) < k ->
  it_good b Inv i (iter_all k p true c i st).
Proof.
  induction k as [|k IH]; intros c i st Hi Hs Hk; [lia|]. cbn [iter_all].
  one (t_run _ _ _ _ H) i Hi Hs. apply (fwd_run _ (t_fwd _ _ _ _ H)) in Heq.
  assert (Hok : is_ok r = true -> Inv s /\ length (rest j) < k).
  { intros Ho. split; [apply Hst; right; destruct r; simpl in *; auto; discriminate|]. specialize (Hsh eq_refl Ho). unfold Spec.shorter in Hsh. lia. }
  destruct r as [a|a|e|e].
  - destruct (Hok eq_refl) as [K1 K2]. destruct (IH true j s (adv_fits _ _ Heq Hi) K1 K2) as [l [is [c' [i' [st' [-> [G1 G2]]]]]]]. cbn [omap].
    do 5 eexists. split; [reflexivity|]. split; auto. eapply adv_trans; eauto.
  - destruct (Hok eq_refl) as [K1 K2]. destruct (IH c j s (adv_fits _ _ Heq Hi) K1 K2) as [l [is [c' [i' [st' [-> [G1 G2]]]]]]]. cbn [omap].
    do 5 eexists. split; [reflexivity|]. split; auto. eapply adv_trans; eauto.
  - do 5 eexists. split; [reflexivity|]. split; auto.
  - do 5 eexists. split; [reflexivity|]. split; [|apply adv_refl]. intros _. apply Hst. right. exact Logic.I.
Qed.
Lemma fits_fuel (i : input C) : fits i -> length (rest i) < fuel C.
Proof. unfold TotalSpec.fits. lia. Qed.

Lemma take_good {S A} (p : parser C S A) b n Inv (H : tot b n Inv p) : forall k c i st, fits i -> Inv st ->
  exists l is c' i' st', iter_take k p true c i st = Done (l, is, c', i', st') /\ (b = true \/ is_fine is -> Inv st') /\ advanced i i' /\
    length l <= k /\ (n = true -> l <> [] -> shorter i' i).
Proof.
  induction k as [|k IH]; intros c i st Hi Hs; cbn [iter_take].
  { do 5 eexists. split; [reflexivity|]. split; auto. split; [apply adv_refl|]. split; auto. congruence. }
  one (t_run _ _ _ _ H) i Hi Hs. apply (fwd_run _ (t_fwd _ _ _ _ H)) in Heq.
  assert (Hok : is_ok r = true -> Inv s).
  { intros Ho. apply Hst; right; destruct r; simpl in *; auto; discriminate. }
  destruct r as [a|a|e|e].
  - destruct (IH true j s (adv_fits _ _ Heq Hi) (Hok eq_refl)) as [l [is [c' [i' [st' [-> [G1 [G2 [G3 G4]]]]]]]]]. cbn [omap].
    do 5 eexists. split; [reflexivity|]. split; auto. split; [eapply adv_trans; eauto|]. split; [simpl; lia|]. intros Hn _. eapply shorter_le; eauto.
  - destruct (IH c j s (adv_fits _ _ Heq Hi) (Hok eq_refl)) as [l [is [c' [i' [st' [-> [G1 [G2 [G3 G4]]]]]]]]]. cbn [omap].
    do 5 eexists. split; [reflexivity|]. split; auto. split; [eapply adv_trans; eauto|]. split; [simpl; lia|]. intros Hn _. eapply shorter_le; eauto.
  - do 5 eexists. split; [reflexivity|]. split; auto. split; auto. split; [simpl; lia|]. congruence.
  - do 5 eexists. split; [reflexivity|]. split; [intros _; apply Hst; right; exact Logic.I|]. split; [apply adv_refl|]. split; [simpl; lia|]. congruence.
Qed.
Lemma tot_many {S A} (p : parser C S A) b Inv : tot b true Inv p -> tot b false (fun s => Inv (snd s)) (many p).
Proof.
  intros H. apply tot_mk_mode; [apply fwd_many, (t_fwd _ _ _ _ H)|exact (t_init _ _ _ _ H)|].
  intros i [el st] Hi Hs. unfold many_run. cbn [snd] in *.
  destruct (iter_good p b Inv H _ false i st Hi Hs (fits_fuel i Hi)) as [l [is [c [i' [st' [-> [G1 G2]]]]]]]. cbn [omap].
  destruct is; cbn [into_result_fast]; try destruct c; fin.
Qed.
Lemma many1_iter_good {S A} (p : parser C S A) b Inv (H : tot b true Inv p) c i0 i el st : fits i -> Inv st -> shorter i i0 ->
  good b true (fun s => Inv (snd s) /\ (b = false -> fst (fst (fst s)) = false)) i0 (many1_iter p true c i el st).
Proof.
  intros Hi Hs Hsh. unfold many1_iter.
  destruct (iter_good p b Inv H _ c i st Hi Hs (fits_fuel i Hi)) as [l [is [c' [i' [st' [-> [G1 G2]]]]]]]. cbn [omap].
  pose proof (shorter_le _ _ _ Hsh G2). destruct is; cbn [into_result_fast]; try destruct c'; apply good_done; simpl in *; intuition (try discriminate).
  all: try congruence.
Qed.
Lemma tot_many1 {S A} (p : parser C S A) b Inv : (b = true -> dbg C = false) -> tot b true Inv p ->
  tot b true (fun s => Inv (snd s) /\ (b = false -> fst (fst (fst s)) = false)) (many1 p).
Proof.
  intros Hd H. apply tot_mk_mode; [apply fwd_many1, (t_fwd _ _ _ _ H)|split; auto; exact (t_init _ _ _ _ H)|].
  intros i [[[po cs] el] st] Hi [Hs Hc]. unfold many1_run. cbn [fst snd orb] in *.
  assert (Hx : dbg C && po = false). { destruct b; [rewrite Hd; auto|]. rewrite (Hc eq_refl). apply andb_false_r. }
  rewrite Hx. one (t_run _ _ _ _ H) i Hi Hs. apply (fwd_run _ (t_fwd _ _ _ _ H)) in Heq.
  destruct r as [a|a|e|e].
  - apply many1_iter_good; auto; [eapply adv_fits; eauto|]. apply Hst. right. exact Logic.I.
  - apply many1_iter_good; auto; [eapply adv_fits; eauto|]. apply Hst. right. exact Logic.I.
  - apply good_done; [|discriminate]. simpl. intros [K|[]]. split; auto.
  - apply good_done; [|discriminate]. simpl. intros _. split; auto. apply Hst. right. exact Logic.I.
Qed.
Lemma tot_count_min_max {S A} (p : parser C S A) b n Inv mn mx : mn <= mx -> tot b n Inv p ->
  tot b (n && negb (mn =? 0) && negb b) (fun s => Inv (snd s) /\ fst (fst s) <= mx /\ (b = false -> mn <> 0 -> fst (fst s) < mn)) (count_min_max mn mx p).
Proof.
  intros Hm H. apply tot_mk_mode; [apply fwd_count_min_max, (t_fwd _ _ _ _ H)|split; [exact (t_init _ _ _ _ H)|simpl; split; lia]|].
  intros i [[cnt el] st] Hi [Hs [Hc1 Hc2]]. unfold count_min_max_run. cbn [fst snd] in *.
  destruct (mx <? mn) eqn:H1; [apply Nat.ltb_lt in H1; lia|]. destruct (mx <? cnt) eqn:H2; [apply Nat.ltb_lt in H2; lia|].
  destruct (take_good p b n Inv H (mx - cnt) false i st Hi Hs) as [l [is [c' [i' [st' [-> [G1 [G2 [G3 G4]]]]]]]]]. cbn [obind].
  destruct (cnt + length l <? mn) eqn:H3.
  - apply Nat.ltb_lt in H3. apply good_done.
    + cbn [fst snd]. intros Hb. split; [|split; [lia|auto]]. apply G1. destruct is; simpl in *; tauto.
    + destruct is; simpl; try destruct c'; discriminate.
  - apply Nat.ltb_ge in H3.
    assert (Hz : n && negb (mn =? 0) && negb b = true -> shorter i' i).
    { intros Hn. apply andb_true_iff in Hn. destruct Hn as [Hn Hb]. apply andb_true_iff in Hn. destruct Hn as [Hn Hmn].
      apply G4; auto. apply negb_true_iff in Hmn. apply Nat.eqb_neq in Hmn. destruct b; [discriminate|]. specialize (Hc2 eq_refl Hmn).
      intros ->. simpl in H3. lia. }
    destruct is; cbn [into_result_fast]; try destruct c'; apply good_done; simpl in *; intuition (try discriminate; try congruence; try lia).
Qed.

Lemma sep_inv_set {X S1 S2} (I1 : S1 -> Prop) (I2 : S2 -> Prop) (ch : sep_state S1 S2 X) s : pair_inv I2 I1 ch -> I1 s -> pair_inv I2 I1 (sep_set ch s).
Proof. destruct ch as [[[o1 s2] [o2 s1]] nn]. unfold pair_inv, sep_set. simpl. tauto. Qed.
Lemma sep_inv_get {X S1 S2} (I1 : S1 -> Prop) (I2 : S2 -> Prop) (ch : sep_state S1 S2 X) : pair_inv I2 I1 ch -> I1 (sep_get ch).
Proof. destruct ch as [[[o1 s2] [o2 s1]] nn]. unfold pair_inv, sep_get. simpl. tauto. Qed.

Lemma sep_by1_rest_good {S1 A S2 B} (p : parser C S1 A) (sep : parser C S2 B) b n n1 n2 I1 I2 (Hn : n1 || n2 = true)
    (H1 : tot b n1 I1 p) (H2 : tot b n2 I2 sep) i0 i c el ch : fits i -> pair_inv I2 I1 ch -> advanced i0 i -> (n = true -> shorter i i0) ->
  good b n (fun s => fst (fst s) = None /\ pair_inv I2 I1 (snd s)) i0 (sep_by1_rest p sep true i None c el ch).
Proof.
  intros Hi Hs Ha Hsh. unfold sep_by1_rest.
  pose proof (tot_with (by_ref sep) (by_ref p) b n2 n1 I2 I1 (tot_by_ref sep H2) (tot_after _ _ _ _ _ (tot_by_ref p H1))) as Hw. rewrite orb_comm, Hn in Hw.
  destruct (iter_good _ b _ Hw _ false i ch Hi Hs (fits_fuel i Hi)) as [l [is [c' [i' [st' [-> [G1 G2]]]]]]]. cbn [omap].
  assert (Hz : n = true -> shorter i' i0) by (intros K; eapply shorter_le; eauto).
  destruct is, c', c; cbn [into_result_fast combine_commit]; apply good_done; simpl in *; intuition (try discriminate).
Qed.
Lemma tot_sep_by1 {S1 A S2 B} (p : parser C S1 A) (sep : parser C S2 B) b n1 n2 I1 I2 : n1 || n2 = true -> tot b n1 I1 p -> tot b n2 I2 sep ->
  tot b n1 (fun s => fst (fst s) = None /\ pair_inv I2 I1 (snd s)) (sep_by1 p sep).
Proof.
  intros Hn H1 H2. apply tot_mk_mode; [apply fwd_sep_by1; [exact (t_fwd _ _ _ _ H1)|exact (t_fwd _ _ _ _ H2)]| |].
  { split; auto. split; simpl; [exact (t_init _ _ _ _ H2)|exact (t_init _ _ _ _ H1)]. }
  intros i [[po el] ch] Hi [Hpo Hs]. cbn [fst snd] in *. subst po. unfold sep_by1_run. pose proof (sep_inv_get I1 I2 ch Hs) as Hg.
  one (t_run _ _ _ _ H1) i Hi Hg. apply (fwd_run _ (t_fwd _ _ _ _ H1)) in Heq.
  assert (Hset : b = true \/ not_commit_err r -> pair_inv I2 I1 (sep_set ch s)) by (intros; apply sep_inv_set; auto).
  destruct r as [a|a|e|e].
  - eapply sep_by1_rest_good; eauto; [eapply adv_fits; eauto|]. apply Hset. right. exact Logic.I.
  - eapply sep_by1_rest_good; eauto; [eapply adv_fits; eauto|]. apply Hset. right. exact Logic.I.
  - apply good_done; [|discriminate]. simpl. auto.
  - apply good_done; [|discriminate]. simpl. auto.
Qed.
Lemma tot_value {A} b (v : A) : tot b false (fun _ => True) (@value C A v).
Proof. apply tot_mk_lazy; [apply fwd_value|]. apply (lz_const (fun _ => PeekOk v)). Qed.
Lemma tot_sep_by {S1 A S2 B} (p : parser C S1 A) (sep : parser C S2 B) b n1 n2 I1 I2 : n1 || n2 = true -> tot false n1 I1 p -> tot false n2 I2 sep ->
  tot b false (fun _ => True) (sep_by p sep).
Proof.
  intros Hn H1 H2. apply tot_mk_mode; [apply fwd_sep_by; [exact (t_fwd _ _ _ _ H1)|exact (t_fwd _ _ _ _ H2)]|exact Logic.I|].
  apply (rg_choice b false). simpl. split; [|eexists; apply tot_value].
  pose proof (tot_sep_by1 p sep false n1 n2 I1 I2 Hn H1 H2) as H. eexists. destruct n1; [apply tot_weak_n; exact H|exact H].
Qed.

Lemma scan_good {S X} (p : parser C S (option X)) b Inv (H : tot b false Inv p)
    (Hq : forall i st r i' st', fits i -> Inv st -> p_run p true i st = Done (r, i', st') -> forall x, value_of r = Some (Some x) -> shorter i' i) :
  forall k c i st, fits i -> Inv st -> length (rest i) < k -> it_good b Inv i (iter_scan k p true c i st).
Proof.
  induction k as [|k IH]; intros c i st Hi Hs Hk; [lia|]. cbn [iter_scan].
  one (t_run _ _ _ _ H) i Hi Hs. pose proof (Hq _ _ _ _ _ Hi Hs Heq) as Hx. apply (fwd_run _ (t_fwd _ _ _ _ H)) in Heq.
  assert (Hok : forall x, value_of r = Some (Some x) -> Inv s /\ length (rest j) < k).
  { intros x Ho. split; [apply Hst; right; destruct r; simpl in *; auto; discriminate|]. specialize (Hx x Ho). unfold Spec.shorter in Hx. lia. }
  destruct r as [[a|]|[a|]|e|e].
  - destruct (Hok a eq_refl) as [K1 K2]. destruct (IH true j s (adv_fits _ _ Heq Hi) K1 K2) as [l [is [c' [i' [st' [-> [G1 G2]]]]]]]. cbn [omap].
    do 5 eexists. split; [reflexivity|]. split; auto. eapply adv_trans; eauto.
  - do 5 eexists. split; [reflexivity|]. split; auto.
  - destruct (Hok a eq_refl) as [K1 K2]. destruct (IH c j s (adv_fits _ _ Heq Hi) K1 K2) as [l [is [c' [i' [st' [-> [G1 G2]]]]]]]. cbn [omap].
    do 5 eexists. split; [reflexivity|]. split; auto. eapply adv_trans; eauto.
  - do 5 eexists. split; [reflexivity|]. split; auto.
  - do 5 eexists. split; [reflexivity|]. split; auto.
  - do 5 eexists. split; [reflexivity|]. split; [|apply adv_refl]. intros _. apply Hst. right. exact Logic.I.
Qed.

(** A pair that succeeds ran both elements. *)
Lemma pair2_inv {S1 A S2 B} (p : parser C S1 A) (q : parser C S2 B) i st r i' st' :
  p_run (pair2 p q) true i st = Done (r, i', st') -> forall v, value_of r = Some v ->
  exists rp j s1 rq s2, p_run p true i (snd (fst (fst st))) = Done (rp, j, s1) /\ p_run q true j (snd (snd (fst st))) = Done (rq, i', s2) /\
    value_of rp = Some (fst v) /\ value_of rq = Some (snd v).
Proof.
  destruct st as [[[o1 s1] [o2 s2]] off]. unfold pair2, tuple. cbn [p_run mk_mode]. unfold tuple_run. cbn [seq_all seq_rest fst snd].
  unfold seq_head, seq_elem. cbn [orb]. intros H v Hv.
  destruct (p_run p true i s1) as [[[rp j] s1']| |] eqn:Hp; try discriminate. cbn [omap obind] in H.
  assert (K : forall a cur fep offx, (rp = CommitOk a \/ rp = PeekOk a) ->
    obind (omap (fun y => match y with (k2, i2, s2, off2) => (k2, i2, ((Some a, s1'), s2), off2) end)
      (omap (fun x => match x with (r, i', child') =>
        match r with
        | CommitOk a => (KOk true (cur + 1) (cur + 1 + 1), i', (Some a, child'), sat_add offx (p_count q))
        | PeekOk a => (KOk true (cur + 1) fep, i', (Some a, child'), sat_add offx (p_count q))
        | CommitErr e => (KCommit e, i', (o2, child'), offx)
        | PeekErr e => (KPeek e fep, j, (o2, child'), offx)
        end end) (p_run q true j s2)))
      (fun x => match x with (k, i', s', off') =>
    match k with
    | KCommit e => Done (CommitErr e, i', (s', off'))
    | KHead e => Done (PeekErr e, i', (s', off'))
    | KPeek e fep =>
        let (r, i2) := add_errors i' e fep off' (tup_errfns (TC p (T1 q))) in Done (r, i2, (s', off'))
    | KOk _ _ fep =>
        match tup_take (TC p (T1 q)) s' with
        | Some (b, s2) => Done (if fep =? 0 then PeekOk b else CommitOk b, i', (s2, off'))
        | None => Panic
        end
    end end) = Done (r, i', st') ->
    exists rq s2', p_run q true j s2 = Done (rq, i', s2') /\ fst v = a /\ value_of rq = Some (snd v)).
  { intros a cur fep offx _ K. destruct (p_run q true j s2) as [[[rq j2] s2']| |]; try discriminate. cbn [omap obind] in K.
    destruct rq as [y|y|e|e]; cbn in K.
    - destruct (cur + 1 + 1 =? 0); inversion K; subst; simpl in Hv; inversion Hv; subst; simpl; eauto.
    - destruct (fep =? 0); inversion K; subst; simpl in Hv; inversion Hv; subst; simpl; eauto.
    - inversion K; subst. discriminate.
    - exfalso. unfold add_errors in K. destruct (fep =? 0); [inversion K; subst; discriminate|].
      destruct (uncons j) as [[u|] ju]; inversion K; subst; discriminate. }
  destruct rp as [a|a|e|e]; cbn [obind omap fst snd] in H.
  - edestruct K as [rq [s2' [Q1 [Q2 Q3]]]]; [left; reflexivity|exact H|]. subst a. do 5 eexists. split; [reflexivity|]. split; [exact Q1|auto].
  - edestruct K as [rq [s2' [Q1 [Q2 Q3]]]]; [right; reflexivity|exact H|]. subst a. do 5 eexists. split; [reflexivity|]. split; [exact Q1|auto].
  - inversion H; subst. discriminate.
  - inversion H; subst. discriminate.
Qed.
(** [with_ sep (optional p)] with a value: one of the two consumed. *)
Lemma sew_shorter {S1 A S2 B} (p : parser C S1 A) (sep : parser C S2 B) b n1 n2 I1 I2 : n1 || n2 = true -> tot b n1 I1 p -> tot b n2 I2 sep ->
  forall i st r i' st', fits i -> pair_inv I2 I1 st -> p_run (with_ (by_ref sep) (optional (by_ref p))) true i st = Done (r, i', st') ->
  forall x, value_of r = Some (Some x) -> shorter i' i.
Proof.
  intros Hn H1 H2 i st r i' st' Hi [Hs2 Hs1] H x Hv.
  unfold with_ in H. unfold mk_both at 1 in H. cbn [p_run] in H.
  destruct (p_run (pair2 (ignore (by_ref sep)) (optional (by_ref p))) true i st) as [[[r0 j0] s0]| |] eqn:Hp; try discriminate. cbn [omap] in H.
  inversion H; subst. destruct r0 as [v|v|e|e]; try discriminate; cbn in Hv; inversion Hv as [Hv'];
  (destruct (pair2_inv _ _ _ _ _ _ _ Hp _ eq_refl) as [rp [j [t1 [rq [t2 [Q1 [Q2 [Q3 Q4]]]]]]]]; rewrite Hv' in Q4;
   unfold ignore, by_ref, mk_both, mk_mode in Q1; cbn [p_run] in Q1;
   destruct (t_run _ _ _ _ H2 i _ Hi Hs2) as [r2 [j2 [s2' [Heq2 [_ Hsh2]]]]]; rewrite Heq2 in Q1; cbn [omap] in Q1; inversion Q1; subst;
   assert (O2 : is_ok r2 = true) by (destruct r2; try discriminate; reflexivity);
   apply (fwd_run _ (t_fwd _ _ _ _ H2)) in Heq2;
   unfold optional, by_ref, mk_mode in Q2; cbn [p_run] in Q2;
   destruct (t_run _ _ _ _ H1 j _ (adv_fits _ _ Heq2 Hi) Hs1) as [r1 [j1 [s1' [Heq1 [_ Hsh1]]]]]; rewrite Heq1 in Q2; cbn [omap] in Q2;
   apply (fwd_run _ (t_fwd _ _ _ _ H1)) in Heq1;
   assert (O1 : is_ok r1 = true) by (destruct r1; cbn in Q2; inversion Q2; subst; try discriminate; reflexivity);
   assert (j1 = i') by (destruct r1; cbn in Q2; inversion Q2; subst; try discriminate; reflexivity); subst j1;
   apply orb_true_iff in Hn; destruct Hn as [Hn|Hn];
   [eapply le_shorter; [|apply Hsh1; auto]; auto|eapply shorter_le; [apply Hsh2; auto|auto]]).
Qed.
Lemma sep_end_by1_rest_good {S1 A S2 B} (p : parser C S1 A) (sep : parser C S2 B) n n1 n2 I1 I2 (Hn : n1 || n2 = true)
    (H1 : tot false n1 I1 p) (H2 : tot false n2 I2 sep) i0 i c el ch : fits i -> pair_inv I2 I1 ch -> advanced i0 i -> (n = true -> shorter i i0) ->
  good false n (fun s => fst (fst s) = None /\ pair_inv I2 I1 (snd s)) i0 (sep_end_by1_rest p sep true i c el ch).
Proof.
  intros Hi Hs Ha Hsh. unfold sep_end_by1_rest.
  assert (Hw : tot false false (pair_inv I2 I1) (with_ (by_ref sep) (optional (by_ref p)))).
  { pose proof (tot_with (by_ref sep) (optional (by_ref p)) false n2 false I2 I1 (tot_by_ref sep H2) (tot_after _ _ _ _ _ (tot_optional _ (tot_by_ref p H1)))) as K.
    rewrite orb_false_r in K. destruct n2; [apply tot_weak_n|]; exact K. }
  destruct (scan_good _ false _ Hw (sew_shorter p sep false n1 n2 I1 I2 Hn H1 H2) _ false i ch Hi Hs (fits_fuel i Hi)) as [l [is [c' [i' [st' [-> [G1 G2]]]]]]]. cbn [omap].
  assert (Hz : n = true -> shorter i' i0) by (intros K; eapply shorter_le; eauto).
  destruct is, c', c; cbn [into_result_fast combine_commit]; apply good_done; simpl in *; intuition (try discriminate).
Qed.
Lemma tot_sep_end_by1 {S1 A S2 B} (p : parser C S1 A) (sep : parser C S2 B) n1 n2 I1 I2 : n1 || n2 = true -> tot false n1 I1 p -> tot false n2 I2 sep ->
  tot false n1 (fun s => fst (fst s) = None /\ pair_inv I2 I1 (snd s)) (sep_end_by1 p sep).
Proof.
  intros Hn H1 H2. apply tot_mk_mode; [apply fwd_sep_end_by1; [exact (t_fwd _ _ _ _ H1)|exact (t_fwd _ _ _ _ H2)]| |].
  { split; auto. split; simpl; [exact (t_init _ _ _ _ H2)|exact (t_init _ _ _ _ H1)]. }
  intros i [[po el] ch] Hi [Hpo Hs]. cbn [fst snd] in *. subst po. unfold sep_end_by1_run. pose proof (sep_inv_get I1 I2 ch Hs) as Hg.
  one (t_run _ _ _ _ H1) i Hi Hg. apply (fwd_run _ (t_fwd _ _ _ _ H1)) in Heq.
  assert (Hset : false = true \/ not_commit_err r -> pair_inv I2 I1 (sep_set ch s)) by (intros; apply sep_inv_set; auto).
  destruct r as [a|a|e|e].
  - eapply sep_end_by1_rest_good; eauto; [eapply adv_fits; eauto|]. apply Hset. right. exact Logic.I.
  - eapply sep_end_by1_rest_good; eauto; [eapply adv_fits; eauto|]. apply Hset. right. exact Logic.I.
  - apply good_done; [|discriminate]. simpl. auto.
  - apply good_done; [|discriminate]. simpl. auto.
Qed.
Lemma tot_sep_end_by {S1 A S2 B} (p : parser C S1 A) (sep : parser C S2 B) b n1 n2 I1 I2 : n1 || n2 = true -> tot false n1 I1 p -> tot false n2 I2 sep ->
  tot b false (fun _ => True) (sep_end_by p sep).
Proof.
  intros Hn H1 H2. apply tot_mk_mode; [apply fwd_sep_end_by; [exact (t_fwd _ _ _ _ H1)|exact (t_fwd _ _ _ _ H2)]|exact Logic.I|].
  apply (rg_choice b false). simpl. split; [|eexists; apply tot_value].
  pose proof (tot_sep_end_by1 p sep n1 n2 I1 I2 Hn H1 H2) as H. eexists. destruct n1; [apply tot_weak_n; exact H|exact H].
Qed.

(** ** operator chains *)
Lemma chainl_good {S1 A S2} (p : parser C S1 A) (op : parser C S2 (A -> A -> A)) n n1 n2 I1 I2 (Hn : n1 || n2 = true)
    (H1 : tot false n1 I1 (by_ref p)) (H2 : tot false n2 I2 op) i0 : forall k l c i ch, fits i -> pair_inv I2 I1 ch -> advanced i0 i -> (n = true -> shorter i i0) ->
  length (rest i) < k ->
  good false n (fun s => fst s = None /\ pair_inv I2 I1 (snd s)) i0 (chainl_loop k p op true l c i ch).
Proof.
  pose proof (tot_pair2 (by_ref op) (by_ref p) false n2 n1 I2 I1 (tot_by_ref op H2) (tot_after _ _ _ _ _ H1)) as Hw. rewrite orb_comm, Hn in Hw.
  induction k as [|k IH]; intros l c i ch Hi Hs Ha Hsh Hk; [lia|]. cbn [chainl_loop].
  destruct (t_run _ _ _ _ Hw i ch Hi Hs) as [r [j [s [Heq [Hst Hsh1]]]]]. rewrite Heq. cbn [obind].
  apply (fwd_run _ (t_fwd _ _ _ _ Hw)) in Heq.
  destruct r as [[f v]|[f v]|e|e]; cbn [into_std].
  - specialize (Hsh1 eq_refl eq_refl). apply IH; [eapply adv_fits; eauto|apply Hst; right; exact Logic.I|eapply adv_trans; eauto|intros K; eapply shorter_le; eauto|].
    unfold Spec.shorter in Hsh1. lia.
  - specialize (Hsh1 eq_refl eq_refl). apply IH; [eapply adv_fits; eauto|apply Hst; right; exact Logic.I|eapply adv_trans; eauto|intros K; eapply shorter_le; eauto|].
    unfold Spec.shorter in Hsh1. lia.
  - apply good_done; [|discriminate]. simpl. intuition discriminate.
  - apply good_done; [|auto]. intros _. split; auto. apply Hst. right. exact Logic.I.
Qed.
Lemma tot_used {S A} b n Inv (p : parser C S A) : tot b n Inv p -> forall st, used z b p st -> Inv st.
Proof.
  intros H st Hl. induction Hl as [|st i r i' st' Hl IH Hf Hr Hb]; [exact (t_init _ _ _ _ H)|].
  destruct (t_run _ _ _ _ H i st Hf IH) as [r1 [i1 [st1 [Hd [K _]]]]]. rewrite Hr in Hd. inversion Hd; subst. auto.
Qed.
Lemma tot_by_ref_used {S A} b n Inv (p : parser C S A) : tot b n Inv p -> tot b n (used z b p) (by_ref p).
Proof.
  intros H. apply tot_mk_mode; [apply fwd_by_ref, (t_fwd _ _ _ _ H)|constructor|]. intros i st Hi Hs.
  one (t_run _ _ _ _ H) i Hi (tot_used _ _ _ _ H _ Hs). apply good_done; auto. intros K. eapply used_run; eauto.
Qed.
Lemma tot_chainl1 {S1 A S2} (p : parser C S1 A) (op : parser C S2 (A -> A -> A)) n1 n2 I1 I2 : n1 || n2 = true -> starts_anew z p ->
  tot false n1 I1 p -> tot false n2 I2 op ->
  tot false n1 (fun s => fst s = None /\ pair_inv I2 (used z false p) (snd s)) (chainl1 p op).
Proof.
  intros Hn Hst H0 H2. pose proof (tot_by_ref_used _ _ _ _ H0) as H1.
  apply tot_mk_mode; [apply fwd_chainl1; [exact (t_fwd _ _ _ _ H0)|exact (t_fwd _ _ _ _ H2)]| |].
  { split; auto. split; simpl; [exact (t_init _ _ _ _ H2)|constructor]. }
  intros i [ls ch] Hi [Hls Hs]. cbn [fst snd] in *. subst ls. unfold chainl1_run. destruct Hs as [Hs2 Hs1]. rewrite (Hst _ Hs1).
  destruct (t_run _ _ _ _ H1 i _ Hi Hs1) as [r [j [s [Heq [Hst1 Hsh]]]]]. pose proof Heq as Heq'. unfold by_ref, mk_mode in Heq'. cbn [p_run] in Heq'. rewrite Heq'. clear Heq'. cbn [obind].
  apply (fwd_run _ (t_fwd _ _ _ _ H1)) in Heq.
  assert (K : not_commit_err r -> pair_inv I2 (used z false p) ((fst (fst ch), (fst (snd (fst ch)), s)), snd ch)) by (intros K; split; simpl; auto).
  destruct r as [a|a|e|e].
  - eapply chainl_good; eauto; [eapply adv_fits; eauto|apply K; exact Logic.I|]. apply fits_fuel. eapply adv_fits; eauto.
  - eapply chainl_good; eauto; [eapply adv_fits; eauto|apply K; exact Logic.I|]. apply fits_fuel. eapply adv_fits; eauto.
  - apply good_done; [|discriminate]. intros [K1|[]]. discriminate.
  - apply good_done; [|discriminate]. intros _. split; auto. apply K. exact Logic.I.
Qed.
(** A complete use of [chainl1] leaves nothing in progress. *)
Lemma chainl_loop_none {S1 A S2} (p : parser C S1 A) (op : parser C S2 (A -> A -> A)) : forall k first l c i ch r i' st',
  chainl_loop k p op first l c i ch = Done (r, i', st') -> not_commit_err r -> fst st' = None.
Proof.
  induction k as [|k IH]; intros first l c i ch r i' st' H Hr; [discriminate|]. cbn [chainl_loop] in H.
  destruct (p_run (pair2 (by_ref op) (by_ref p)) first i ch) as [[[r0 j] s]| |]; try discriminate. cbn [obind] in H.
  destruct r0 as [[f v]|[f v]|e|e]; cbn [into_std] in H.
  - eapply IH; eauto.
  - eapply IH; eauto.
  - inversion H; subst. destruct Hr.
  - inversion H; subst. reflexivity.
Qed.
Lemma anew_chainl1 {S1 A S2} (p : parser C S1 A) (op : parser C S2 (A -> A -> A)) : starts_anew z (chainl1 p op).
Proof.
  assert (K : forall st, used z false (chainl1 p op) st -> fst st = None).
  { intros st H. induction H as [|st i r i' st' H IH Hf Hr Hb]; [reflexivity|]. destruct Hb as [Hb|Hb]; [discriminate|].
    destruct st as [ls ch]. simpl in IH. subst ls. unfold chainl1, mk_mode in Hr. cbn [p_run] in Hr. unfold chainl1_run in Hr.
    destruct (p_run p false i (snd (snd (fst ch)))) as [[[r0 j] s]| |]; try discriminate. cbn [obind] in Hr.
    destruct r0 as [a|a|e|e]; try (eapply chainl_loop_none; eauto; fail); inversion Hr; subst; reflexivity. }
  intros [ls ch] H i. apply K in H. simpl in H. subst ls. reflexivity.
Qed.
Lemma anew_unit {A} (p : parser C unit A) : starts_alike p -> starts_anew z p.
Proof. intros H [] _ i. specialize (H i). destruct (p_init p). exact H. Qed.
Lemma chainr_loop_S {S1 A S2} n' (p : parser C S1 A) (op : parser C S2 (A -> A -> A)) l committed (i : input C) :
  chainr_loop (S n') p op l committed i = obind (p_lazy op i) (fun x => match x with (r, i1) =>
        match into_std r with
        | inl (f, rest) =>
            obind (chainr_lazy n' p op i1) (fun y => match y with (r2, i2) =>
              match into_std r2 with
              | inl (v, rest2) =>
                  chainr_loop n' p op (f l v) (commit_merge (commit_merge committed rest) rest2) i2
              | inr (Commit err) => Done (CommitErr (terr err), i2)
              | inr (Peek _) => Done (from_std (inl (l, commit_merge committed rest)), i1)
              end end)
        | inr (Commit err) => Done (CommitErr (terr err), i1)
        | inr (Peek _) => Done (from_std (inl (l, committed)), i)
        end end).
Proof. reflexivity. Qed.
Lemma chainr_good {S1 A S2} (p : parser C S1 A) (op : parser C S2 (A -> A -> A)) n1 n2 I1 I2 (Hn : n1 || n2 = true)
    (H1 : tot false n1 I1 p) (H2 : tot false n2 I2 op) : forall k,
  (forall i, fits i -> 2 * length (rest i) + (if n1 then 0 else 1) < k -> lgood n1 i (chainr_lazy k p op i)) /\
  (forall l c i, fits i -> 2 * length (rest i) + (if n1 then 1 else 0) < k -> lgood false i (chainr_loop k p op l c i)).
Proof.
  induction k as [|k [IH1 IH2]]; split; intros; try lia; [cbn [chainr_lazy]|rewrite chainr_loop_S].
  - destruct (t_lazy _ _ _ _ H1 i H) as [r [j [Hr Hsh]]]. rewrite Hr. cbn [obind]. apply (fwd_lazy _ (t_fwd _ _ _ _ H1)) in Hr.
    assert (K : forall a c, is_ok r = true -> lgood n1 i (chainr_loop k p op a c j)).
    { intros a c Ho. specialize (fun x => Hsh x Ho). destruct (IH2 a c j (adv_fits _ _ Hr H)) as [r2 [j2 [Hd _]]].
      - apply adv_le in Hr. destruct n1; [specialize (Hsh eq_refl); unfold Spec.shorter in Hsh|]; lia.
      - rewrite Hd. apply lgood_done. intros Hq _. eapply shorter_le; [apply Hsh; auto|].
        exact (proj2 (adv_chainr p op (t_fwd _ _ _ _ H1) (t_fwd _ _ _ _ H2) k) _ _ _ _ _ Hd). }
    destruct r; try (apply K; reflexivity); apply lgood_done; discriminate.
  - destruct (t_lazy _ _ _ _ H2 i H) as [r [j [Hr Hsh]]]. rewrite Hr. cbn [obind]. apply (fwd_lazy _ (t_fwd _ _ _ _ H2)) in Hr.
    destruct (into_std r) as [[f rst]|[e|e]] eqn:Hs; try (apply lgood_done; discriminate).
    assert (Ho : is_ok r = true) by (destruct r; try discriminate; reflexivity).
    pose proof (adv_fits _ _ Hr H) as Hj. pose proof (adv_le _ _ Hr) as Hle.
    assert (Hb : 2 * length (rest j) + (if n1 then 0 else 1) < k).
    { destruct n1; [lia|]. simpl in Hn. specialize (Hsh Hn Ho). unfold Spec.shorter in Hsh. lia. }
    destruct (IH1 j Hj Hb) as [r2 [j2 [Hd Hsh2]]]. rewrite Hd. cbn [obind].
    apply (proj1 (adv_chainr p op (t_fwd _ _ _ _ H1) (t_fwd _ _ _ _ H2) k)) in Hd.
    destruct (into_std r2) as [[v rst2]|[e|e]] eqn:Hs2; try (apply lgood_done; discriminate).
    assert (Ho2 : is_ok r2 = true) by (destruct r2; try discriminate; reflexivity).
    pose proof (adv_le _ _ Hd) as Hle2. destruct (IH2 (f l v) (commit_merge (commit_merge c rst) rst2) j2 (adv_fits _ _ Hd Hj)) as [r3 [j3 [-> _]]].
    + destruct n1; [specialize (Hsh2 eq_refl Ho2); unfold Spec.shorter in Hsh2; lia|]. simpl in Hn. specialize (Hsh Hn Ho). unfold Spec.shorter in Hsh. lia.
    + apply lgood_done. discriminate.
Qed.
Lemma tot_chainr1 {S1 A S2} (p : parser C S1 A) (op : parser C S2 (A -> A -> A)) b n1 n2 I1 I2 : n1 || n2 = true ->
  tot false n1 I1 p -> tot false n2 I2 op -> tot b n1 (fun _ => True) (chainr1 p op).
Proof.
  intros Hn H1 H2. apply tot_mk_lazy; [apply fwd_chainr1; [exact (t_fwd _ _ _ _ H1)|exact (t_fwd _ _ _ _ H2)]|].
  intros i Hi. apply (proj1 (chainr_good p op n1 n2 I1 I2 Hn H1 H2 (fuel C))); auto. unfold TotalSpec.fits in Hi. destruct n1; lia.
Qed.

(** ** until, escaped, iterate *)
Lemma tot_take_until {S A} (p : parser C S A) b n Inv : tot b n Inv p -> tot b false (fun s => Inv (snd s)) (take_until p).
Proof.
  intros H. apply tot_mk_mode; [apply fwd_take_until|exact (t_init _ _ _ _ H)|].
  assert (K : forall l c part out pos st, fits (Inp l pos part) -> Inv st -> forall i0, good b false (fun s => Inv (snd s)) i0 (take_until_loop p true c part out l pos st)).
  { induction l as [|t l IH]; intros c part out pos st Hi Hs i0; cbn [take_until_loop].
    - one (t_run _ _ _ _ H) (@Inp C [] pos part) Hi Hs. destruct r as [a|a|e|e]; cbn [into_std commit_merge into_commit into_inner]; try (destruct c; fin; fail).
      unfold s_uncons, uncons, wrap_stream_error. cbn [rest ipart]. destruct part; fin.
    - one (t_run _ _ _ _ H) (@Inp C (t :: l) pos part) Hi Hs. destruct r as [a|a|e|e]; cbn [into_std commit_merge into_commit into_inner]; try (destruct c; fin; fail).
      apply IH.
      + unfold TotalSpec.fits in *. simpl in *. lia.
      + apply Hst. right. exact Logic.I. }
  intros i st Hi Hs. apply K; auto.
Qed.
Lemma repeat_until_good {S1 A S2 B} (p : parser C S1 A) (e : parser C S2 B) b n I1 I2 (H1 : tot b true I1 p) (H2 : tot b n I2 e) i0 : forall k c i out (isp : bool) ps es,
  fits i -> I1 ps -> I2 es -> 2 * length (rest i) + (if (isp : bool) then 0 else 1) < k ->
  good b false (fun s => I1 (snd (fst s)) /\ I2 (snd s)) i0 (repeat_until_loop k p e true c i out isp ps es).
Proof.
  induction k as [|k IH]; intros c i out isp ps es Hi Hp He Hk; [lia|]. cbn [repeat_until_loop]. destruct isp.
  - one (t_run _ _ _ _ H1) i Hi Hp. apply (fwd_run _ (t_fwd _ _ _ _ H1)) in Heq. destruct r as [a|a|er|er].
    + specialize (Hsh eq_refl eq_refl). unfold Spec.shorter in Hsh. apply IH; auto; [eapply adv_fits; eauto|apply Hst; right; exact Logic.I|lia].
    + specialize (Hsh eq_refl eq_refl). unfold Spec.shorter in Hsh. apply IH; auto; [eapply adv_fits; eauto|apply Hst; right; exact Logic.I|lia].
    + fin.
    + fin.
  - one (t_run _ _ _ _ H2) i Hi He. destruct r as [a|a|er|er]; cbn [into_std commit_merge into_commit into_inner]; try (destruct c; fin; fail).
    apply IH; auto; [apply Hst; right; exact Logic.I|lia].
Qed.
Lemma tot_repeat_until {S1 A S2 B} (p : parser C S1 A) (e : parser C S2 B) b n I1 I2 : tot b true I1 p -> tot b n I2 e ->
  tot b false (fun s => I1 (snd (fst s)) /\ I2 (snd s)) (repeat_until p e).
Proof.
  intros H1 H2. apply tot_mk_mode; [apply fwd_repeat_until, (t_fwd _ _ _ _ H1)|split; [exact (t_init _ _ _ _ H1)|exact (t_init _ _ _ _ H2)]|].
  intros i [[[out isp] ps] es] Hi [Hp He]. cbn [fst snd] in *. eapply repeat_until_good; eauto. unfold TotalSpec.fits in Hi. destruct isp; lia.
Qed.
Lemma tot_escaped {S1 A S2 B} (p : parser C S1 A) esc (q : parser C S2 B) b n I1 I2 : tot false true I1 p -> tot false n I2 q ->
  tot b false (fun _ => True) (escaped p esc q).
Proof.
  intros H1 H2. apply tot_mk_lazy; [apply fwd_escaped; [exact (t_fwd _ _ _ _ H1)|exact (t_fwd _ _ _ _ H2)]|].
  assert (K : forall k c i i0, fits i -> length (rest i) < k -> lgood false i0 (escaped_loop k p esc q c i)).
  { induction k as [|k IH]; intros c i i0 Hi Hk; [lia|]. cbn [escaped_loop].
    destruct (t_lazy _ _ _ _ H1 i Hi) as [r [j [Hr Hsh]]]. rewrite Hr. cbn [obind]. apply (fwd_lazy _ (t_fwd _ _ _ _ H1)) in Hr.
    pose proof (adv_fits _ _ Hr Hi) as Hj.
    destruct r as [a|a|e|e].
    - specialize (Hsh eq_refl eq_refl). unfold Spec.shorter in Hsh. apply IH; auto. lia.
    - specialize (Hsh eq_refl eq_refl). unfold Spec.shorter in Hsh. apply IH; auto. lia.
    - apply lgood_done. discriminate.
    - destruct (s_uncons_cases j) as [[t [j2 [-> [Hs2 Ha]]]]|[r0 [-> Hr0]]].
      + destruct (tok_eqb C t esc); [|destruct (is_peek c); apply lgood_done; discriminate].
        one (t_cmode _ _ _ _ H2) j2 (adv_fits _ _ Ha Hj) (t_init _ _ _ _ H2). apply (fwd_cmode _ (t_fwd _ _ _ _ H2)) in Heq.
        pose proof (adv_fits _ _ Heq (adv_fits _ _ Ha Hj)). apply adv_le in Heq. apply adv_le in Hr. unfold Spec.shorter in Hs2.
        destruct r; try (apply lgood_done; discriminate); apply IH; auto; lia.
      + destruct r0; try discriminate; [|destruct (is_peek c)]; apply lgood_done; discriminate. }
  intros i Hi. apply K; auto. apply fits_fuel; auto.
Qed.
Lemma tot_iterate {J A} b n (items : list J) (f : J -> parser C unit A) : (forall x, tot false n (fun _ => True) (f x)) ->
  tot b false (fun _ => True) (iterate tt items f).
Proof.
  intros H. apply tot_mk_mode; [apply fwd_iterate; intros x; exact (t_fwd _ _ _ _ (H x))|exact Logic.I|].
  assert (K : forall its c i st, fits i -> exists x, iterate_items f true c its i st = Done x).
  { induction its as [|y its IH]; intros c i st Hi; cbn [iterate_items]; [eauto|].
    one' (t_run _ _ _ _ (H y)) i st Hi Logic.I. apply (fwd_run _ (t_fwd _ _ _ _ (H y))) in Heq. pose proof (adv_fits _ _ Heq Hi) as Hj.
    destruct r as [a|a|e|e]; eauto.
    - destruct (IH true j s Hj) as [[[[[l o] c'] i'] s'] ->]. cbn [omap]. eauto.
    - destruct (IH c j s Hj) as [[[[[l o] c'] i'] s'] ->]. cbn [omap]. eauto. }
  intros i [[[oi cm] buf] nx] Hi _. apply good_unit_inv. unfold iterate_run.
  match goal with |- context [let '(_, _) := ?z in _] => destruct z as [it ni] end.
  match goal with |- context [iterate_items f true cm ?z i nx] => destruct (K z cm i nx Hi) as [[[[[l o] c'] i'] s'] ->] end.
  cbn [omap]. eauto.
Qed.

End Total2.

(** ** the whole library *)
Section Total3.
Context {C : Cfg} (L : lawful C).
Notation E := (Err C).
Notation shorter := (@Spec.shorter C).
Notation ztot y := (@TotalProofs.tot C y _ _).
Theorem solid_tot : forall z b n S A (p : parser C S A), solid z b n p -> exists Inv, ztot z b n Inv p.
Proof.
  apply (solid_mut (fun z b n S A p => exists Inv, ztot z b n Inv p) (fun z b n SS B t => exists I, tup_tot z b n t I)
    (fun z n A SS t => @alts_tot C z A SS n t) (fun z n A l => Forall (fun p => ztot z false n (fun _ => True) p) l)).
  - intros z z' b n S A p Hz _ [I H]. exists I. eapply tot_weak_z; eauto.
  - intros z n S A p _ [I H]. exists I. apply tot_weak_b; auto.
  - intros z b S A p _ [I H]. exists I. apply tot_weak_n; auto.
  - intros z n A p _ [I H]. eexists. eapply tot_unit; eauto.
  - intros z b. eexists. apply tot_mk_lazy; [apply fwd_any|apply lz_any].
  - intros. eexists. apply tot_mk_lazy; [apply fwd_satisfy|apply lz_satisfy_impl].
  - intros. eexists. apply tot_mk_lazy; [apply fwd_satisfy_map|apply lz_satisfy_impl].
  - intros. eexists. apply tot_mk_lazy; [apply fwd_token|apply lz_satisfy_impl].
  - intros. eexists. apply tot_mk_lazy; [apply fwd_one_of|apply lz_satisfy_impl].
  - intros. eexists. apply tot_mk_lazy; [apply fwd_none_of|apply lz_satisfy_impl].
  - intros. eexists. apply tot_mk_lazy; [apply fwd_tokens|]. apply (lz_tokens cmp _ _ (fun i => ipos i)).
  - intros. eexists. apply tot_mk_lazy; [apply fwd_tokens_cmp|]. apply (lz_tokens cmp _ _ (fun i => ipos i)).
  - intros. eexists. apply tot_mk_lazy; [apply fwd_position|]. apply (lz_const (fun i => PeekOk (ipos i))).
  - intros. eexists. apply tot_value.
  - intros. eexists. apply tot_mk_lazy; [apply fwd_produce|]. apply (lz_const (fun i => PeekOk (f tt))).
  - intros. eexists. apply tot_mk_lazy; [apply fwd_unexpected_any|]. intros i _. apply lgood_done. discriminate.
  - intros. eexists. apply tot_mk_lazy; [apply fwd_eof|apply lz_eof].
  - intros. eexists. apply tot_mk_lazy; [apply fwd_take|apply lz_s_uncons_range].
  - intros. eexists. apply tot_mk_lazy; [apply fwd_range|apply lz_range].
  - intros. exists (fun _ => True). apply tot_mk_mode; [apply fwd_take_while|exact Logic.I|]. apply rg_partial_range. discriminate.
  - intros. exists (fun _ => True). apply tot_mk_mode; [apply fwd_take_while1|exact Logic.I|]. apply rg_partial_range. intros i r i' K _ Ho. eapply uncons_while1_shorter; eauto.
  - intros. exists (fun _ => True). apply tot_mk_mode; [apply fwd_take_until_range|exact Logic.I|]. apply rg_take_until_range; auto.
  - intros. exists (fun _ => True). apply tot_mk_mode; [apply fwd_take_fn|exact Logic.I|]. apply rg_take_fn.
  - intros z b n A f H. eexists. apply tot_mk_lazy; [eapply fn_solid_fwd; eauto|apply lz_fn; auto].
  - intros. eexists. apply tot_mk_lazy; [apply fwd_num_parser|apply lz_num].
  - intros z b n S A p m _ [I H]. eexists. apply tot_message; eauto.
  - intros z b n S A p m _ [I H]. eexists. apply tot_expected; eauto.
  - intros z b n S A p _ [I H]. eexists. apply tot_silent; eauto.
  - intros z b n S A p _ [I H]. eexists. eapply tot_not_followed_by; eauto.
  - intros z b n S A p _ [I H]. eexists. eapply tot_attempt; eauto.
  - intros z b n S A p _ [I H]. eexists. eapply tot_look_ahead; eauto.
  - intros z b n S A B p f _ [I H]. eexists. eapply tot_map; eauto.
  - intros z b n S A B p f Hf _ [I H]. eexists. eapply tot_map_input; eauto.
  - intros z b n S A B p f _ [I H]. eexists. eapply tot_flat_map; eauto.
  - intros z b n S A B p f _ [I H]. eexists. eapply tot_and_then; eauto.
  - intros z b n S A B p f _ [I H]. eexists. eapply tot_from_str; eauto.
  - intros z b n S A p _ [I H]. eexists. eapply tot_recognize; eauto.
  - intros z b S A p D _ [I H]. eexists. eapply tot_recognize1; eauto.
  - intros z b n S A p _ [I H]. eexists. eapply tot_no_partial; eauto.
  - intros z b n S A p _ [I H]. eexists. eapply tot_ignore; eauto.
  - intros z b n S A p _ [I H]. eexists. eapply tot_any_partial_state; eauto.
  - intros z b n S A p _ [I H]. eexists. eapply tot_lazy; eauto.
  - intros z b n S A p _ [I H]. eexists. eapply tot_factory; eauto.
  - intros z b n S A p _ [I H]. eexists. eapply tot_opaque; eauto.
  - intros z b n Q q x y m S A p _ [I H]. eexists. eapply tot_spanned; eauto.
  - intros z b n S A p _ [I H]. eexists. eapply tot_by_ref; eauto.
  - intros z b n S A p _ [I H]. eexists. eapply tot_parser_fn; eauto.
  - intros z b n S A p _ [I H]. eexists. eapply tot_parser_fn0; eauto.
  - intros z b n S A p _ [I H]. eexists. eapply tot_optional; eauto.
  - intros z b n S1 S2 A p _ [I H]. eexists. eapply tot_left; eauto.
  - intros z b n S1 S2 A p _ [I H]. eexists. eapply tot_right; eauto.
  - intros z b n S SS A p _ [I H]. eexists. eapply tot_dispatch_here; eauto.
  - intros z b n S SS A d _ [I H]. eexists. eapply tot_dispatch_later; eauto.
  - intros z b n SS B t _ [I H]. eexists. eapply tot_tuple; eauto.
  - intros z b n1 n2 S1 S2 A B p q _ [I1 H1] _ [I2 H2]. eexists. eapply tot_with; eauto.
  - intros z b n1 n2 S1 S2 A B p q _ [I1 H1] _ [I2 H2]. eexists. eapply tot_skip; eauto.
  - intros z b n1 n2 S1 A B p f Hd _ [I1 H1] _ H2. eexists. eapply tot_then; eauto. intros a. destruct (H2 a) as [I2 K]. eapply tot_unit; eauto.
  - intros z b n1 n2 S1 A B p f Hd _ [I1 H1] _ H2. eexists. eapply tot_then_ref; eauto. intros a. destruct (H2 a) as [I2 K]. eapply tot_unit; eauto.
  - intros z b n A SS t _ H. eexists. eapply tot_choice; eauto.
  - intros z b n S1 S2 A p q _ [I1 H1] _ [I2 H2]. eexists. eapply tot_or; eauto.
  - intros z b n A ps _ H. eexists. eapply tot_choice_slice; eauto.
  - intros z b S A p _ [I H]. eexists. eapply tot_many; eauto.
  - intros z b S A p Hd _ [I H]. eexists. eapply tot_many1; eauto.
  - intros z b n S A mn mx p Hm _ [I H]. eexists. eapply tot_count_min_max; eauto.
  - intros z b n1 n2 S1 S2 A B p s Hn _ [I1 H1] _ [I2 H2]. eexists. eapply tot_sep_by; eauto.
  - intros z b n1 n2 S1 S2 A B p s Hn _ [I1 H1] _ [I2 H2]. eexists. eapply tot_sep_by1; eauto.
  - intros z b n1 n2 S1 S2 A B p s Hn _ [I1 H1] _ [I2 H2]. eexists. eapply tot_sep_end_by; eauto.
  - intros z n1 n2 S1 S2 A B p s Hn _ [I1 H1] _ [I2 H2]. eexists. eapply tot_sep_end_by1; eauto.
  - intros z n1 n2 S1 S2 A p o Hn Hst _ [I1 H1] _ [I2 H2]. eexists. eapply tot_chainl1; eauto.
  - intros z b n1 n2 S1 S2 A p o Hn _ [I1 H1] _ [I2 H2]. eexists. eapply tot_chainr1; eauto.
  - intros z b n S A p _ [I H]. eexists. eapply tot_take_until; eauto.
  - intros z b n S1 S2 A B p e _ [I1 H1] _ [I2 H2]. eexists. eapply tot_repeat_until; eauto.
  - intros z b n S1 S2 A B p c e _ [I1 H1] _ [I2 H2]. eexists. eapply tot_escaped; eauto.
  - intros z b n J A items f _ H. eexists. eapply tot_iterate; eauto. intros x. destruct (H x) as [I K]. eapply tot_unit; eauto.
  - intros z b n S A p _ [I H]. eexists. eapply tot_recognize_with_value; eauto.
  - intros z b n S A p _ [I H]. exists I. exact H.
  - intros z b n1 n2 S A SS B p t _ [I1 H1] _ [I2 H2]. exists (I1, I2). simpl. exists n1, n2. auto.
  - intros z n S A p _ [I H]. exists I. exact H.
  - intros z n S A SS p t _ [I H] _ H2. split; auto. exists I. exact H.
  - intros. constructor.
  - intros z n A p l _ [I H] _ H2. constructor; auto. eapply tot_unit; eauto.
Qed.


Lemma solid_returns z b n S A (p : parser C S A) : solid z b n p -> forall st, used z b p st -> forall i, fits z i ->
  exists r i' st', p_run p true i st = Done (r, i', st') /\ (n = true -> is_ok r = true -> shorter i' i).
Proof.
  intros H st Hu i Hi. destruct (solid_tot _ _ _ _ _ _ H) as [Inv K]. destruct (t_run _ _ _ _ K i st Hi (tot_used _ _ _ _ K _ Hu)) as [r [i' [st' [Hd [_ Hs]]]]]. eauto 6.
Qed.
Lemma solid_lazy z b n S A (p : parser C S A) : solid z b n p -> forall i, fits z i -> exists r i', p_lazy p i = Done (r, i') /\ (n = true -> is_ok r = true -> shorter i' i).
Proof. intros H i Hi. destruct (solid_tot _ _ _ _ _ _ H) as [Inv K]. exact (t_lazy _ _ _ _ K i Hi). Qed.
Lemma solid_stream z b n S A (p : parser C S A) : solid z b n p -> forall i, fits z i -> exists r i', p_stream p i = Done (r, i') /\ (n = true -> is_ok r = true -> shorter i' i).
Proof. intros H i Hi. destruct (solid_tot _ _ _ _ _ _ H) as [Inv K]. exact (t_stream _ _ _ _ K i Hi). Qed.

(** A function that runs a solid parser may be used as a parser. *)
Lemma solid_fn z b n S A (p : parser C S A) : solid z b n p -> fn_solid z n (fun i => omap (fun x => (into_std (fst x), snd x)) (p_stream p i)).
Proof.
  intros H. split.
  - intros i r i' K. destruct (solid_tot _ _ _ _ _ _ H) as [Inv Q]. destruct (p_stream p i) as [[r0 j]| |] eqn:Hq; try discriminate.
    inversion K; subst. exact (fwd_stream _ (t_fwd _ _ _ _ Q) _ _ _ Hq).
  - intros i Hi. destruct (solid_stream _ _ _ _ _ _ H i Hi) as [r [i' [-> K]]]. cbn [omap fst snd]. do 2 eexists. split; [reflexivity|].
    intros Hn Ho. apply K; auto. destruct r; auto.
Qed.
Lemma fits_0 (i : input C) : ~ fits 0 i.
Proof. unfold fits. lia. Qed.
Lemma alike_rec_fn {S A} (F : parser C unit A -> parser C S A) k : starts_alike (rec_fn F k).
Proof. destruct k; intros i; reflexivity. Qed.
Lemma solid_rec_fn {S A} b n (F : parser C unit A -> parser C S A) : (forall z p, starts_alike p -> solid z true n p -> solid (Datatypes.S z) b n (F p)) ->
  forall k, solid k true n (rec_fn F k).
Proof.
  intros HF. induction k as [|k IH]; cbn [rec_fn]; apply sol_fn_parser.
  - split; [discriminate|]. intros i Hi. destruct (fits_0 i Hi).
  - eapply solid_fn. apply HF; [apply alike_rec_fn|exact IH].
Qed.
Lemma solid_rec_macro {S A} n (F : parser C unit A -> parser C S A) : (forall z p, solid z true n p -> solid (Datatypes.S z) false n (F p)) ->
  forall k, solid k true n (rec_macro F k).
Proof.
  intros HF. induction k as [|k IH]; cbn [rec_macro].
  - apply sol_fn_parser. split; [discriminate|]. intros i Hi. destruct (fits_0 i Hi).
  - apply sol_parser_fn0. apply HF. exact IH.
Qed.
End Total3.
