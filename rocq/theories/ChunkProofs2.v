(** Proofs for C29: combinators around one parser, sequences. *)
From Coq Require Import String List Bool Arith NArith Lia.
Import ListNotations.
From Verif Require Import Base Parser Token Combinator Sequence Choice Repeat RangeP Spec SeqSpec ChoiceSpec TidySpec RepeatSpec AgreeSpec.
From Verif Require Import ResultProofs SeqProofs CombProofs ChoiceProofs CombProofs2 RepeatProofs ChunkSpec ChunkProofs.
Unset Implicit Arguments.

Section Wrap.
Context {C : Cfg}.
Notation T := (tok C).
Notation E := (Err C).
Notation nonempty := consumed_some.
Variable EL : eoi_laws C.

Lemma omap_id {X} (o : outcome X) (g : X -> X) : (forall x, g x = x) -> omap g o = o.
Proof. intros H. destruct o; simpl; auto. rewrite H. reflexivity. Qed.

(** Same [p_run] and initial state. *)
Lemma chunk_same x a n h {S A} Cln Res (p q : parser C S A) :
  chunk_by x a n h Cln Res p -> p_init q = p_init p -> (forall first i st, p_run q first i st = p_run p first i st) ->
  noneoi (p_adderr q) -> noneoi (p_addcexp q) ->
  (forall first i st, p_cmode q first i st = default_cmode (p_run q) (p_adderr q) first i st \/ p_cmode q first i st = p_run q first i st) ->
  (forall i, p_lazy q i = default_lazy (p_init q) (p_run q) i \/ p_lazy q i = fresh q i) ->
  chunk_by x a n h Cln Res q.
Proof.
  intros H HI HR HA HC HM HL. apply (chunk_post x a n h Cln Res p q (fun v => v)); auto.
  intros first i st. exists (fun _ r => r). split.
  - rewrite HR. symmetry. apply omap_id. intros [[r j] s]. reflexivity.
  - intros i' r. repeat split; auto. destruct (value_of r); reflexivity. destruct r; auto.
Qed.

Section One.
Variables (x a n h : bool) (S A : Type) (Cln : bool -> S -> Prop) (Res : bool -> Pos C -> list T -> list T -> S -> Prop).
Variable p : parser C S A.
Hypothesis H : chunk_by x a n h Cln Res p.

Lemma chunk_message m : chunk_by x a n h Cln Res (message p m).
Proof.
  apply (chunk_post x a n h Cln Res p (message p m) (fun v => v)); auto.
  - simpl. intros u Hu. apply (noneoi_add EL); [apply (el_message EL)|]. apply (cb_adderr H). exact Hu.
  - apply (cb_cexp H).
  - intros first i st. exists (fun _ r => match r with CommitErr e => CommitErr (e_add_message e m) | _ => r end). split.
    + simpl. destruct (p_run p first i st) as [[[r j] s]| |]; simpl; auto. destruct r; reflexivity.
    + intros i' r. destruct r; simpl; repeat split; auto. unfold e_add_message. rewrite (el_add EL), (el_message EL), orb_false_r. reflexivity.
Qed.
Lemma chunk_expected m : chunk_by x a n h Cln Res (expected p m).
Proof.
  apply (chunk_same x a n h Cln Res p); auto; simpl; auto.
  - intros u Hu. apply (el_set EL); [exact Hu|apply (el_expected EL)|]. apply (cb_adderr H).
  - apply (cb_cexp H).
Qed.
Lemma chunk_silent : chunk_by x a n h Cln Res (silent p).
Proof.
  apply (chunk_post x a n h Cln Res p (silent p) (fun v => v)); auto; try apply noneoi_no.
  intros first i st. exists (fun _ r => pr_map_err (e_clear_expected C) r). split; [reflexivity|].
  intros i' r. destruct r; simpl; repeat split; auto; rewrite (el_clear EL); reflexivity.
Qed.
Lemma chunk_map {B} (g : A -> B) : chunk_by x a n h Cln Res (map p g).
Proof.
  apply (chunk_post x a n h Cln Res p (map p g) g); auto; simpl; try apply (cb_adderr H); try apply (cb_cexp H).
  intros first i st. exists (fun _ r => pr_map g r). split; [reflexivity|].
  intros i' r. destruct r; simpl; repeat split; auto.
Qed.
Lemma chunk_ignore : chunk_by x a n h Cln Res (ignore p).
Proof.
  apply (chunk_post x a n h Cln Res p (ignore p) (fun _ => tt)); auto; simpl; try apply (cb_adderr H); try apply (cb_cexp H); auto.
  - intros i. destruct (cb_lazy H i) as [Q|Q]; rewrite Q; [left|right].
    + unfold default_lazy. destruct (p_run p true i (p_init p)) as [[[r j] s]| |]; simpl; auto. destruct r; reflexivity.
    + unfold fresh. simpl. destruct (p_run p true i (p_init p)) as [[[r j] s]| |]; simpl; auto.
  - intros first i st. exists (fun _ r => pr_map (fun _ => tt) r). split; [reflexivity|].
    intros i' r. destruct r; simpl; repeat split; auto.
Qed.
Lemma chunk_lazy_ : chunk_by x a n h Cln Res (lazy p).
Proof.
  apply (chunk_same x a n h Cln Res p); auto; simpl; try apply (cb_adderr H); try apply (cb_cexp H); auto. apply (cb_lazy H).
Qed.
Lemma chunk_factory : chunk_by x a n h Cln Res (factory p).
Proof. apply (chunk_same x a n h Cln Res p); auto; simpl; try apply (cb_adderr H); try apply (cb_cexp H); auto. Qed.
Lemma chunk_opaque : chunk_by x a n h Cln Res (opaque p).
Proof.
  apply (chunk_same x a n h Cln Res p); auto; simpl; try apply (cb_adderr H); try apply (cb_cexp H); auto. apply (cb_lazy H).
Qed.
Lemma chunk_by_ref : chunk_by x a n h Cln Res (by_ref p).
Proof. apply (chunk_same x a n h Cln Res p); auto; simpl; try apply (cb_adderr H); try apply (cb_cexp H); auto. Qed.
Lemma chunk_parser_fn : chunk_by x a n h Cln Res (parser_fn p).
Proof. apply (chunk_same x a n h Cln Res p); auto; simpl; try apply (cb_adderr H); try apply (cb_cexp H); auto. Qed.

Definition oCln (f : bool) (s : option S) : Prop := match s with None => True | Some s => Cln f s end.
Definition oRes (f : bool) pos l k (s : option S) : Prop :=
  match s with None => l = [] | Some s => Res f pos l k s end.

(** [p_run] from a state, as if from another one. *)
Lemma chunk_any_partial_state : chunk_by x a n h oCln oRes (any_partial_state p).
Proof.
  constructor; simpl; auto; try apply (cb_adderr H); try apply (cb_cexp H).
  - intros [s|]; simpl; auto. apply (cb_cln H).
  - intros f pos [s|]; simpl; auto. apply (cb_res H).
  - intros Ha f pos l k [s|]; simpl; auto. apply (cb_atomic H Ha).
  - intros i. destruct (cb_lazy H i) as [Q|Q]; rewrite Q; [left|right].
    + unfold default_lazy, any_partial_run. destruct (p_run p true i (p_init p)) as [[[r j] s]| |]; simpl; auto.
    + rewrite any_partial_fresh. reflexivity.
  - intros f first pos l k r' s St out E0.
    set (s1 := match s with Some s => s | None => p_init p end).
    assert (Q : exists k2 r2, k2 ++ r2 = k ++ r' /\ started Cln Res f first pos l k2 s1).
    { destruct s as [s|]; simpl in s1; unfold s1.
      - exists k, r'. split; [reflexivity|]. destruct first; simpl in *; exact St.
      - destruct first; simpl in *.
        + destruct St as [K1 [K2 _]]. subst. exists [], r'. repeat split; auto. apply (cb_init H).
        + subst. exists [], (k ++ r'). split; [reflexivity|]. apply (cb_res H). apply (cb_init H). }
    destruct Q as [k2 [r2 [Q1 Q2]]]. rewrite <- Q1 in *.
    assert (K : exists r i' s', p_run p first (Inp (k2 ++ r2) (pos_after pos l) f) s1 = Done (r, i', s') /\
      exists o', out = (r, i', o') /\ (o' = Some s' \/ (o' = None /\ match r with CommitErr _ => False | _ => True end))).
    { unfold any_partial_run in E0. destruct s as [s|]; unfold s1.
      - destruct (p_run p first _ s) as [[[r j] s']| |]; try discriminate. inversion E0; subst. eauto 10.
      - destruct (p_run p first _ (p_init p)) as [[[r j] s']| |]; try discriminate. inversion E0; subst.
        exists r, j, s'. split; [reflexivity|]. destruct r; eexists; split; auto. }
    destruct K as [r [i' [s' [K1 [o' [K2 K3]]]]]]. subst out. pose proof (cb_run H _ _ _ _ _ _ _ Q2 _ K1) as F.
    apply fits_beh with (b := fresh p). { intros i. symmetry. apply any_partial_fresh. }
    destruct K3 as [K3|[K3 K4]]; subst o'.
    + unfold fits in *. destruct r; simpl; exact F.
    + unfold fits in *. destruct r as [v|v|e|e]; try contradiction.
      * destruct F as [F1 [F2 F3]]. split; [exact F1|]. split; [exact I|exact F3].
      * destruct F as [F1 [F2 F3]]. split; [exact F1|]. split; [exact I|exact F3].
      * destruct F as [F1 [F2 [F3 [F4 F5]]]]. split; [exact F1|]. split; [exact F2|]. split; [exact F3|]. split; [intros; exact I|exact F5].
Qed.
End One.

Lemma chunk_optional a n h {S A} Cln Res (p : parser C S A) : chunk_by true a n h Cln Res p -> chunk_by true a true h Cln Res (optional p).
Proof.
  intros H. pose proof H as H0. destruct H0. constructor; simpl; auto; try apply noneoi_no.
  intros f first pos l k r' s St out E0.
  destruct (p_run p first (Inp (k ++ r') (pos_after pos l) f) s) as [[[r i'] s']| |] eqn:E1; try discriminate.
  pose proof (cb_run _ _ _ _ _ _ _ St _ E1) as F.
  assert (W : forall i r i', fresh (optional p) i = Done (r, i') -> exists r0 i0, fresh p i = Done (r0, i0) /\
    match r0 with
    | CommitOk v => r = CommitOk (Some v) /\ i' = i0
    | PeekOk v => r = PeekOk (Some v) /\ i' = i0
    | CommitErr e => r = CommitErr e
    | PeekErr _ => r = PeekOk None /\ i' = i
    end).
  { clear. intros i r i'. unfold fresh. simpl. destruct (p_run p true i (p_init p)) as [[[r0 i0] s0]| |]; try discriminate.
    simpl. exists r0, i0. split; [reflexivity|]. destruct r0; inversion H; auto. }
  assert (WO : forall c w1 w2 v, always_ok f (fresh p) c w1 w2 v -> always_ok f (fresh (optional p)) c w1 w2 (Some v)).
  { intros c w1 w2 v K m Hm r0 i0 Q. destruct (W _ _ _ Q) as [r2 [i2 [Q1 Q2]]]. destruct (K m Hm _ _ Q1) as [Q3 Q4].
    subst. destruct (nonempty w1); simpl in *; destruct Q2; subst; auto. }
  unfold fits in *. destruct r as [v|v|e|e]; inversion E0; subst; clear E0.
  - destruct F as [[r1 [F1 [F2 [F3 F4]]]] F5]. split; [|exact F5]. exists r1. split; [exact F1|]. split; [exact F2|]. split; [apply WO; exact F3|exact F4].
  - destruct F as [[r1 [F1 [F2 [F3 F4]]]] F5]. split; [|exact F5]. exists r1. split; [exact F1|]. split; [exact F2|]. split; [apply WO; exact F3|exact F4].
  - destruct F as [F|[F1 F2]]; [left; exact F|right; split; [exact F1|]].
    intros m Hm r0 i0 Q. destruct (W _ _ _ Q) as [r2 [i2 [Q1 Q2]]]. destruct (F2 m Hm _ _ Q1) as [Q3 Q4].
    destruct r2; try discriminate. subst. auto.
  - destruct F as [F1 [F2 [[F3|F3] [F4 F5]]]]; [|discriminate]. subst l. split.
    + exists []. simpl. split; [reflexivity|]. split; [reflexivity|]. split; [|reflexivity].
      intros m Hm r0 i0 Q. destruct (W _ _ _ Q) as [r2 [i2 [Q1 Q2]]]. destruct (F5 m Hm _ _ Q1) as [Q3 Q4].
      destruct r2; try discriminate. destruct Q2; subst. auto.
    + split; [auto|]. intros _ Hf. apply F2. exact Hf.
Qed.

(** [flat_map], [and_then]: a value that is refused. *)
Lemma chunk_refuse x a n {S A B} Cln Res (p : parser C S A) (q : parser C S B) (g : A -> option B) :
  chunk_by x a n true Cln Res p -> p_init q = p_init p -> noneoi (p_adderr q) -> noneoi (p_addcexp q) ->
  (forall first i st, p_cmode q first i st = default_cmode (p_run q) (p_adderr q) first i st \/ p_cmode q first i st = p_run q first i st) ->
  (forall i, p_lazy q i = default_lazy (p_init q) (p_run q) i \/ p_lazy q i = fresh q i) ->
  (forall first i st out, p_run q first i st = Done out -> exists r i1 s', p_run p first i st = Done (r, i1, s') /\
     match value_of r with
     | Some v => match g v with
                 | Some w => out = (pr_map (fun _ => w) r, i1, s')
                 | None => exists e i2, e_is_eoi C e = false /\ ((out = (PeekErr (to_trk e), i2, s') /\ committed r = false) \/
                             (out = (CommitErr e, i2, s') /\ (committed r = true \/ (ipart i1 = true /\ rest i1 = []))))
                 end
     | None => out = (match r with CommitErr e => CommitErr e | PeekErr e => PeekErr e | CommitOk _ | PeekOk _ => PeekErr (to_trk (e_empty C (ipos i))) end, i1, s')
     end) ->
  chunk_by (x && a) a false true Cln Res q.
Proof.
  intros H HI HA HC HM HL HR. pose proof H as H0. destruct H0. constructor; auto.
  - rewrite HI. auto.
  - intros f first pos l k r' s St out E0. destruct (HR _ _ _ _ E0) as [r [i1 [s' [E1 E2]]]].
    pose proof (cb_run _ _ _ _ _ _ _ St _ E1) as F.
    assert (W : forall i r i', fresh q i = Done (r, i') -> exists r0 i0, fresh p i = Done (r0, i0) /\
      match value_of r0 with
      | Some v => match g v with
                  | Some w => r = okr (committed r0) w /\ i' = i0
                  | None => ipart i0 = false -> is_ok r = false /\ committed r = committed r0
                  end
      | None => is_ok r = false /\ committed r = committed r0
      end).
    { intros i r0 i0 Q. unfold fresh in Q. rewrite HI in Q. destruct (p_run q true i (p_init p)) as [[[r2 i2] s2]| |] eqn:Q0; try discriminate.
      inversion Q; subst. destruct (HR _ _ _ _ Q0) as [r3 [i3 [s3 [Q1 Q2]]]]. exists r3, i3. unfold fresh. rewrite Q1. split; [reflexivity|].
      destruct (value_of r3) as [v|] eqn:V.
      - destruct (g v) as [w|] eqn:G.
        + inversion Q2; subst. split; [|reflexivity]. destruct r3; inversion V; reflexivity.
        + intros Hq. destruct Q2 as [e [i4 [Q3 [[Q4 Q5]|[Q4 [Q5|[Q5 Q6]]]]]]]; inversion Q4; subst; simpl; rewrite ?Q5; auto. congruence.
      - inversion Q2; subst. destruct r3; try discriminate V; simpl; auto. }
    destruct (value_of r) as [v|] eqn:V.
    + assert (Fok : (exists r1, k ++ r' = r1 ++ rest i1 /\ i1 = Inp (rest i1) (pos_after (pos_after pos l) r1) f /\
           always_ok f (fresh p) pos (l ++ r1) (rest i1) v /\ (l = [] -> committed r = nonempty r1)) /\
        Cln f s' /\ (true = true -> f = true -> k ++ r' <> [])).
      { unfold fits in F. destruct r; inversion V; subst; exact F. }
      clear F. destruct Fok as [[r1 [F1 [F2 [F3 F4]]]] [F5 F6]].
      destruct (g v) as [w|] eqn:G.
      * subst out. assert (Fw : always_ok f (fresh q) pos (l ++ r1) (rest i1) w).
        { intros m Hm r0 i0 Q. destruct (W _ _ _ Q) as [r2 [i2 [Q1 Q2]]]. destruct (F3 m Hm _ _ Q1) as [Q3 Q4].
          subst r2. rewrite value_okr, G, committed_okr in Q2. destruct Q2. subst. auto. }
        unfold fits. destruct r; inversion V; subst; simpl; (split; [exists r1; auto|auto]).
      * assert (Fe : always_err f (fresh q) pos (l ++ k ++ r') (nonempty (l ++ r1))).
        { intros m Hm r0 i0 Q. destruct (W _ _ _ Q) as [r2 [i2 [Q1 Q2]]]. rewrite F1 in Q1. rewrite !app_assoc in Q1. rewrite <- app_assoc in Q1.
          destruct (F3 m Hm _ _ Q1) as [Q3 Q4]. subst r2 i2. rewrite value_okr, G, committed_okr in Q2. apply Q2. reflexivity. }
        destruct E2 as [e [i2 [He [[E2 E3]|[E2 E3]]]]]; subst out; unfold fits.
        -- split; [reflexivity|]. split; [intros Hf; split; [exact He|auto]|].
           assert (HL2 : l = [] \/ x && a = false).
           { destruct a; [|right; apply andb_false_r]. left. destruct first; [apply St|]. apply (cb_atomic eq_refl _ _ _ _ _ St). }
           split; [exact HL2|]. split; [auto|]. destruct l as [|t l]; simpl in *; [|exact Fe].
           rewrite E3 in F4. rewrite <- (F4 eq_refl) in Fe. exact Fe.
        -- right. split; [auto|]. destruct l as [|t l]; simpl in *; [|exact Fe].
           destruct E3 as [E3|[E3 E4]].
           ++ rewrite E3 in F4. rewrite <- (F4 eq_refl) in Fe. exact Fe.
           ++ rewrite E4, app_nil_r in F1. assert (Hf : f = true) by (rewrite F2 in E3; exact E3). specialize (F6 eq_refl Hf).
              rewrite F1 in F6. destruct r1; [congruence|]. exact Fe.
    + subst out. unfold fits in *. destruct r as [v|v|e|e]; try discriminate.
      * destruct F as [F|[F1 F2]]; [left; exact F|right; split; [exact F1|]].
        intros m Hm r0 i0 Q. destruct (W _ _ _ Q) as [r2 [i2 [Q1 Q2]]]. destruct (F2 m Hm _ _ Q1) as [Q3 Q4].
        rewrite value_ok in Q3. destruct (value_of r2); [discriminate|]. rewrite <- Q4. exact Q2.
      * destruct F as [F1 [F2 [F3 [F4 F5]]]]. split; [reflexivity|]. split; [exact F2|].
        split; [destruct F3 as [F3|F3]; [auto|right; rewrite F3; reflexivity]|].
        split; [intros Q; apply F4; destruct x; auto|].
        intros m Hm r0 i0 Q. destruct (W _ _ _ Q) as [r2 [i2 [Q1 Q2]]]. destruct (F5 m Hm _ _ Q1) as [Q3 Q4].
        rewrite value_ok in Q3. destruct (value_of r2); [discriminate|]. rewrite <- Q4. exact Q2.
Qed.

Lemma chunk_flat_map x a n {S A B} Cln Res (p : parser C S A) (g : A -> B + E) : chunk_by x a n true Cln Res p ->
  (forall o e, g o = inr e -> e_is_eoi C e = false) -> chunk_by (x && a) a false true Cln Res (flat_map p g).
Proof.
  intros H G. apply (chunk_refuse x a n Cln Res p (flat_map p g) (fun o => match g o with inl b => Some b | inr _ => None end)); auto;
    simpl; try apply (cb_adderr H); try apply (cb_cexp H).
  intros first i st out E0. simpl in E0. destruct (p_run p first i st) as [[[r j] s']| |]; try discriminate. simpl in E0.
  exists r, j, s'. split; [reflexivity|]. destruct r as [v|v|e|e]; simpl; inversion E0; subst; auto;
    destruct (g v) as [b|e] eqn:Gv; auto; exists e, j; (split; [eapply G; eauto|]); auto.
Qed.

Lemma input_at_eof_rest (i : input C) : input_at_eof i = true -> rest i = [].
Proof. unfold input_at_eof, uncons. destruct (rest i); auto. discriminate. Qed.

Lemma and_then_cases {S A B} (p : parser C S A) (g : A -> B + SErr C) : (forall o e, g o = inr e -> se_is_eoi C e = false) ->
  forall first i st out, p_run (and_then p g) first i st = Done out -> exists r i1 s', p_run p first i st = Done (r, i1, s') /\
     match value_of r with
     | Some v => match match g v with inl b => Some b | inr _ => None end with
                 | Some w => out = (pr_map (fun _ => w) r, i1, s')
                 | None => exists e i2, e_is_eoi C e = false /\ ((out = (PeekErr (to_trk e), i2, s') /\ committed r = false) \/
                             (out = (CommitErr e, i2, s') /\ (committed r = true \/ (ipart i1 = true /\ rest i1 = []))))
                 end
     | None => out = (match r with CommitErr e => CommitErr e | PeekErr e => PeekErr e | CommitOk _ | PeekOk _ => PeekErr (to_trk (e_empty C (ipos i))) end, i1, s')
     end.
Proof.
  intros G first i st out E0. simpl in E0. destruct (p_run p first i st) as [[[r j] s']| |]; try discriminate. simpl in E0.
  exists r, j, s'. split; [reflexivity|]. destruct r as [v|v|e|e]; simpl in *; try (inversion E0; subst; auto; fail);
    destruct (g v) as [b|e] eqn:Gv; try (inversion E0; subst; auto; fail).
  - inversion E0; subst. exists (e_from C (ipos i) e). eexists. split; [rewrite (el_from EL); eapply G; eauto|]. right. split; [reflexivity|auto].
  - destruct (ipart j && input_at_eof j) eqn:Q; inversion E0; subst; exists (e_from C (ipos i) e); eexists;
      (split; [rewrite (el_from EL); eapply G; eauto|]).
    + right. split; [reflexivity|]. right. apply andb_true_iff in Q. destruct Q. split; auto. apply input_at_eof_rest. auto.
    + left. split; reflexivity.
Qed.

Lemma chunk_and_then x a n {S A B} Cln Res (p : parser C S A) (g : A -> B + SErr C) : chunk_by x a n true Cln Res p ->
  (forall o e, g o = inr e -> se_is_eoi C e = false) -> chunk_by (x && a) a false true Cln Res (and_then p g).
Proof.
  intros H G. apply (chunk_refuse x a n Cln Res p (and_then p g) (fun o => match g o with inl b => Some b | inr _ => None end)); auto;
    simpl; try apply (cb_adderr H); try apply (cb_cexp H). apply and_then_cases. exact G.
Qed.
Lemma chunk_from_str x a n {S A B} Cln Res (p : parser C S A) (g : A -> option (B + string)) : chunk_by x a n true Cln Res p ->
  chunk_by (x && a) a false true Cln Res (from_str p g).
Proof.
  intros H. unfold from_str. match goal with |- context [p_init ?q] => set (q0 := q) end.
  apply (chunk_same (x && a) a false true Cln Res q0); auto; try (simpl; apply (cb_adderr H)); try (simpl; apply (cb_cexp H)).
  unfold q0. apply chunk_and_then with (n := n); [exact H|]. intros o e Q. destruct (g o) as [[b|m]|]; inversion Q.
  - apply (el_message EL).
  - apply (el_expected EL).
Qed.

End Wrap.
