(** Proofs for C29: look-ahead, atomic parsers, ranges. *)
From Coq Require Import String List Bool Arith NArith Lia.
Import ListNotations.
From Verif Require Import Base Parser Token Combinator Sequence Choice Repeat RangeP Spec SeqSpec ChoiceSpec TidySpec RepeatSpec AgreeSpec.
From Verif Require Import ResultProofs SeqProofs CombProofs ChoiceProofs CombProofs2 RepeatProofs ChunkSpec ChunkProofs ChunkProofs2.
Unset Implicit Arguments.

Section Atomic.
Context {C : Cfg}.
Notation T := (tok C).
Notation E := (Err C).
Notation nonempty := consumed_some.
Variable EL : eoi_laws C.

Lemma lazy_to_run x a n h {S A} Cln Res (p : parser C S A) : chunk_by x a n h Cln Res p -> forall i r i', p_lazy p i = Done (r, i') ->
  exists i2 s', p_run p true i (p_init p) = Done (r, i2, s') /\ fresh p i = Done (r, i2) /\ (is_ok r = true -> i' = i2).
Proof.
  intros H i r i' Q. destruct (cb_lazy H i) as [K|K]; rewrite K in Q; clear K.
  - unfold default_lazy in Q. unfold fresh. destruct (p_run p true i (p_init p)) as [[[r0 i0] s0]| |]; try discriminate.
    destruct r0; inversion Q; subst; eexists; eexists; (split; [reflexivity|]); (split; [reflexivity|]); auto; discriminate.
  - unfold fresh in *. destruct (p_run p true i (p_init p)) as [[[r0 i0] s0]| |]; try discriminate. inversion Q; subst.
    eexists; eexists; (split; [reflexivity|]); (split; [reflexivity|]); auto.
Qed.

Lemma chunk_look_ahead x a n h {S A} Cln Res (p : parser C S A) : chunk_by x a n h Cln Res p ->
  chunk_by true true n h ucln ures (look_ahead p).
Proof.
  intros H. unfold look_ahead. apply chunk_lazy; [apply (cb_adderr H)|apply (cb_cexp H)|].
  set (lz := fun i => omap (fun x0 : PR A E * input C => match x0 with (CommitOk o, _) | (PeekOk o, _) => (PeekOk o, i) | (r, _) => (r, i) end) (p_lazy p i)).
  assert (W : forall i r i', lz i = Done (r, i') -> exists r0 i0 s0, p_run p true i (p_init p) = Done (r0, i0, s0) /\ fresh p i = Done (r0, i0) /\ i' = i /\
    match r0 with CommitOk v | PeekOk v => r = PeekOk v | CommitErr e => r = CommitErr e | PeekErr e => r = PeekErr e end).
  { intros i r i' Q. unfold lz in Q. destruct (p_lazy p i) as [[r0 i0]| |] eqn:Q0; try discriminate.
    destruct (lazy_to_run x a n h Cln Res p H _ _ _ Q0) as [i2 [s2 [Q1 [Q2 _]]]]. exists r0, i2, s2. split; [exact Q1|]. split; [exact Q2|].
    destruct r0; inversion Q; auto. }
  intros f pos r res i' Q. destruct (W _ _ _ Q) as [r0 [i0 [s0 [Q1 [Q2 [Q3 Q4]]]]]]. subst i'.
  assert (St : started Cln Res f true pos [] [] (p_init p)) by (simpl; split; [reflexivity|split; [reflexivity|apply (cb_init H)]]).
  pose proof (cb_run H f true pos [] [] r (p_init p) St _ Q1) as F. simpl in F.
  destruct r0 as [v|v|e|e]; subst res; unfold fits; simpl.
  - destruct F as [[r1 [F1 [F2 [F3 F4]]]] [F5 F6]]. split; [|split; [exact I|exact F6]]. exists []. split; [reflexivity|]. split; [reflexivity|].
    split; [|reflexivity]. intros m Hm r2 i2 Q5. simpl in Q5. destruct (W _ _ _ Q5) as [r3 [i3 [s3 [_ [Q6 [Q7 Q8]]]]]].
    rewrite F1, <- app_assoc in Q6. destruct (F3 m Hm _ _ Q6) as [Q9 Q10]. subst r3. destruct (nonempty r1); simpl in Q8; subst; auto.
  - destruct F as [[r1 [F1 [F2 [F3 F4]]]] [F5 F6]]. split; [|split; [exact I|exact F6]]. exists []. split; [reflexivity|]. split; [reflexivity|].
    split; [|reflexivity]. intros m Hm r2 i2 Q5. simpl in Q5. destruct (W _ _ _ Q5) as [r3 [i3 [s3 [_ [Q6 [Q7 Q8]]]]]].
    rewrite F1, <- app_assoc in Q6. destruct (F3 m Hm _ _ Q6) as [Q9 Q10]. subst r3. destruct (nonempty r1); simpl in Q8; subst; auto.
  - destruct F as [[F1 [F2 [r1 [F3 [F4 [F5 F6]]]]]]|[F1 F2]].
    + left. split; [exact F1|]. split; [exact F2|]. exists []. repeat split; auto.
    + right. split; [exact F1|]. intros m Hm r2 i2 Q5. destruct (W _ _ _ Q5) as [r3 [i3 [s3 [_ [Q6 [Q7 Q8]]]]]].
      destruct (F2 m Hm _ _ Q6) as [Q9 Q10]. destruct r3; try discriminate; subst; auto.
  - destruct F as [F1 [F2 [F3 [F4 F5]]]]. split; [exact F1|]. split; [exact F2|]. split; [auto|]. split; [intros; exact I|].
    intros m Hm r2 i2 Q5. destruct (W _ _ _ Q5) as [r3 [i3 [s3 [_ [Q6 [Q7 Q8]]]]]].
    destruct (F5 m Hm _ _ Q6) as [Q9 Q10]. destruct r3; try discriminate; subst; auto.
Qed.

Lemma chunk_no_partial x a n h {S A} Cln Res (p : parser C S A) : chunk_by x a n h Cln Res p ->
  (forall i, p_lazy p i = default_lazy (p_init p) (p_run p) i) -> chunk_by true true n h ucln ures (no_partial p).
Proof.
  intros H HL. 
  assert (W : forall i r i', p_lazy p i = Done (r, i') -> exists i0 s0, p_run p true i (p_init p) = Done (r, i0, s0) /\ fresh p i = Done (r, i0) /\
    match r with CommitErr _ => i' = (if ipart i then i else i0) | _ => i' = i0 end).
  { intros i r i' Q. rewrite HL in Q. unfold default_lazy in Q. unfold fresh. destruct (p_run p true i (p_init p)) as [[[r0 i0] s0]| |]; try discriminate.
    destruct r0; inversion Q; subst; eexists; eexists; (split; [reflexivity|]); (split; [reflexivity|]); auto. }
  assert (WF : forall i, fresh (no_partial p) i = p_lazy p i).
  { intros i. unfold fresh. simpl. destruct (p_lazy p i) as [[r j]| |]; reflexivity. }
  apply chunk_unit; [apply (cb_adderr H)|apply (cb_cexp H)|left; reflexivity|intros i; right; symmetry; apply WF|reflexivity|].
  { intros f pos r res i' Q. simpl in Q. destruct (p_lazy p (Inp r pos f)) as [[r0 j]| |] eqn:Q0; try discriminate. inversion Q; subst; clear Q.
  apply fits_beh with (b := fun i => p_lazy p i); [intros i; symmetry; apply WF|].
  destruct (W _ _ _ Q0) as [i0 [s0 [Q1 [Q2 Q3]]]].
  assert (St : started Cln Res f true pos [] [] (p_init p)) by (simpl; split; [reflexivity|split; [reflexivity|apply (cb_init H)]]).
  pose proof (cb_run H f true pos [] [] r (p_init p) St _ Q1) as F. simpl in F.
  destruct res as [v|v|e|e]; subst i'; unfold fits; simpl.
  - destruct F as [[r1 [F1 [F2 [F3 F4]]]] [F5 F6]]. split; [|split; [exact I|exact F6]]. exists r1. split; [exact F1|]. split; [exact F2|].
    split; [|exact F4]. intros m Hm r2 i2 Q5. destruct (W _ _ _ Q5) as [i3 [s3 [_ [Q6 Q7]]]].
    destruct (F3 m Hm _ _ Q6) as [Q9 Q10]. subst. destruct (nonempty r1); simpl in *; subst; auto.
  - destruct F as [[r1 [F1 [F2 [F3 F4]]]] [F5 F6]]. split; [|split; [exact I|exact F6]]. exists r1. split; [exact F1|]. split; [exact F2|].
    split; [|exact F4]. intros m Hm r2 i2 Q5. destruct (W _ _ _ Q5) as [i3 [s3 [_ [Q6 Q7]]]].
    destruct (F3 m Hm _ _ Q6) as [Q9 Q10]. subst. destruct (nonempty r1); simpl in *; subst; auto.
  - destruct F as [[F1 [F2 [r1 [F3 [F4 [F5 F6]]]]]]|[F1 F2]].
    + left. split; [exact F1|]. split; [exact F2|]. subst f. exists []. repeat split; auto.
    + right. split; [exact F1|]. intros m Hm r2 i2 Q5. destruct (W _ _ _ Q5) as [i3 [s3 [_ [Q6 Q7]]]]. apply (F2 m Hm _ _ Q6).
  - destruct F as [F1 [F2 [F3 [F4 F5]]]]. split; [exact F1|]. split; [exact F2|]. split; [auto|]. split; [intros; exact I|].
    intros m Hm r2 i2 Q5. destruct (W _ _ _ Q5) as [i3 [s3 [_ [Q6 Q7]]]]. apply (F5 m Hm _ _ Q6). }
Qed.

(** * Ranges *)
Variable L : lawful C.

Lemma span_stop (g : T -> bool) : forall r1 r2, forallb g r1 = true -> match r2 with [] => True | t :: _ => g t = false end ->
  span_while g (r1 ++ r2) = (r1, r2).
Proof.
  induction r1 as [|t r1 IH]; simpl; intros r2 H1 H2.
  - destruct r2 as [|t r2]; simpl; auto. rewrite H2. reflexivity.
  - apply andb_true_iff in H1. destruct H1 as [H1 H3]. rewrite H1, (IH r2 H3 H2). reflexivity.
Qed.
Lemma span_cases (g : T -> bool) : forall l r1 r2, span_while g l = (r1, r2) ->
  l = r1 ++ r2 /\ forallb g r1 = true /\ match r2 with [] => True | t :: _ => g t = false end.
Proof.
  induction l as [|t l IH]; simpl; intros r1 r2 H; [inversion H; auto|].
  destruct (g t) eqn:G; [|inversion H; subst; simpl; auto].
  destruct (span_while g l) as [a b] eqn:Q. inversion H; subst. destruct (IH a r2 eq_refl) as [H1 [H2 H3]]. subst l. simpl. rewrite G. auto.
Qed.
Lemma range_len_nil0 (l : list T) : (range_len (C:=C) l =? 0) = negb (nonempty l).
Proof.
  destruct l as [|t l]; simpl; auto. pose proof (law_width L t). destruct (width C t + range_len l) eqn:Q; [lia|]. reflexivity.
Qed.
Lemma s_uncons_while_eq (g : T -> bool) r1 r2 pos f : forallb g r1 = true -> match r2 with [] => True | t :: _ => g t = false end ->
  s_uncons_while (C:=C) (Inp (r1 ++ r2) pos f) g =
  if f && negb (nonempty r2) then (CommitErr (e_from C (pos_after pos r1) (se_eoi C)), Inp r2 (pos_after pos r1) f)
  else (okr (nonempty r1) r1, Inp r2 (pos_after pos r1) f).
Proof.
  intros H1 H2. unfold s_uncons_while, m_uncons_while. simpl. rewrite (span_stop g r1 r2 H1 H2). unfold advance. simpl.
  unfold input_at_eof, uncons. simpl. rewrite range_len_nil0. destruct r2; simpl; rewrite ?(el_se EL).
  - destruct f; simpl; auto. destruct (nonempty r1); reflexivity.
  - rewrite !andb_false_r. destruct (nonempty r1); reflexivity.
Qed.
Lemma s_uncons_while1_eq (g : T -> bool) r1 r2 pos f : forallb g r1 = true -> match r2 with [] => True | t :: _ => g t = false end ->
  s_uncons_while1 (C:=C) (Inp (r1 ++ r2) pos f) g =
  if f && negb (nonempty r2) then (CommitErr (e_from C (pos_after pos r1) (se_eoi C)), Inp r2 (pos_after pos r1) f)
  else if nonempty r1 then (CommitOk r1, Inp r2 (pos_after pos r1) f)
  else (PeekErr (to_trk (e_empty C pos)), Inp r2 pos f).
Proof.
  intros H1 H2. unfold s_uncons_while1, m_uncons_while1. simpl. destruct r1 as [|t r1]; simpl.
  - destruct r2 as [|t r2]; simpl; unfold input_at_eof, uncons; simpl; rewrite ?(el_se EL).
    + destruct f; reflexivity.
    + rewrite H2. simpl. rewrite !andb_false_r. reflexivity.
  - simpl in H1. apply andb_true_iff in H1. destruct H1 as [H1 H3]. rewrite H1, (span_stop g r1 r2 H3 H2). unfold advance. simpl.
    unfold input_at_eof, uncons. simpl. destruct r2; simpl; rewrite ?(el_se EL), ?andb_true_r, ?andb_false_r; destruct f; reflexivity.
Qed.

Definition wcln (f : bool) (d : nat) : Prop := f = true -> d = 0.
Definition wres (g : T -> bool) (f : bool) (_ : Pos C) (l k : list T) (d : nat) : Prop :=
  l = [] /\ (f = true -> d = range_len k /\ forallb g k = true).

(** [take_while] and [take_while1] at once: [one] tells which. *)
Definition tw_first (one : bool) (g : T -> bool) (i : input C) : PR (list T) E * input C :=
  if one then s_uncons_while1 i g else s_uncons_while i g.
Lemma tw_first_eq one g r1 r2 pos f : forallb g r1 = true -> match r2 with [] => True | t :: _ => g t = false end ->
  tw_first one g (Inp (r1 ++ r2) pos f) =
  if f && negb (nonempty r2) then (CommitErr (e_from C (pos_after pos r1) (se_eoi C)), Inp r2 (pos_after pos r1) f)
  else if negb one || nonempty r1 then (okr (nonempty r1) r1, Inp r2 (pos_after pos r1) f)
  else (PeekErr (to_trk (e_empty C pos)), Inp r2 pos f).
Proof.
  intros H1 H2. unfold tw_first. destruct one; [rewrite s_uncons_while1_eq|rewrite s_uncons_while_eq]; auto; simpl;
    destruct (f && negb (nonempty r2)); auto. destruct r1; reflexivity.
Qed.

Definition tw (one : bool) (g : T -> bool) : parser C nat (list T) :=
  mk_mode 0 (parse_partial_range (fun i => tw_first one g i) (fun i => s_uncons_while i g)) no_err no_err 1.

Lemma tw_fresh one g r1 r2 pos : forallb g r1 = true -> match r2 with [] => True | t :: _ => g t = false end ->
  fresh (tw one g) (Inp (r1 ++ r2) pos false) = 
  Done (if negb one || nonempty r1 then (okr (nonempty r1) r1, Inp r2 (pos_after pos r1) false)
  else (PeekErr (to_trk (e_empty C pos)), Inp r2 pos false)).
Proof.
  intros H1 H2. unfold fresh. simpl. unfold parse_partial_range. simpl. rewrite (tw_first_eq one g r1 r2 pos false H1 H2). simpl.
  destruct (negb one || nonempty r1); reflexivity.
Qed.

Lemma tw_always_ok one g f pos r1 r2 : forallb g r1 = true -> match r2 with [] => f = false | t :: _ => g t = false end ->
  negb one || nonempty r1 = true -> always_ok f (fresh (tw one g)) pos r1 r2 r1.
Proof.
  intros H1 H2 H3 m Hm r i' Q. rewrite (tw_fresh one g r1 (r2 ++ m) pos H1), H3 in Q.
  - inversion Q. auto.
  - destruct r2; simpl; auto. subst f. destruct Hm as [Hm|Hm]; [discriminate|]. subst. exact I.
Qed.
Lemma tw_always_err g f pos r2 : match r2 with [] => f = false | t :: _ => g t = false end ->
  always_err f (fresh (tw true g)) pos r2 false.
Proof.
  intros H2 m Hm r i' Q. pose proof (tw_fresh true g [] (r2 ++ m) pos eq_refl) as K. simpl app in K. rewrite K in Q.
  - inversion Q. auto.
  - destruct r2; simpl; auto. subst f. destruct Hm as [Hm|Hm]; [discriminate|]. subst. exact I.
Qed.

Lemma chunk_tw one g : chunk_by true true (negb one) true wcln (wres g) (tw one g).
Proof.
  constructor; simpl; auto; try apply noneoi_no.
  - intros f _. reflexivity.
  - intros s _ Hf. discriminate.
  - intros f pos s Hs. split; [reflexivity|]. intros Hf. split; [apply Hs; exact Hf|reflexivity].
  - intros _ f pos l k s [Hl _]. exact Hl.
  - intros f first pos l k r' d St out E0.
    assert (Hl : l = []) by (destruct first; apply St). subst l. simpl in E0.
    set (r := k ++ r') in *. destruct (span_while g r) as [r1 r2] eqn:SP. destruct (span_cases _ _ _ _ SP) as [S1 [S2 S3]].
    unfold parse_partial_range in E0. simpl in E0. destruct f; simpl in E0.
    + (* a partial chunk *)
      assert (Main : forall res i' s', (if nonempty r2 then
            (if negb one || nonempty r1 then (okr (nonempty r1) r1, Inp r2 (pos_after pos r1) true) else (PeekErr (to_trk (e_empty C pos)), i')) = (res, i') /\ s' = 0
          else res = CommitErr (e_from C (pos_after pos r1) (se_eoi C)) /\ i' = Inp r pos true /\ s' = range_len r) ->
        fits true true (negb one) true true wcln (wres g) (fresh (tw one g)) pos [] r (res, i', s')).
      { intros res i' s' Q. destruct r2 as [|t r2]; simpl in Q.
        - destruct Q as [Q1 [Q2 Q3]]. subst. rewrite app_nil_r in *. unfold fits. left. split; [reflexivity|].
          split; [rewrite (el_from EL); apply (el_se EL)|]. exists []. simpl. split; [reflexivity|]. split; [reflexivity|]. split; [auto|].
          intros g0. split; [reflexivity|]. intros _. split; [congruence|]. rewrite S1. exact S2.
        - destruct Q as [Q1 Q2]. destruct (negb one || nonempty r1) eqn:N1.
          + inversion Q1; subst res i'. unfold fits.
            assert (K : (exists r3, r = r3 ++ rest (Inp (t :: r2) (pos_after pos r1) true) /\
               Inp (t :: r2) (pos_after pos r1) true = Inp (rest (Inp (t :: r2) (pos_after pos r1) true)) (pos_after (pos_after pos []) r3) true /\
               always_ok true (fresh (tw one g)) pos ([] ++ r3) (rest (Inp (t :: r2) (pos_after pos r1) true)) r1 /\
               (@nil T = [] -> nonempty r1 = nonempty r3)) /\ wcln true s' /\ (true = true -> true = true -> r <> [])).
            { split; [|split; [intros _; exact Q2|intros _ _; rewrite S1; destruct r1; discriminate]]. exists r1. split; [exact S1|].
              split; [reflexivity|]. split; [|reflexivity]. apply tw_always_ok; auto. }
            destruct (nonempty r1) eqn:N2; simpl; exact K.
          + inversion Q1; subst res. apply orb_false_iff in N1. destruct N1 as [N1 N2]. apply nonempty_nil in N2. subst r1. destruct one; [|discriminate].
            unfold fits. split; [reflexivity|]. split; [intros _; split; [apply (el_empty EL)|rewrite S1; discriminate]|]. split; [auto|].
            split; [intros _ _; exact Q2|]. simpl. rewrite S1. apply tw_always_err. exact S3. }
      destruct (first || (d =? 0)) eqn:FD.
      * assert (Hd : d = 0). { destruct first; simpl in *; [apply St; reflexivity|apply Nat.eqb_eq; exact FD]. }
        rewrite S1, (tw_first_eq one g r1 r2 pos true S2 S3) in E0. rewrite <- S1 in E0. simpl in E0.
        destruct r2 as [|t r2]; simpl in E0.
        -- inversion E0; subst out. apply Main. simpl. split; [reflexivity|]. split; [reflexivity|]. unfold distance. simpl. lia.
        -- destruct (negb one || nonempty r1) eqn:N1.
           ++ destruct (nonempty r1) eqn:N2; simpl in E0; inversion E0; subst out; apply Main; simpl; rewrite ?N1, ?N2, ?orb_true_r; auto.
           ++ inversion E0; subst out. apply Main. simpl. rewrite ?N1. auto.
      * apply orb_false_iff in FD. destruct FD as [FD1 FD2]. subst first. simpl in St. destruct St as [_ St]. destruct (St eq_refl) as [St1 St2].
        assert (HA : advanced_by (Inp r pos true) k (Inp r' (pos_after pos k) true)) by (repeat split; reflexivity).
        rewrite St1, (uncons_range_exact L _ _ _ HA) in E0.
        assert (HK : nonempty k = true). { destruct k; auto. subst d. simpl in FD2. discriminate. }
        destruct (span_while g r') as [q1 q2] eqn:SP2. destruct (span_cases _ _ _ _ SP2) as [P1 [P2 P3]].
        assert (R12 : r1 = k ++ q1 /\ r2 = q2).
        { assert (Q : span_while g r = (k ++ q1, q2)).
          { unfold r. rewrite P1, app_assoc. apply span_stop; auto. rewrite forallb_app, St2, P2. reflexivity. }
          rewrite SP in Q. inversion Q. auto. }
        destruct R12 as [R1 R2]. rewrite P1, (s_uncons_while_eq g q1 q2 _ true P2 P3) in E0. simpl in E0.
        assert (N1 : negb one || nonempty r1 = true). { rewrite R1, nonempty_app, HK. apply orb_true_r. }
        assert (N2 : nonempty r1 = true) by (rewrite R1, nonempty_app, HK; reflexivity).
        assert (HB : advanced_by (Inp r pos true) r1 (Inp q2 (pos_after (pos_after pos k) q1) true)).
        { split; [simpl; rewrite S1, R2; reflexivity|]. split; [simpl; rewrite R1; symmetry; apply pos_after_app|reflexivity]. }
        destruct q2 as [|t q2]; simpl in E0.
        -- inversion E0; subst out. apply Main. rewrite R2. simpl. split; [rewrite R1, pos_after_app; reflexivity|]. split; [reflexivity|].
           unfold distance. simpl. lia.
        -- assert (E2 : Done (okr (nonempty r1) r1, Inp (t :: q2) (pos_after (pos_after pos k) q1) true, 0) = Done out).
           { rewrite N2. destruct (nonempty q1) eqn:NQ; simpl in E0.
             - rewrite (distance_exact _ _ _ HB), (s_uncons_range_exact L _ _ _ HB) in E0. rewrite N2 in E0. exact E0.
             - rewrite (distance_exact _ _ _ HB), (s_uncons_range_exact L _ _ _ HB) in E0. rewrite N2 in E0. exact E0. }
           inversion E2; subst out. apply Main. rewrite R2. simpl. rewrite ?N1. split; [|reflexivity]. rewrite R1, pos_after_app. reflexivity.
    + (* the end was seen *)
      rewrite S1, (tw_first_eq one g r1 r2 pos false S2 S3) in E0. simpl in E0.
      assert (S3' : match r2 with [] => false = false | t :: _ => g t = false end) by (destruct r2; auto).
      destruct (negb one || nonempty r1) eqn:N1; inversion E0; subst out; clear E0.
      * assert (K : (exists r3, r = r3 ++ r2 /\ Inp r2 (pos_after pos r1) false = Inp r2 (pos_after (pos_after pos []) r3) false /\
               always_ok false (fresh (tw one g)) pos ([] ++ r3) r2 r1 /\
               (@nil T = [] -> nonempty r1 = nonempty r3)) /\ wcln false d /\ (true = true -> false = true -> r <> [])).
        { split; [|split; [intros; discriminate|intros _; discriminate]]. exists r1. split; [exact S1|].
          split; [reflexivity|]. split; [|reflexivity]. apply tw_always_ok; auto. }
        unfold fits. destruct (nonempty r1) eqn:N2; simpl; exact K.
      * apply orb_false_iff in N1. destruct N1 as [N1 N2]. apply nonempty_nil in N2. subst r1. destruct one; [|discriminate].
        unfold fits. split; [reflexivity|]. split; [intros; discriminate|]. split; [auto|].
        split; [intros _ Hq; discriminate|]. simpl. rewrite S1. apply tw_always_err. exact S3'.
Qed.

Lemma chunk_take_while g : chunk_by true true true true wcln (wres g) (take_while g).
Proof. exact (chunk_tw false g). Qed.
Lemma chunk_take_while1 g : chunk_by true true false true wcln (wres g) (take_while1 g).
Proof. exact (chunk_tw true g). Qed.

Definition rcln {S} (Cln : bool -> S -> Prop) (f : bool) (st : nat * S) : Prop := fst st = 0 /\ Cln f (snd st).
Definition rres {S} (Res : bool -> Pos C -> list T -> list T -> S -> Prop) (f : bool) (pos : Pos C) (l k : list T) (st : nat * S) : Prop :=
  l = [] /\ exists lc kc, k = lc ++ kc /\ fst st = range_len lc /\ Res f pos lc kc (snd st).

Lemma recognize_with_value_cases {S A} (p : parser C S A) : forward p -> forall i r i', fresh (recognize_with_value p) i = Done (r, i') ->
  exists r0 i0, fresh p i = Done (r0, i0) /\
    match r0 with
    | CommitOk a | PeekOk a => exists l, advanced_by i l i0 /\ r = okr (nonempty l) (l, a) /\ i' = i0
    | CommitErr e => r = CommitErr e
    | PeekErr e => r = PeekErr e
    end.
Proof.
  intros HF i r i' Q. unfold fresh in *. simpl in Q. destruct (p_run p true i (p_init p)) as [[[r0 j] s]| |] eqn:Hp; try discriminate.
  exists r0, j. split; [reflexivity|]. destruct (HF _ _ _ _ _ _ Hp) as [l Ha]. simpl in Q.
  destruct r0 as [a|a|e|e]; try (inversion Q; subst; reflexivity);
    rewrite (distance_exact _ _ _ Ha), (s_uncons_range_exact L _ _ _ Ha) in Q; exists l; destruct (nonempty l); inversion Q; subst; split; auto.
Qed.

Lemma chunk_recognize_with_value n h {S A} Cln Res (p : parser C S A) : chunk_by true false n h Cln Res p -> forward p ->
  chunk_by true true n h (rcln Cln) (rres Res) (recognize_with_value p).
Proof.
  intros H HF. pose proof (recognize_with_value_cases p HF) as RW.
  constructor; simpl; auto; try apply noneoi_no.
  - intros f. split; [reflexivity|apply (cb_init H)].
  - intros s [H1 H2]. split; [exact H1|apply (cb_cln H); exact H2].
  - intros f pos s [H1 H2]. split; [reflexivity|]. exists [], []. split; [reflexivity|]. split; [exact H1|apply (cb_res H); exact H2].
  - intros _ f pos l k s [H1 _]. exact H1.
  - apply (cb_adderr H).
  - intros f first pos l k r' [d s] St out E0.
    assert (K : exists lc kc, l = [] /\ k = lc ++ kc /\ d = range_len lc /\ started Cln Res f first pos lc kc s).
    { destruct first; simpl in St.
      - destruct St as [St1 [St2 [St3 St4]]]. exists [], []. simpl in *. auto 10.
      - destruct St as [St1 [lc [kc [St2 [St3 St4]]]]]. exists lc, kc. simpl in *. auto. }
    destruct K as [lc [kc [Hl [Hk [Hd Sc]]]]]. subst l k d. rewrite <- app_assoc in *. simpl in E0.
    assert (HA : advanced_by (Inp (lc ++ kc ++ r') pos f) lc (Inp (kc ++ r') (pos_after pos lc) f)) by (repeat split; reflexivity).
    assert (E1 : obind (p_run p first (Inp (kc ++ r') (pos_after pos lc) f) s) (fun x => match x with (r, i2, child') =>
         match r with
         | PeekErr e => Done (PeekErr e, i2, (range_len lc, child'))
         | CommitErr e => Done (CommitErr e, Inp (lc ++ kc ++ r') pos f, (distance i2 (Inp (lc ++ kc ++ r') pos f), child'))
         | CommitOk v | PeekOk v =>
             let (r2, i3) := s_uncons_range (Inp (lc ++ kc ++ r') pos f) (distance i2 (Inp (lc ++ kc ++ r') pos f)) in
             Done (pr_map (fun rg => (rg, v)) r2, i3, (if is_ok r2 then 0 else range_len lc, child'))
         end end) = Done out).
    { destruct first.
      - simpl in Sc. destruct Sc as [Sc1 [Sc2 _]]. subst. simpl in *. exact E0.
      - rewrite (uncons_range_exact L _ _ _ HA) in E0. exact E0. }
    clear E0. destruct (p_run p first (Inp (kc ++ r') (pos_after pos lc) f) s) as [[[r i2] s2]| |] eqn:E2; try discriminate.
    pose proof (cb_run H _ _ _ _ _ _ _ Sc _ E2) as F. simpl in E1.
    assert (Fin : forall v, (exists r1, kc ++ r' = r1 ++ rest i2 /\ i2 = Inp (rest i2) (pos_after (pos_after pos lc) r1) f /\
           always_ok f (fresh p) pos (lc ++ r1) (rest i2) v /\ (lc = [] -> committed r = nonempty r1)) /\
        Cln f s2 /\ (h = true -> f = true -> kc ++ r' <> []) ->
        (let (r2, i3) := s_uncons_range (Inp (lc ++ kc ++ r') pos f) (distance i2 (Inp (lc ++ kc ++ r') pos f)) in
             Done (pr_map (fun rg => (rg, v)) r2, i3, (if is_ok r2 then 0 else range_len lc, s2))) = Done out ->
        fits true true n h f (rcln Cln) (rres Res) (fresh (recognize_with_value p)) pos [] (lc ++ kc ++ r') out).
    { intros v [[r1 [F1 [F2 [F3 F4]]]] [F5 F6]] Q.
      assert (HB : advanced_by (Inp (lc ++ kc ++ r') pos f) (lc ++ r1) i2).
      { split; [simpl; rewrite F1, app_assoc; reflexivity|]. rewrite F2. simpl. split; [symmetry; apply pos_after_app|reflexivity]. }
      rewrite (distance_exact _ _ _ HB), (s_uncons_range_exact L _ _ _ HB) in Q.
      assert (Fin : (exists r3, lc ++ kc ++ r' = r3 ++ rest i2 /\ i2 = Inp (rest i2) (pos_after (pos_after pos []) r3) f /\
           always_ok f (fresh (recognize_with_value p)) pos ([] ++ r3) (rest i2) (lc ++ r1, v) /\ (@nil T = [] -> nonempty (lc ++ r1) = nonempty r3)) /\
        rcln Cln f (0, s2) /\ (h = true -> f = true -> lc ++ kc ++ r' <> [])).
      { split; [|split; [split; [reflexivity|exact F5]|]].
        - exists (lc ++ r1). split; [rewrite F1, app_assoc; reflexivity|]. split; [simpl; rewrite pos_after_app; exact F2|].
          split; [|reflexivity]. simpl. intros m Hm rr ii Q2. destruct (RW _ _ _ Q2) as [r0 [i0 [Q3 Q4]]].
          destruct (F3 m Hm _ _ Q3) as [Q5 Q6]. subst r0.
          assert (Q7 : exists l, advanced_by (Inp ((lc ++ r1) ++ rest i2 ++ m) pos false) l i0 /\ rr = okr (nonempty l) (l, v) /\ ii = i0)
            by (destruct (nonempty (lc ++ r1)); exact Q4).
          destruct Q7 as [l2 [Q7 [Q8 Q9]]]. subst i0.
          assert (Q10 : l2 = lc ++ r1). { destruct Q7 as [Q7 _]. simpl in Q7. apply app_inv_tail in Q7. auto. }
          subst l2. auto.
        - intros Hh Hf Hn. apply app_eq_nil in Hn. apply (F6 Hh Hf). apply Hn. }
      unfold fits. destruct (nonempty (lc ++ r1)) eqn:NE; simpl in Q; inversion Q; subst out; exact Fin. }
    destruct r as [v|v|e|e].
    + apply (Fin v F E1).
    + apply (Fin v F E1).
    + inversion E1; subst out. unfold fits in *. destruct F as [[F1 [F2 [r1 [F3 [F4 [F5 F6]]]]]]|[F1 F2]].
      * left. split; [exact F1|]. split; [exact F2|]. exists []. simpl. subst f. split; [reflexivity|]. split; [reflexivity|]. split; [auto|].
        intros g. split; [reflexivity|]. exists (lc ++ r1), (rest i2). split; [rewrite F3, app_assoc; reflexivity|]. split; [|apply F6].
        simpl. apply distance_exact. split; [simpl; rewrite F3, app_assoc; reflexivity|]. rewrite F4. simpl. split; [symmetry; apply pos_after_app|reflexivity].
      * right. split.
        -- intros Hf. destruct (F1 Hf) as [F3 F4]. split; [exact F3|]. intros Hh Hn. apply app_eq_nil in Hn. apply (F4 Hh). apply Hn.
        -- simpl. intros m Hm rr ii Q. destruct (RW _ _ _ Q) as [r0 [i0 [Q1 Q2]]]. destruct (F2 m Hm _ _ Q1) as [Q3 Q4].
           destruct r0; try discriminate; subst; auto.
    + inversion E1; subst out. unfold fits in *. destruct F as [F1 [F2 [F3 [F4 F5]]]]. destruct F3 as [F3|F3]; [|discriminate]. subst lc. simpl in *.
      split; [exact F1|]. split; [exact F2|]. split; [auto|]. split; [intros _; split; auto|].
      intros m Hm rr ii Q. destruct (RW _ _ _ Q) as [r0 [i0 [Q1 Q2]]]. destruct (F5 m Hm _ _ Q1) as [Q3 Q4].
      destruct r0; try discriminate; subst; auto.
Qed.

End Atomic.
