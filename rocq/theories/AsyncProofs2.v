(** Proofs about interrupted sessions: what they answer for the parsers of C29's class; callers that try again. *)
From Coq Require Import String List Bool Arith NArith Lia.
Import ListNotations.
From Verif Require Import Base Errors Instances Parser Token Combinator Sequence Choice Repeat RangeP Spec SeqSpec ChoiceSpec TidySpec RepeatSpec AgreeSpec LibSpec.
From Verif Require Import ResultProofs SeqProofs CombProofs ChoiceProofs CombProofs2 RepeatProofs ForwardProofs ChunkSpec ChunkProofs ChunkProofs2 ChunkProofs3 ChunkProofs7.
From Verif Require Import DecodeM DecodeSpec DecodeProofs AsyncM AsyncSpec AsyncProofs.
Unset Implicit Arguments.

Section ISound.
Context {C : Cfg}.
Notation T := (tok C).
Notation E := (Err C).
Hypothesis EL : eoi_laws C.
Hypothesis L : lawful C.
Hypothesis D : pos_distinct C.

Section Session.
Context {S A : Type} (x a n h : bool) (Cln : bool -> S -> Prop) (Res : bool -> Pos C -> list T -> list T -> S -> Prop) (p : parser C S A).
Hypothesis H : chunk_by x a n h Cln Res p.
Variable IoE : Type.

Lemma isession_chunk st pos0 l k st1 pos b c cs used (fin : ending (C:=C) IoE A) st' pos' b' eof eof' :
  isession p st pos b eof cs used fin st' pos' b' eof' -> pos = pos_after pos0 l -> b = k ++ c -> st = st1 -> (forall g, (eof = true -> g = false) -> Res g pos0 l k st1) ->
  (forall more, (eof' = true -> more = []) -> whole_answer p pos0 (l ++ b ++ concat cs) fin b' more) /\
  match fin with EndValue _ => forall g, (eof' = true -> g = false) -> Cln g st' | _ => True end.
Proof.
  intros HS. revert l k c st1. induction HS as [st pos b eof used v st' b' E1 E2|st pos b eof e st' b' pos' E1 E2|st pos b used e st' b' ioe E1 E2 E3
    |st pos b used e st1 b1 cs used2 fin st' pos' b' eof' E1 E2 E3 HS IH|st pos b used e st1 b1 bs cs used2 fin st' pos' b' eof' E1 E2 E3 E4 HS IH|st pos b used e st1 b1 cs used2 fin st' pos' b' eof' E1 E2 E3 HS IH];
    intros l k c st2 HP HB HST HR; subst st2 pos; simpl.
  - unfold call_value, parse_with_state, parse_stream_partial in E2. rewrite HB in E2.
    destruct (p_run p false (Inp (k ++ c) (pos_after pos0 l) (negb eof)) st) as [[[r i'] s']| |] eqn:Q; try discriminate. simpl in E2.
    assert (HE : eof = true -> negb eof = false) by (intros ->; reflexivity).
    pose proof (cb_run H _ false _ _ _ _ _ (HR (negb eof) HE) _ Q) as F. unfold fits in F.
    assert (K : value_of r = Some v /\ i' = Inp b' (pos_after (pos_after pos0 l) used) (negb eof) /\ s' = st').
    { destruct r as [w|w|e|e]; simpl in E2; inversion E2; subst; auto. }
    destruct K as [K1 [K2 KS]]. subst s'. split.
    2: { assert (KC : Cln (negb eof) st') by (destruct r; try discriminate; apply F).
         intros [] Hg; destruct eof; simpl in KC; try exact KC; [discriminate (Hg eq_refl)|]. apply (cb_cln H). exact KC. }
    intros more HM.
    assert (K3 : exists r1, k ++ c = r1 ++ rest i' /\ always_ok (negb eof) (fresh p) pos0 (l ++ r1) (rest i') v).
    { destruct r as [w|w|e|e]; try discriminate; inversion K1; subst w; destruct F as [[r1 [F1 [F2 [F3 F4]]]] _]; exists r1; auto. }
    destruct K3 as [r1 [K3 K4]]. subst i'. simpl in *. assert (used = r1). { rewrite <- HB, E1 in K3. apply app_inv_tail in K3. exact K3. } subst r1 b.
    intros r3 i3 R. rewrite app_nil_r in R. replace ((l ++ used ++ b') ++ more) with ((l ++ used) ++ b' ++ more) in R by (rewrite <- !app_assoc; reflexivity).
    destruct (K4 more) with (r := r3) (i' := i3) as [R1 R2]; [destruct eof; [right; auto|left; reflexivity]|exact R|].
    exists (l ++ used). rewrite app_nil_r, <- app_assoc. auto.
  - unfold call_error, parse_with_state, parse_stream_partial in E1. rewrite HB in E1.
    destruct (p_run p false (Inp (k ++ c) (pos_after pos0 l) (negb eof)) st) as [[[r i'] s']| |] eqn:Q; try discriminate. simpl in E1.
    assert (HE : eof = true -> negb eof = false) by (intros ->; reflexivity).
    pose proof (cb_run H _ false _ _ _ _ _ (HR (negb eof) HE) _ Q) as F. unfold fits in F.
    assert (K : exists c0, always_err (negb eof) (fresh p) pos0 (l ++ k ++ c) c0).
    { destruct r as [w|w|e0|e0]; simpl in E1; try discriminate.
      - inversion E1; subst. destruct F as [[F1 [F2 _]]|[_ F]]; [|exists true; exact F]. destruct E2 as [E2|E2]; [subst eof; discriminate|congruence].
      - destruct F as [_ [_ [_ [_ F]]]]. eauto. }
    destruct K as [c0 K]. split; [|exact I]. intros more HM r3 i3 R. rewrite app_nil_r, HB in R. destruct (K more) with (r := r3) (i' := i3) as [R1 R2]; auto.
    destruct eof; [right; auto|left; reflexivity].
  - split; [|exact I]. intros more _ r i' _. exact I.
  - unfold call_error, parse_with_state, parse_stream_partial in E2. rewrite HB in E2.
    destruct (p_run p false (Inp (k ++ c) (pos_after pos0 l) true) st) as [[[r i'] s']| |] eqn:Q; try discriminate. simpl in E2.
    assert (HE : false = true -> true = false) by discriminate.
    pose proof (cb_run H _ false _ _ _ _ _ (HR true HE) _ Q) as F. unfold fits in F.
    destruct r as [w|w|e0|e0]; simpl in E2; try discriminate.
    + inversion E2; subst. destruct F as [[F1 [F2 [r1 [F3 [F4 [F5 F6]]]]]]|[F _]]; [|destruct (F eq_refl); congruence]. simpl in *.
      assert (used = r1). { rewrite <- HB in F3. apply app_inv_tail in F3. exact F3. } subst r1.
      specialize (IH (l ++ used) b1 [] st1). rewrite pos_after_app, app_nil_r in IH. specialize (IH eq_refl eq_refl eq_refl (fun g _ => F6 g)).
      rewrite <- !app_assoc in *. exact IH.
    + exfalso. destruct F as [_ [F _]]. destruct (F eq_refl) as [F1 F2]. inversion E2; subst. rewrite (augment_eoi EL _ _ _ _ _ _ _ H) in E3; auto. discriminate.
  - unfold call_error, parse_with_state, parse_stream_partial in E2. rewrite HB in E2.
    destruct (p_run p false (Inp (k ++ c) (pos_after pos0 l) true) st) as [[[r i'] s']| |] eqn:Q; try discriminate. simpl in E2.
    assert (HE : false = true -> true = false) by discriminate.
    pose proof (cb_run H _ false _ _ _ _ _ (HR true HE) _ Q) as F. unfold fits in F.
    destruct r as [w|w|e0|e0]; simpl in E2; try discriminate.
    + inversion E2; subst. destruct F as [[F1 [F2 [r1 [F3 [F4 [F5 F6]]]]]]|[F _]]; [|destruct (F eq_refl); congruence]. simpl in *.
      assert (used = r1). { rewrite <- HB in F3. apply app_inv_tail in F3. exact F3. } subst r1.
      specialize (IH (l ++ used) b1 bs st1). rewrite pos_after_app in IH. specialize (IH eq_refl eq_refl eq_refl (fun g _ => F6 g)).
      rewrite <- !app_assoc in *. exact IH.
    + exfalso. destruct F as [_ [F _]]. destruct (F eq_refl) as [F1 F2]. inversion E2; subst. rewrite (augment_eoi EL _ _ _ _ _ _ _ H) in E3; auto. discriminate.
  - unfold call_error, parse_with_state, parse_stream_partial in E2. rewrite HB in E2.
    destruct (p_run p false (Inp (k ++ c) (pos_after pos0 l) true) st) as [[[r i'] s']| |] eqn:Q; try discriminate. simpl in E2.
    assert (HE : false = true -> true = false) by discriminate.
    pose proof (cb_run H _ false _ _ _ _ _ (HR true HE) _ Q) as F. unfold fits in F.
    destruct r as [w|w|e0|e0]; simpl in E2; try discriminate.
    + inversion E2; subst. destruct F as [[F1 [F2 [r1 [F3 [F4 [F5 F6]]]]]]|[F _]]; [|destruct (F eq_refl); congruence]. simpl in *.
      assert (used = r1). { rewrite <- HB in F3. apply app_inv_tail in F3. exact F3. } subst r1.
      specialize (IH (l ++ used) b1 [] st1). rewrite pos_after_app, app_nil_r in IH. specialize (IH eq_refl eq_refl eq_refl (fun g _ => F6 g)).
      rewrite <- !app_assoc in *. exact IH.
    + exfalso. destruct F as [_ [F _]]. destruct (F eq_refl) as [F1 F2]. inversion E2; subst. rewrite (augment_eoi EL _ _ _ _ _ _ _ H) in E3; auto. discriminate.
Qed.
End Session.

Lemma iready_cln {S A} x a n h Cln Res (p : parser C S A) IoE : chunk_by x a n h Cln Res p -> forall st eof, iready IoE p st eof ->
  forall g, (eof = true -> g = false) -> Cln g st.
Proof.
  intros H st eof HR. induction HR as [eof|st eof pos b cs used v st' pos' b' eof' HR IH HS].
  - intros g _. apply (cb_init H).
  - assert (K : forall g, (eof = true -> g = false) -> Res g pos [] [] st) by (intros g Hg; apply (cb_res H); auto).
    apply (isession_chunk _ _ _ _ _ _ _ H IoE _ pos [] [] st pos b b cs used _ _ _ _ _ _ HS eq_refl eq_refl eq_refl K).
Qed.

Lemma isession_whole x a n h {S A} (p : parser C S A) IoE : chunkable x a n h (fun _ : unit => p) ->
  forall st pos b cs used (fin : ending (C:=C) IoE A) st' pos' b' eof eof', iready IoE p st eof -> isession p st pos b eof cs used fin st' pos' b' eof' ->
  forall more, (eof' = true -> more = []) -> whole_answer p pos (b ++ concat cs) fin b' more.
Proof.
  intros HC. destruct (chunkable_sound EL L D) as [CS _]. destruct (CS _ _ _ _ _ _ _ _ HC) as [Cln HK]. destruct (HK tt) as [Res H].
  intros st pos b cs used fin st' pos' b' eof eof' HR HS.
  apply (isession_chunk _ _ _ _ _ _ _ H IoE _ pos [] [] st pos b b cs used fin st' pos' b' eof eof' HS); auto.
  intros g Hg. apply (cb_res H). eapply iready_cln; eauto.
Qed.
End ISound.

Section Retry.
Context {C : Cfg}.
Notation T := (tok C).

(** A session cut short by the reader, and what follows. *)
Lemma session_io_then {IoE S A} (p : parser C S A) st pos b eof cs used fin st1 pos1 b1 eof1 :
  session (IoE:=IoE) p st pos b eof cs used fin st1 pos1 b1 eof1 -> (exists q e, fin = EndIo q e) ->
  forall cs2 used2 fin2 st2 pos2 b2 eof2, isession (IoE:=IoE) p st1 pos1 b1 eof1 cs2 used2 fin2 st2 pos2 b2 eof2 ->
  isession p st pos b eof (cs ++ cs2) (used ++ used2) fin2 st2 pos2 b2 eof2.
Proof.
  induction 1; intros [q [io Hf]]; try discriminate Hf; intros cs2 u2 fin2 st2 pos2 b2 eof2 HI.
  - cbn [app]. eapply is_again; eauto.
  - cbn [app]. rewrite <- app_assoc. eapply is_read; eauto.
  - cbn [app]. rewrite <- app_assoc. eapply is_eof; eauto.
Qed.

Variables Rd IoE : Type.
Variable rd_read : Rd -> nat -> (list T + IoE) * Rd.
Variable grow : nat -> nat -> nat.
Hypothesis grows : forall len add, len + add <= grow len add.

Lemma gives_app size rd cs rd1 cs2 rd2 : gives rd_read size rd cs rd1 -> gives rd_read size rd1 cs2 rd2 -> gives rd_read size rd (cs ++ cs2) rd2.
Proof. induction 1; cbn [app]; auto; intros; [eapply gv_data|eapply gv_error]; eauto. Qed.
Lemma delivers_gives size rd cs rd1 : delivers rd_read size rd cs rd1 -> gives rd_read size rd cs rd1.
Proof. induction 1; [constructor|eapply gv_data; eauto]. Qed.

Lemma retried_session {S A} (p : parser C S A) (F : fwd p) (W : forall t, width C t = 1) fl d rd r d' rd' :
  retried rd_read grow fl p d rd r d' rd' -> buf_ok (dbuf d) ->
  buf_ok (dbuf d') /\ exists cs used rd1, gives rd_read read_size rd cs rd1 /\
    isession p (dstate d) (dpos d) (bbytes (dbuf d)) (deoi d) cs used (fin_of IoE r) (dstate d') (dpos d') (bbytes (dbuf d')) (deoi d') /\
    match r with
    | inr (DIo _ e) => exists n, 1 <= n <= read_size /\ rd_read rd1 n = (inr e, rd')
    | _ => rd' = rd1
    end.
Proof.
  induction 1 as [d rd r d' rd' H|d rd pos e d1 rd1 r d' rd' H _ IH]; intros Hb;
    apply (loop_session Rd IoE rd_read grow grows p F W) in H; try exact Hb; destruct H as [Hb1 [cs [used [rd2 [H1 [H2 H3]]]]]].
  - split; auto. exists cs, used, rd2. split; [apply delivers_gives; auto|]. split; [|auto]. apply session_isession. auto.
  - destruct (IH Hb1) as [Hb2 [cs2 [used2 [rd3 [K1 [K2 K3]]]]]]. split; auto. exists (cs ++ cs2), (used ++ used2), rd3. destruct H3 as [n [H3 H4]].
    split; [|split; [|exact K3]].
    + eapply gives_app; [apply delivers_gives; eauto|]. eapply gv_error; eauto.
    + eapply session_io_then; eauto. cbn. eauto.
Qed.
End Retry.
