(** Proofs for C72, C73. *)
From Coq Require Import String List Bool Arith NArith Lia.
Import ListNotations.
From Verif Require Import Base Errors Parser Token Combinator Sequence Choice Repeat RangeP ByteP Spec RepeatSpec TidySpec DecodeSpec ChunkSpec CombProofs TidyProofs RepeatProofs ChunkProofs7 RangeSpec AgreeSpec ObjM ObjSpec.
Unset Implicit Arguments.

Section ObjProofs.
Context {C : Cfg}.
Notation T := (tok C).
Notation E := (Err C).

(** * Draining an iterator *)
Lemma nexts_app {O S A} (m : machine (C:=C) O S A) it vs it1 ws it2 : nexts m it vs it1 -> nexts m it1 ws it2 -> nexts m it (vs ++ ws) it2.
Proof. induction 1; simpl; auto. intros. econstructor; eauto. Qed.
Lemma nexts_det {O S A} (m : machine (C:=C) O S A) it vs it1 : nexts m it vs it1 -> forall ws it2, nexts m it ws it2 -> length vs = length ws -> vs = ws /\ it1 = it2.
Proof.
  induction 1 as [it|it v it1 vs it2 H HN IH]; intros ws it3 K L; inversion K; subst; simpl in L; try discriminate; auto.
  rewrite H in H0. inversion H0; subst. destruct (IH _ _ H1) as [-> ->]; auto.
Qed.
Lemma extend_drains {O S A} (m : machine (C:=C) O S A) n : forall buf it l it2,
  iter_extend n m buf it = Done (l, it2) <-> exists vs, l = buf ++ vs /\ length vs < n /\ drains m it vs it2.
Proof.
  induction n as [|n IH]; intros buf it l it2; simpl.
  - split; [discriminate|]. intros (vs & _ & H & _). lia.
  - destruct (iter_next m it) as [[[v|] it1]| |] eqn:Q; simpl.
    + rewrite IH. split.
      * intros (vs & -> & L & it3 & D1 & D2). exists (v :: vs). rewrite <- app_assoc. simpl. repeat split; auto; [lia|].
        exists it3. split; auto. econstructor; eauto.
      * intros (vs & -> & L & it3 & D1 & D2). inversion D1; subst.
        -- rewrite Q in D2. discriminate.
        -- rewrite Q in H. inversion H; subst. exists vs0. rewrite <- app_assoc. simpl in *. repeat split; auto; [lia|]. exists it3. auto.
    + split.
      * intros K. inversion K; subst. exists []. rewrite app_nil_r. repeat split; simpl; auto; [lia|]. exists it. split; [constructor|auto].
      * intros (vs & -> & L & it3 & D1 & D2). inversion D1; subst; [|congruence]. rewrite Q in D2. inversion D2. rewrite app_nil_r. auto.
    + split; [discriminate|]. intros (vs & -> & L & it3 & D1 & D2). inversion D1; subst; congruence.
    + split; [discriminate|]. intros (vs & -> & L & it3 & D1 & D2). inversion D1; subst; congruence.
Qed.

Lemma iter_all_extend {S A} (p : parser C S A) n : forall first c i st is0 buf,
  omap (fun x => match x with (l, it) => (l, it_state it, it_committed it, it_in it, it_obj it, it_st it) end)
       (iter_extend n (parser_machine p) buf (MkIter i tt c is0 st first)) =
  omap (fun x => match x with (l, is, c', i', st') => (buf ++ l, is, c', i', tt, st') end) (iter_all n p first c i st).
Proof.
  induction n as [|n IH]; intros first c i st is0 buf; simpl; auto. unfold iter_next. simpl.
  destruct (p_run p first i st) as [[[r i'] st']| |]; simpl; auto. destruct r as [v|v|e|e]; simpl.
  - rewrite IH. destruct (iter_all n p true true i' st') as [[[[[l is] c'] i2] s2]| |]; simpl; auto. rewrite <- app_assoc. auto.
  - rewrite IH. destruct (iter_all n p true c i' st') as [[[[[l is] c'] i2] s2]| |]; simpl; auto. rewrite <- app_assoc. auto.
  - rewrite app_nil_r. auto.
  - rewrite app_nil_r. auto.
Qed.

Lemma many_obj_many {S A} (p : parser C S A) first i st :
  m_run (many_obj (parser_machine p)) first i tt st = omap (fun x => match x with (r, i', st') => (r, i', tt, st') end) (p_run (many p) first i st).
Proof.
  destruct st as [el st]. simpl. pose proof (iter_all_extend p (fuel C) first false i st ISOk el) as H. unfold iter_new.
  destruct (iter_extend (fuel C) (parser_machine p) el (MkIter i tt false ISOk st first)) as [[l it]| |];
    destruct (iter_all (fuel C) p first false i st) as [[[[[l2 is] c'] i2] s2]| |]; simpl in *; try discriminate; auto.
  inversion H; subst. destruct (into_result_fast (el ++ l2) (it_state it) (it_committed it)) as [r left]. destruct (it_obj it). auto.
Qed.

Lemma many_drains {S A} (p : parser C S A) first i el st r i' st2 :
  p_run (many p) first i (el, st) = Done (r, i', st2) <->
  exists vs it, drains (parser_machine p) (iter_new tt first i st) vs it /\ length vs < fuel C /\
    r = into_result it (el ++ vs) /\ i' = it_in it /\ st2 = (if is_ok r then [] else el ++ vs, it_st it).
Proof.
  pose proof (many_obj_many p first i (el, st)) as K. change (p_run (many p) first i (el, st)) with (many_run p first i (el, st)) in K.
  cbn [m_run many_obj] in K.
  assert (Q : p_run (many p) first i (el, st) = Done (r, i', st2) <->
    exists l it, iter_extend (fuel C) (parser_machine p) el (iter_new tt first i st) = Done (l, it) /\
      r = into_result it l /\ i' = it_in it /\ st2 = (if is_ok r then [] else l, it_st it)).
  { change (p_run (many p) first i (el, st)) with (many_run p first i (el, st)).
    destruct (iter_extend (fuel C) (parser_machine p) el (iter_new tt first i st)) as [[l it]| |]; cbn [omap obind] in K.
    - assert (K2 : many_run p first i (el, st) = Done (into_result it l, it_in it, (if is_ok (into_result it l) then [] else l, it_st it))).
      { unfold into_result, into_result_fast in *.
        destruct (many_run p first i (el, st)) as [[[r3 i3] st3]| |]; cbn [omap obind] in K; destruct (it_state it); destruct (it_committed it); inversion K; subst; auto. }
      rewrite K2. split.
      + intros H. inversion H; subst. exists l, it. auto.
      + intros (l2 & it2 & H1 & -> & -> & ->). inversion H1; subst. auto.
    - split; [|intros (l & it & H & _); discriminate]. intros H. rewrite H in K. discriminate.
    - split; [|intros (l & it & H & _); discriminate]. intros H. rewrite H in K. discriminate. }
  rewrite Q. split.
  - intros (l & it & H & -> & -> & ->). apply extend_drains in H. destruct H as (vs & -> & L & D). exists vs, it. auto.
  - intros (vs & it & D & L & -> & -> & ->). exists (el ++ vs), it. split; auto. apply extend_drains. exists vs. auto.
Qed.

(** * One element at a time *)
Section Elems.
Context {S A : Type} (p : parser C S A) (H : history_free false p).
Let Hi : leftover false p (p_init p) := left_init false p.
Let Hr : run_hyg false (leftover false p) (p_run p) := history_free_run_hyg false p H.

Lemma nexts_fwd it vs it2 : nexts (parser_machine p) it vs it2 -> it_first it = true -> leftover false p (it_st it) ->
  exists c, reps (succeeds (fresh p)) (it_in it) c vs (it_in it2) /\ it_committed it2 = it_committed it || c /\ it_state it2 = it_state it /\
    it_first it2 = true /\ leftover false p (it_st it2).
Proof using H.
  induction 1 as [it|it v it1 vs it2 N HN IH]; intros F L.
  - exists false. rewrite orb_false_r. split; [constructor|auto].
  - unfold iter_next in N. simpl in N. rewrite F in N. destruct (p_run p true (it_in it) (it_st it)) as [[[r i'] st']| |] eqn:Q; simpl in N; try discriminate.
    destruct (step_fwd (leftover false p) p Hi Hr _ _ _ _ _ L Q) as [B K]. destruct r as [a|a|e|e]; inversion N; subst; simpl in *.
    + destruct (IH eq_refl (K I)) as (c & R1 & R2 & R3 & R4 & R5). exists (true || c). split; [econstructor; [|exact R1]; exact B|].
      split; auto. rewrite R2. simpl. rewrite orb_true_r. auto.
    + destruct (IH eq_refl (K I)) as (c & R1 & R2 & R3 & R4 & R5). exists (false || c). split; [econstructor; [|exact R1]; exact B|]. auto.
Qed.
Lemma nexts_bwd i c vs i2 : reps (succeeds (fresh p)) i c vs i2 -> forall it, it_in it = i -> it_first it = true -> leftover false p (it_st it) ->
  exists it2, nexts (parser_machine p) it vs it2 /\ it_in it2 = i2.
Proof using H.
  induction 1 as [i|i c a i1 c' l i' OK R IH]; intros it E1 F L.
  - exists it. split; [constructor|auto].
  - unfold succeeds in OK. destruct (step_bwd (leftover false p) p Hi Hr _ _ _ _ L OK) as [st' [Q K]].
    assert (L' : leftover false p st') by (apply K; destruct c; exact I).
    destruct (IH (MkIter i1 (it_obj it) (c || it_committed it) (it_state it) st' true) eq_refl eq_refl L') as (it2 & N & E2).
    exists it2. split; auto. apply nx_cons with (it1 := MkIter i1 (it_obj it) (c || it_committed it) (it_state it) st' true); auto.
    unfold iter_next. simpl. rewrite F, E1, Q. simpl. destruct c; simpl; auto.
Qed.
Lemma none_peek it e : it_first it = true -> leftover false p (it_st it) -> fails_with (fresh p) (it_in it) false e ->
  exists it2, iter_next (parser_machine p) it = Done (None, it2) /\ it_in it2 = it_in it /\ it_first it2 = true /\ leftover false p (it_st it2) /\
    it_committed it2 = it_committed it /\ it_state it2 = ISPeek e.
Proof using H.
  intros F L (r & j & B & EO & CO). destruct (step_bwd (leftover false p) p Hi Hr _ _ _ _ L B) as [st' [Q K]].
  destruct r as [a|a|x|t]; simpl in EO, CO; try discriminate. inversion EO; subst.
  unfold iter_next. simpl. rewrite F, Q. simpl. eexists. split; [reflexivity|]. simpl. repeat split; auto. exact (K I).
Qed.
Lemma none_commit it e : it_first it = true -> leftover false p (it_st it) -> fails_with (fresh p) (it_in it) true e ->
  exists it2, iter_next (parser_machine p) it = Done (None, it2) /\ it_state it2 = ISCommit e.
Proof using H.
  intros F L (r & j & B & EO & CO). destruct (step_bwd (leftover false p) p Hi Hr _ _ _ _ L B) as [st' [Q K]].
  destruct r as [a|a|x|t]; simpl in EO, CO; try discriminate. inversion EO; subst.
  unfold iter_next. simpl. rewrite F, Q. simpl. eexists. split; [reflexivity|]. simpl. auto.
Qed.
Lemma none_fwd it it2 : it_first it = true -> leftover false p (it_st it) -> iter_next (parser_machine p) it = Done (None, it2) ->
  exists e, (fails_with (fresh p) (it_in it) false e /\ it_state it2 = ISPeek e) \/ (fails_with (fresh p) (it_in it) true e /\ it_state it2 = ISCommit e).
Proof using H.
  intros F L N. unfold iter_next in N. simpl in N. rewrite F in N. destruct (p_run p true (it_in it) (it_st it)) as [[[r i'] st']| |] eqn:Q; simpl in N; try discriminate.
  destruct (step_fwd (leftover false p) p Hi Hr _ _ _ _ _ L Q) as [B K]. destruct r as [a|a|e|e]; inversion N; subst; simpl in *.
  - exists e. right. split; auto. exists (CommitErr e), i'. auto.
  - exists (terr e). left. split; auto. exists (PeekErr e), i'. auto.
Qed.

Lemma iter_elements i vs it : nexts (parser_machine p) (iter_new tt true i (p_init p)) vs it ->
  exists c, reps (succeeds (fresh p)) i c vs (it_in it) /\ forall V (v : V), into_result it v = okr c v.
Proof using H.
  intros N. destruct (nexts_fwd _ _ _ N eq_refl Hi) as (c & R & K1 & K2 & _). exists c. split; auto. intros V v. unfold into_result. rewrite K2, K1. destruct c; auto.
Qed.
Lemma iter_reaches i c vs i2 : reps (succeeds (fresh p)) i c vs i2 -> exists it, nexts (parser_machine p) (iter_new tt true i (p_init p)) vs it /\ it_in it = i2.
Proof using H. intros R. eapply nexts_bwd; eauto. Qed.
Lemma iter_nones n : forall it, it_first it = true -> leftover false p (it_st it) -> (exists e, it_state it = ISPeek e) \/ it_state it = ISOk ->
  fails (fresh p) (it_in it) false ->
  exists it2, nones (parser_machine p) n it it2 /\ it_in it2 = it_in it /\ forall V (v : V), into_result it2 v = into_result it v.
Proof using H.
  induction n as [|n IH]; intros it F L Z [e FW].
  - exists it. split; [constructor|auto].
  - destruct (none_peek it e F L FW) as (it1 & N & E1 & F1 & L1 & C1 & S1).
    destruct (IH it1 F1 L1 (or_introl (ex_intro _ e S1))) as (it2 & N2 & E2 & R2); [exists e; rewrite E1; auto|].
    exists it2. split; [econstructor; eauto|]. split; [congruence|]. intros V v. rewrite R2. unfold into_result. rewrite S1, C1. destruct Z as [[e2 ->]| ->]; auto.
Qed.
Lemma iter_end i vs it : nexts (parser_machine p) (iter_new tt true i (p_init p)) vs it ->
  (fails (fresh p) (it_in it) false -> forall n, exists it2, nones (parser_machine p) n it it2 /\ it_in it2 = it_in it /\ forall V (v : V), into_result it2 v = into_result it v) /\
  (forall e, fails_with (fresh p) (it_in it) true e -> exists it2, iter_next (parser_machine p) it = Done (None, it2) /\ forall V (v : V), into_result it2 v = CommitErr e) /\
  (forall it2, iter_next (parser_machine p) it = Done (None, it2) -> exists c, fails (fresh p) (it_in it) c /\ c = negb (is_ok (into_result it2 tt))).
Proof using H.
  intros N. destruct (nexts_fwd _ _ _ N eq_refl Hi) as (c & R & K1 & K2 & K3 & K4). split; [|split].
  - intros FW n. apply iter_nones; auto.
  - intros e FW. destruct (none_commit it e K3 K4 FW) as (it2 & N2 & S2). exists it2. split; auto. intros V v. unfold into_result. rewrite S2. auto.
  - intros it2 N2. destruct (none_fwd it it2 K3 K4 N2) as [e [[F E1]|[F E1]]].
    + exists false. split; [exists e; auto|]. unfold into_result. rewrite E1. destruct (it_committed it2); auto.
    + exists true. split; [exists e; auto|]. unfold into_result. rewrite E1. auto.
Qed.


End Elems.

(** The documentation's [number]. *)
Lemma fresh_fn {V} (g : input C -> outcome (std_result V E * input C)) i : fresh (fn_parser g) i = omap (fun x => (from_std (fst x), snd x)) (g i).
Proof. unfold fresh, fn_parser, mk_lazy, p_run, lazy_run. destruct (g i) as [[r j]| |]; reflexivity. Qed.
Lemma doc_number_reads {D V} (d : parser C D T) (to_i32 : list T -> option V) : history_free false d -> forall i c l i', reps (succeeds (fresh d)) i c l i' ->
  fails (fresh d) i' false -> length l < fuel C ->
  match to_i32 l with
  | Some v => succeeds (fresh (doc_number d to_i32)) i c v i'
  | None => fresh (doc_number d to_i32) i = Panic
  end.
Proof.
  intros H i c l i' R FW L. destruct (iter_reaches d H _ _ _ _ R) as (it & N & E1). destruct (iter_end d H _ _ _ N) as (E2 & _).
  rewrite E1 in E2. destruct (E2 FW 1) as (it2 & NO & E3 & E4). inversion NO; subst. inversion H2; subst.
  destruct (iter_elements d H _ _ _ N) as (c2 & R2 & E5).
  assert (X : iter_extend (fuel C) (parser_machine d) [] (iter_new tt true i (p_init d)) = Done (l, it2)).
  { apply extend_drains. exists l. split; auto. split; auto. exists it. auto. }
  assert (CC : c2 = c).
  { clear - R R2. revert c2 R2. induction R as [i|i c a i1 c' l i' OK R IH]; intros c2 R2; inversion R2; subst; auto.
    unfold succeeds in *. match goal with K : fresh d i = Done (okr c0 _, _) |- _ => rewrite OK in K; apply done_okr_inj in K; destruct K as (-> & _ & ->) end. f_equal. auto. }
  subst c2. assert (FR : fresh (doc_number d to_i32) i = omap (fun x => (from_std (fst x), snd x)) match to_i32 l with Some v => Done (into_std (into_result it2 v), it_in it2) | None => Panic end).
  { unfold doc_number. rewrite fresh_fn. rewrite X. reflexivity. }
  unfold succeeds. rewrite FR.
  destruct (to_i32 l) as [v|]; [|reflexivity]. cbn [omap obind fst snd]. rewrite E4, E5, E3. destruct c; reflexivity.
Qed.

(** * In chunks *)
Lemma collects_session {S A} (p : parser C S A) st pos b cs vs b2 : collects p st pos b cs vs b2 -> length vs < fuel C -> forall el IoE, exists used st' pos',
  session (many p) (el, st) pos b false cs used (@EndValue C IoE _ (el ++ vs)) st' pos' b2 false.
Proof.
  intros K. induction K as [st pos b used vs it2 b2 D OK HB HI|st pos b vs it2 e used kept bs cs vs2 b2 D RE EO HB HI NE K IH]; intros FU el IoE.
  - exists used, ([], it_st it2), (pos_after pos used). apply ses_value; auto. unfold call_value, parse_with_state, parse_stream_partial.
    assert (Q : p_run (many p) false (Inp b pos (negb false)) (el, st) = Done (into_result it2 (el ++ vs), Inp b2 (pos_after pos used) true, ([], it_st it2))).
    { apply many_drains. exists vs, it2. split; auto. split; [lia|]. split; auto. split; auto. f_equal.
      unfold into_result in *. destruct (it_state it2); destruct (it_committed it2); simpl in *; auto; discriminate. }
    rewrite Q. unfold into_result in *. destruct (it_state it2); destruct (it_committed it2); simpl in *; auto; discriminate.
  - rewrite app_length in FU. destruct (IH ltac:(lia) (el ++ vs) IoE) as (used2 & st' & pos' & SS). exists (used ++ used2), st', pos'. rewrite app_assoc.
    apply ses_read with (e := e) (st1 := (el ++ vs, it_st it2)) (b1 := kept); auto.
    unfold call_error, parse_with_state, parse_stream_partial.
    assert (Q : p_run (many p) false (Inp b pos true) (el, st) = Done (@CommitErr (list A) E e, Inp kept (pos_after pos used) true, (el ++ vs, it_st it2))).
    { apply many_drains. exists vs, it2. split; auto. split; [lia|].
      assert (RE2 : into_result it2 (el ++ vs) = CommitErr e). { unfold into_result in *. destruct (it_state it2); destruct (it_committed it2); congruence. }
      rewrite RE2. auto. }
    rewrite Q. reflexivity.
Qed.

Lemma collects_whole {S A} (EL : eoi_laws C) (L : lawful C) (D : pos_distinct C) a n h (p : parser C S A) :
  chunkable true a n h (fun _ : unit => p) -> history_free false p ->
  forall pos b cs vs b2, collects p (p_init p) pos b cs vs b2 -> length vs < fuel C -> forall more r i', fresh (many p) (Inp ((b ++ concat cs) ++ more) pos false) = Done (r, i') ->
  rest i' = b2 ++ more /\ value_of r = Some vs.
Proof.
  intros CK HF pos b cs vs b2 K FU more r i' R. destruct (collects_session p _ _ _ _ _ _ K FU [] unit) as (used & st' & pos' & SS).
  assert (CM : chunkable true false true h (fun _ : unit => many p)) by (eapply ck_many; eauto).
  pose proof (session_whole EL L D _ _ _ _ (many p) unit CM _ _ _ _ _ _ _ _ _ _ _ (ready_init unit (many p) false) SS more) as W.
  assert (W2 := W ltac:(discriminate) r i' R). simpl in W2. destruct W2 as (u & _ & -> & ->). simpl. split; auto. destruct (consumed_some u); auto.
Qed.

(** * Parsers built on demand *)
Lemma machine_with_state {S A} (p : parser C S A) i st :
  m_with_state (parser_machine p) tt i st = omap (fun x => match x with (r, i', st') => (r, i', tt, st') end) (parse_with_state p i st).
Proof.
  unfold m_with_state, parse_with_state, parse_stream_partial. simpl. destruct (p_run p false i st) as [[[r i'] st']| |]; simpl; auto.
  destruct r; simpl; auto.
Qed.

Section FactoryProofs.
Context {F S A : Type} (f : F -> input C -> parser C S A * input C * F) (s0 : S).

Lemma factory_parse o i q i1 s1 : f (fst o) i = (q, i1, s1) -> p_init q = s0 ->
  m_parse (factory_obj f s0) o i =
  omap (fun x => (entry_result (fst (augment (p_adderr q) i x)), snd (augment (p_adderr q) i x), (s1, Some q))) (fresh q i1).
Proof.
  intros Q Z. unfold m_parse, fresh. cbn [m_run factory_obj m_init m_adderr]. unfold factory_run, factory_parser. cbn [snd fst]. rewrite Q, Z.
  destruct (p_run q true i1 s0) as [[[r i'] st']| |]; cbn [omap obind fst snd]; auto.
  destruct r; simpl; auto.
Qed.
Lemma factory_parse_still o i q s1 : f (fst o) i = (q, i, s1) -> p_init q = s0 ->
  m_parse (factory_obj f s0) o i = omap (fun x => (fst x, snd x, (s1, Some q))) (parse (factory q) i).
Proof.
  intros Q Z. rewrite (factory_parse o i q i s1 Q Z). unfold parse, fresh. simpl. unfold default_stream.
  destruct (p_run q true i (p_init q)) as [[[r i'] st']| |]; simpl; auto.
Qed.
Lemma factory_cached s q first i st : first = false ->
  m_run (factory_obj f s0) first i (s, Some q) st = omap (fun x => match x with (r, i', st') => (r, i', (s, Some q), st') end) (p_run q first i st).
Proof. intros ->. reflexivity. Qed.
Lemma factory_with_state s q i st :
  m_with_state (factory_obj f s0) (s, Some q) i st = omap (fun x => match x with (r, i', st') => (r, i', (s, Some q), st') end) (parse_with_state q i st).
Proof.
  unfold m_with_state, parse_with_state, parse_stream_partial. rewrite factory_cached; auto. destruct (p_run q false i st) as [[[r i'] st']| |]; simpl; auto.
  destruct r; simpl; auto.
Qed.
Lemma calls_cached s q l : forall st, calls (factory_obj f s0) (s, Some q) st l = calls (parser_machine q) tt st l.
Proof.
  induction l as [|i l IH]; intros st; auto. cbn [calls]. rewrite factory_with_state, machine_with_state.
  destruct (parse_with_state q i st) as [[[r i'] st']| |]; simpl; auto. rewrite IH. auto.
Qed.
Lemma with_state_new s q i s1 st : f s i = (q, i, s1) ->
  m_with_state (factory_obj f s0) (factory_new s) i st = omap (fun x => match x with (r, i', st') => (r, i', (s1, Some q), st') end) (parse_with_state q i st).
Proof.
  intros Q. unfold m_with_state, parse_with_state, parse_stream_partial. cbn [m_run factory_obj m_adderr]. unfold factory_run, factory_parser, factory_new. cbn [snd fst]. rewrite Q.
  destruct (p_run q false i st) as [[[r i'] st']| |]; simpl; auto. destruct r; simpl; auto.
Qed.
Lemma calls_same s q i s1 st l : f s i = (q, i, s1) -> calls (factory_obj f s0) (factory_new s) st (i :: l) = calls (parser_machine q) tt st (i :: l).
Proof.
  intros Q. cbn [calls]. rewrite machine_with_state, (with_state_new s q i s1 st Q).
  destruct (parse_with_state q i st) as [[[r i'] st']| |]; simpl; auto. rewrite calls_cached. auto.
Qed.
End FactoryProofs.

Lemma factory_constant {F S A} (q : parser C S A) (s0 : S) (s : F) c first i st : c = None \/ c = Some q ->
  m_run (factory_obj (fun s i => (q, i, s)) s0) first i (s, c) st = omap (fun x => match x with (r, i', st') => (r, i', (s, Some q), st') end) (p_run (factory q) first i st).
Proof.
  intros H. cbn [m_run factory_obj]. unfold factory_run, factory_parser. destruct first; simpl; [reflexivity|]. destruct H as [-> | ->]; simpl; reflexivity.
Qed.

(** [many(factory(f))] *)
Section FactoryMany.
Context {F A : Type} (f : F -> input C -> parser C unit A * input C * F).
Notation fm := (factory_obj f tt).

Lemma run_unit (q : parser C unit A) first i u : first = true -> omap fst (p_run q first i u) = fresh q i.
Proof. intros ->. unfold fresh. destruct u, (p_init q). auto. Qed.

Lemma fnexts_fwd it vs it2 : nexts fm it vs it2 -> it_first it = true ->
  exists c, built f (fst (it_obj it)) (it_in it) c vs (fst (it_obj it2)) (it_in it2) /\ it_committed it2 = it_committed it || c /\ it_state it2 = it_state it /\ it_first it2 = true.
Proof.
  induction 1 as [it|it v it1 vs it2 N HN IH]; intros FI.
  - exists false. rewrite orb_false_r. split; [constructor|auto].
  - unfold iter_next in N. cbn [m_run factory_obj] in N. unfold factory_run, factory_parser in N. rewrite FI in N. cbn [fst snd] in N.
    destruct (f (fst (it_obj it)) (it_in it)) as [[q i1] s1] eqn:Q. pose proof (run_unit q true i1 (it_st it) eq_refl) as B.
    destruct (p_run q true i1 (it_st it)) as [[[r i'] st']| |]; simpl in N, B; try discriminate.
    destruct r as [a|a|e|e]; inversion N; subst; simpl in *.
    + destruct (IH eq_refl) as (c & R1 & R2 & R3 & R4). exists (true || c). split; [econstructor; [exact Q| |exact R1]; unfold succeeds; rewrite <- B; auto|].
      rewrite R2. rewrite orb_true_r. auto.
    + destruct (IH eq_refl) as (c & R1 & R2 & R3 & R4). exists (false || c). split; [econstructor; [exact Q| |exact R1]; unfold succeeds; rewrite <- B; auto|]. auto.
Qed.
Lemma fnexts_bwd s i c vs s2 i2 : built f s i c vs s2 i2 -> forall it, it_in it = i -> fst (it_obj it) = s -> it_first it = true ->
  exists it2, nexts fm it vs it2 /\ it_in it2 = i2 /\ fst (it_obj it2) = s2.
Proof.
  induction 1 as [s i|s i q i1 s1 c a i2 c2 l s3 i3 Q OK R IH]; intros it E1 E2 FI.
  - exists it. split; [constructor|auto].
  - pose proof (run_unit q true i1 (it_st it) eq_refl) as B. unfold succeeds in OK. rewrite OK in B.
    destruct (p_run q true i1 (it_st it)) as [[[r i'] st']| |] eqn:P; simpl in B; inversion B; subst r i'.
    destruct (IH (MkIter i2 (s1, Some q) (c || it_committed it) (it_state it) st' true) eq_refl eq_refl eq_refl) as (it2 & N & E3 & E4).
    exists it2. split; auto. apply nx_cons with (it1 := MkIter i2 (s1, Some q) (c || it_committed it) (it_state it) st' true); auto.
    unfold iter_next. cbn [m_run factory_obj]. unfold factory_run, factory_parser. rewrite FI. cbn [fst snd]. rewrite E2, E1, Q, P. simpl. destruct c; auto.
Qed.
Lemma fnone it q i1 s1 : it_first it = true -> f (fst (it_obj it)) (it_in it) = (q, i1, s1) ->
  (forall e, fails_with (fresh q) i1 false e -> exists it2, iter_next fm it = Done (None, it2) /\ it_in it2 = it_in it /\ it_state it2 = ISPeek e /\ it_committed it2 = it_committed it /\ it_obj it2 = (s1, Some q)) /\
  (forall e, fails_with (fresh q) i1 true e -> exists it2, iter_next fm it = Done (None, it2) /\ it_state it2 = ISCommit e /\ it_obj it2 = (s1, Some q)) /\
  (forall it2, iter_next fm it = Done (None, it2) -> exists e c, fails_with (fresh q) i1 c e /\ it_state it2 = (if c then ISCommit e else ISPeek e) /\ (c = false -> it_in it2 = it_in it /\ it_committed it2 = it_committed it) /\ it_obj it2 = (s1, Some q)).
Proof.
  intros FI Q. pose proof (run_unit q true i1 (it_st it) eq_refl) as B. unfold fails_with. rewrite <- B.
  assert (X : m_run fm (it_first it) (it_in it) (it_obj it) (it_st it) = omap (fun x => match x with (v, i', st') => (v, i', (s1, Some q), st') end) (p_run q true i1 (it_st it))).
  { cbn [m_run factory_obj]. unfold factory_run, factory_parser. rewrite FI. cbn [fst snd]. rewrite Q. reflexivity. }
  unfold iter_next, fobj in *. rewrite X. rewrite FI.
  destruct (p_run q true i1 (it_st it)) as [[[r i'] st']| |]; cbn [omap obind fst]; (split; [|split]).
  - intros e (r2 & j & K & EO & CO). inversion K; subst. destruct r2; simpl in *; try discriminate. inversion EO; subst. eexists. split; [reflexivity|]. auto.
  - intros e (r2 & j & K & EO & CO). inversion K; subst. destruct r2; simpl in *; try discriminate. inversion EO; subst. eexists. split; [reflexivity|]. auto.
  - intros it2 K. destruct r as [a|a|e|e]; inversion K; subst; simpl.
    + exists e, true. split; [exists (CommitErr e), i'; auto|]. split; auto. split; auto. discriminate.
    + exists (terr e), false. split; [exists (PeekErr e), i'; auto|]. auto.
  - intros e (r2 & j & K & _). discriminate.
  - intros e (r2 & j & K & _). discriminate.
  - intros it2 K. discriminate.
  - intros e (r2 & j & K & _). discriminate.
  - intros e (r2 & j & K & _). discriminate.
  - intros it2 K. discriminate.
Qed.

Lemma factory_many_ok s c0 i c vs s2 i2 q i3 s3 : built f s i c vs s2 i2 -> f s2 i2 = (q, i3, s3) -> length vs < fuel C ->
  (fails (fresh q) i3 false -> m_run (many_obj fm) true i (s, c0) ([], tt) = Done (okr c vs, i2, (s3, Some q), ([], tt))) /\
  (forall e, fails_with (fresh q) i3 true e -> exists i', m_run (many_obj fm) true i (s, c0) ([], tt) = Done (CommitErr e, i', (s3, Some q), (vs, tt))).
Proof.
  intros R Q L. destruct (fnexts_bwd _ _ _ _ _ _ R (iter_new (s, c0) true i tt) eq_refl eq_refl eq_refl) as (it & N & E1 & E2).
  destruct (fnexts_fwd _ _ _ N eq_refl) as (c2 & R2 & K1 & K2 & K3). rewrite <- E1, <- E2 in Q.
  destruct (fnone it q i3 s3 K3 Q) as (P1 & P2 & _).
  assert (CC : c2 = c).
  { simpl in R2. clear - R R2. revert c2 R2. induction R as [s i|s i q i1 s1 c a i2 c2 l s3 i3 Q OK R IH]; intros c3 R2; inversion R2; subst; auto.
    match goal with K : f s i = (_, _, _), K2 : f s i = (q, i1, s1) |- _ => rewrite K2 in K; inversion K; subst end. unfold succeeds in *.
    match goal with K : fresh _ _ = Done (okr c0 _, _) |- _ => rewrite OK in K; apply done_okr_inj in K; destruct K as (-> & _ & ->) end. f_equal. auto. }
  subst c2. split.
  - intros [e FW]. destruct (P1 e FW) as (it2 & NN & I2 & S2 & C2 & O2). cbn [m_run many_obj].
    assert (X : iter_extend (fuel C) fm [] (iter_new (s, c0) true i tt) = Done (vs, it2)) by (apply extend_drains; exists vs; repeat split; auto; exists it; auto).
    unfold fobj in *. rewrite X. cbn [omap obind]. unfold into_result_fast. rewrite S2, C2, K1, O2, I2, E1. destruct (it_st it2). simpl. destruct c; auto.
  - intros e FW. destruct (P2 e FW) as (it2 & NN & S2 & O2). cbn [m_run many_obj].
    assert (X : iter_extend (fuel C) fm [] (iter_new (s, c0) true i tt) = Done (vs, it2)) by (apply extend_drains; exists vs; repeat split; auto; exists it; auto).
    unfold fobj in *. rewrite X. cbn [omap obind]. unfold into_result_fast. rewrite S2, O2. destruct (it_st it2). exists (it_in it2). auto.
Qed.
Lemma factory_many_cases s c0 i r i' o' st' : m_run (many_obj fm) true i (s, c0) ([], tt) = Done (r, i', o', st') ->
  exists c vs s2 i2 q i3 s3, built f s i c vs s2 i2 /\ f s2 i2 = (q, i3, s3) /\ length vs < fuel C /\ o' = (s3, Some q) /\
  ((fails (fresh q) i3 false /\ r = okr c vs /\ i' = i2) \/ exists e, fails_with (fresh q) i3 true e /\ r = CommitErr e).
Proof.
  intros H. cbn [m_run many_obj] in H. 
  match type of H with context [iter_extend ?a ?b ?c ?d] => destruct (iter_extend a b c d) as [[l it2]| |] eqn:X end; simpl in H; try discriminate.
  apply extend_drains in X. destruct X as (vs & -> & L & it & N & NN). simpl in H.
  destruct (fnexts_fwd _ _ _ N eq_refl) as (c & R & K1 & K2 & K3). simpl in R.
  destruct (f (fst (it_obj it)) (it_in it)) as [[q i3] s3] eqn:Q. destruct (fnone it q i3 s3 K3 Q) as (_ & _ & P).
  destruct (P it2 NN) as (e & cc & FW & S2 & EI & O2).
  exists c, vs, (fst (it_obj it)), (it_in it), q, i3, s3. split; auto. split; auto. split; auto. unfold into_result_fast in *. rewrite S2 in H. destruct cc.
  - inversion H; subst. split; auto. right. exists e. auto.
  - destruct (EI eq_refl) as [EI1 EI2]. unfold fobj in *. rewrite EI2, K1 in H. simpl in H. inversion H; subst. split; auto. left. split; [exists e; auto|]. auto.
Qed.
End FactoryMany.
End ObjProofs.
