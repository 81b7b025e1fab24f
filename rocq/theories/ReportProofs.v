(** Proofs about what each parser contributes to an error report. *)
From Coq Require Import String List Bool Arith NArith Lia.
Import ListNotations.
From Verif Require Import Base Errors Parser Token Combinator Sequence Choice Repeat RangeP ByteP RegexP Spec LibSpec SeqSpec CombProofs AgreeSpec AgreeProofs ErrSpec ErrProofs ErrProofs2 ErrProofs3 ErrProofs4 ReportSpec.
Unset Implicit Arguments.

Section ReportProofs.
Context {T : TokCfg}.
Context (L : tok_laws T).
Context {fl : nat} {dg : bool}.
Notation C := (cfg_easy T fl dg).
Notation entry := (easy_error (t_tok T)).
Notation E := (errors (t_tok T) (t_Pos T)).
Notation addl := (fold_left (easy_add T)).

(** The function of a wording. *)
Definition shaped (f : trk E -> trk E) (s : wording (T:=T)) : Prop :=
  forall t, f t = Trk (addl (said_at s (toff t)) (terr t)) (left_at s (toff t)).
Definition obeys {S A} (p : parser C S A) (s m : wording (T:=T)) (n : N) : Prop :=
  shaped (p_adderr p) s /\ shaped (p_addcexp p) m /\ p_count p = n.

Lemma shaped_nothing : shaped (fun t => t) nothing.
Proof. intros [e o]. reflexivity. Qed.
Lemma shaped_entry e : shaped (on_err (C:=C) (fun x => easy_add T x e)) (One [e]).
Proof. intros [x o]. reflexivity. Qed.
Lemma said_followed s l o : said_at (followed s l) o = said_at (T:=T) s o ++ l.
Proof. destruct s; cbn; rewrite <- ?app_assoc; reflexivity. Qed.
Lemma left_followed s l o : left_at (followed s l) o = left_at (T:=T) s o.
Proof. destruct s; reflexivity. Qed.
Lemma others_app (a b : list entry) : others (a ++ b) = others a ++ others b.
Proof. unfold others. apply filter_app. Qed.
Lemma others_concat (l : list (list entry)) : others (List.concat l) = List.concat (List.map others l).
Proof. induction l as [|a l IH]; [reflexivity|]. cbn [List.concat List.map]. rewrite others_app, IH. reflexivity. Qed.
Lemma said_unnamed s o : said_at (unnamed s) o = others (said_at (T:=T) s o).
Proof.
  destruct s as [w|ws tl|w tl]; [reflexivity| |].
  - cbn [said_at unnamed]. rewrite others_app, others_concat, firstn_map. reflexivity.
  - cbn [said_at unnamed]. rewrite others_app. destruct o; reflexivity.
Qed.
Lemma left_unnamed s o : left_at (unnamed s) o = left_at (T:=T) s o.
Proof. destruct s; cbn [left_at unnamed]; rewrite ?map_length; reflexivity. Qed.
Lemma shaped_followed f s e : shaped f s -> shaped (fun t => on_err (C:=C) (fun x => easy_add T x e) (f t)) (followed s [e]).
Proof. intros H t. rewrite H, said_followed, left_followed, fold_left_app. reflexivity. Qed.

Lemma news_others (seen w l : list entry) : news seen w l -> forall seen', others seen = others seen' -> news seen' (others w) (others l).
Proof.
  assert (K : forall (x e : entry), same_say x e -> expects x = expects e) by (intros x e [m [H1 H2]]; unfold expects; rewrite H1, H2; reflexivity).
  assert (M : forall (s : list entry) x, In x (others s) <-> In x s /\ expects x = false).
  { intros s x. unfold others. rewrite filter_In. split; intros [H1 H2]; split; auto; [destruct (expects x); auto; discriminate|rewrite H2; reflexivity]. }
  induction 1 as [seen|seen e l l' x Hx Hs H IH|seen e l l' Hn H IH]; intros seen' E; [constructor| |].
  - unfold others at 1. cbn [filter]. destruct (expects e) eqn:X; cbn [negb]; [apply IH; auto|].
    apply news_old with x; [|exact Hs|apply IH; auto]. apply (M seen' x). rewrite <- E. apply M. split; auto. rewrite (K _ _ Hs). exact X.
  - unfold others. cbn [filter]. destruct (expects e) eqn:X; cbn [negb].
    + apply IH. rewrite others_app, E. unfold others at 2. cbn [filter]. rewrite X. cbn. rewrite app_nil_r. reflexivity.
    + apply news_new; [|apply IH; rewrite !others_app, E; reflexivity]. intros x Hx Hs. apply (Hn x); auto. apply (M seen x). rewrite E. apply M. split; auto. rewrite (K _ _ Hs). exact X.
Qed.

Lemma shaped_expected f s x : shaped f s -> shaped (fun t => e_set_expected C t (EExpected x) f) (followed (unnamed s) [EExpected x]).
Proof.
  intros H t. rewrite said_followed, left_followed, said_unnamed, left_unnamed, fold_left_app. cbn [fold_left].
  destruct (fold_add_news L (said_at s (toff t)) (terr t)) as [l [N1 F1]].
  assert (Hl : elist (terr (f t)) = elist (terr t) ++ l) by (rewrite H, F1; reflexivity).
  cbn [e_set_expected cfg_easy]. unfold easy_set_expected. rewrite Hl, firstn_app_len, skipn_app_len, others_filter.
  rewrite (fold_add_eq L _ _ _ (news_others _ _ _ N1 _ eq_refl)). rewrite H, F1. reflexivity.
Qed.

Lemma shaped_one_of l : shaped (fun t => fold_left (fun t c => on_err (C:=C) (fun e => e_add_expected (C:=C) e (IToken c)) t) l t) (One (List.map (fun c => EExpected (IToken c)) l)).
Proof. induction l as [|c l IH]; intros [e o]; [reflexivity|]. cbn [fold_left]. rewrite IH. reflexivity. Qed.

(** Sequences of parts that are not sequences or choices themselves. *)
Definition flat_part (f : errfns (C:=C)) (w : list entry) : Prop := shaped (ef_add f) (One w) /\ ef_count f = 1%N.
Lemma sat_sub1 o : sat_sub o 1 = N.pred o.
Proof. unfold sat_sub. lia. Qed.
Lemma tuple_rest_shaped (l : list (errfns (C:=C))) ws : Forall2 flat_part l ws -> forall t, (2 <= toff t + 1)%N -> ws <> [] ->
  tuple_adderr_rest t l = Trk (addl (List.concat (firstn (Nat.max 1 (N.to_nat (toff t))) ws)) (terr t))
    (if (toff t <=? N.of_nat (length ws))%N then 0%N else (toff t - N.of_nat (length ws - 1))%N).
Proof.
  induction 1 as [|f w l ws [Hf Hc] H IH]; intros t Ht Hw; [destruct (Hw eq_refl)|]. destruct t as [e o]. cbn [toff] in Ht.
  cbn [tuple_adderr_rest]. rewrite !Hf. cbn [toff terr said_at left_at].
  assert (X : firstn (Nat.max 1 (N.to_nat o)) (w :: ws) = w :: firstn (N.to_nat o - 1) ws).
  { replace (Nat.max 1 (N.to_nat o)) with (Datatypes.S (N.to_nat o - 1)) by lia. reflexivity. }
  rewrite X. cbn [List.concat]. rewrite fold_left_app. destruct (N.leb_spec o 1) as [K|K].
  - replace (N.to_nat o - 1) with 0 by lia. cbn [firstn List.concat fold_left]. unfold set_off. cbn [terr]. rewrite sat_sub1.
    destruct (N.leb_spec o (N.of_nat (length (w :: ws)))); [|cbn [length] in *; lia]. f_equal. lia.
  - destruct H as [|g v l ws Hg H].
    + cbn [tuple_adderr_rest]. rewrite firstn_nil. cbn [List.concat fold_left length]. destruct (N.leb_spec o (N.of_nat 1)); [lia|]. f_equal. cbn. lia.
    + rewrite N.eqb_refl, Hc. unfold set_off at 1. cbn [terr toff]. rewrite sat_sub1. rewrite IH; [|cbn [toff]; lia|discriminate]. cbn [terr toff].
      replace (Nat.max 1 (N.to_nat (N.pred o))) with (N.to_nat o - 1) by lia. f_equal. cbn [length].
      destruct (N.leb_spec (N.pred o) (N.of_nat (Datatypes.S (length ws)))), (N.leb_spec o (N.of_nat (Datatypes.S (Datatypes.S (length ws))))); lia.
Qed.
Lemma tuple_shaped (l : list (errfns (C:=C))) ws : Forall2 flat_part l ws -> ws <> [] -> shaped (tuple_adderr l) (Seq ws []).
Proof.
  intros [|f w l' ws' [Hf Hc] H] Hw [e o]; [destruct (Hw eq_refl)|]. cbn [tuple_adderr said_at left_at toff terr]. rewrite !Hf, app_nil_r. cbn [toff terr said_at left_at].
  assert (X : firstn (Nat.max 1 (N.to_nat o)) (w :: ws') = w :: firstn (N.to_nat o - 1) ws').
  { replace (Nat.max 1 (N.to_nat o)) with (Datatypes.S (N.to_nat o - 1)) by lia. reflexivity. }
  rewrite X. cbn [List.concat]. rewrite fold_left_app. destruct (N.leb_spec o 1) as [K|K].
  - replace (N.to_nat o - 1) with 0 by lia. cbn [firstn List.concat fold_left]. unfold set_off. cbn [terr]. rewrite sat_sub1.
    destruct (N.leb_spec o (N.of_nat (length (w :: ws')))); [|cbn [length] in *; lia]. f_equal. lia.
  - rewrite N.eqb_refl, Hc. unfold set_off at 1. cbn [terr toff]. rewrite sat_sub1. destruct H as [|g v l2 wt Hg H].
    + cbn [tuple_adderr_rest]. rewrite firstn_nil. cbn [List.concat fold_left length]. destruct (N.leb_spec o (N.of_nat 1)); [lia|]. f_equal. cbn. lia.
    + rewrite (tuple_rest_shaped (g :: l2) (v :: wt)); [|constructor; auto|cbn [toff]; lia|discriminate]. cbn [terr toff].
      replace (Nat.max 1 (N.to_nat (N.pred o))) with (N.to_nat o - 1) by lia. f_equal. cbn [length].
      destruct (N.leb_spec (N.pred o) (N.of_nat (Datatypes.S (length wt)))), (N.leb_spec o (N.of_nat (Datatypes.S (Datatypes.S (length wt))))); lia.
Qed.

(** Choices: every alternative is asked for what it says before anything was read. *)
Definition first_part (f : trk E -> trk E) (w : list entry) : Prop := exists s, shaped f s /\ w = first_said s.
Lemma fold_choice fns ws : Forall2 first_part fns ws -> forall t : trk E,
  terr (fold_left (fun e f => f (set_off (C:=C) e 1%N)) fns t) = addl (List.concat ws) (terr t).
Proof.
  induction 1 as [|f w fns ws [s [Hs Hw]] H IH]; intros t; [reflexivity|]. cbn [fold_left List.concat]. rewrite IH, Hs, fold_left_app, Hw. reflexivity.
Qed.
Lemma choice_shaped fns ws : Forall2 first_part fns ws -> shaped (choice_adderr (C:=C) fns) (Alt (List.concat ws) []).
Proof.
  intros H [e o]. unfold choice_adderr, add_error_choice. cbn [toff terr said_at left_at]. unfold set_off at 1. rewrite sat_sub1, app_nil_r. f_equal.
  destruct o; [reflexivity|]. cbn [N.eqb]. rewrite (fold_choice fns ws H). reflexivity.
Qed.
Lemma or_shaped f s fns : shaped f s -> (forall t : trk E, toff t = 0%N -> f t = t) -> f = fns -> shaped (fun e => if (toff e =? 0)%N then e else fns e) s.
Proof. intros H K <- t. destruct (N.eqb_spec (toff t) 0) as [Z|Z]; [rewrite <- H, (K t Z); reflexivity|apply H]. Qed.

Lemma asks_obeys : forall S A (p : parser C S A) s m n, asks p s m n -> obeys p s m n.
Proof.
  apply (asks_mut (T:=T) (fl:=fl) (dg:=dg) (fun S A p s m n => obeys p s m n)
    (fun SS B t ws m => Forall2 flat_part (tup_errfns t) ws /\ ws <> [] /\ shaped (tuple_addcexp (tup_errfns t)) m /\ tup_count (tup_errfns t) = N.of_nat (length ws))
    (fun A SS t w => exists ws, Forall2 first_part (alts_adderr t) ws /\ w = List.concat ws)
    (fun S A l w => exists ws, Forall2 first_part (List.map (@p_adderr C S A) l) ws /\ w = List.concat ws));
    intros; auto; unfold obeys in *;
    repeat match goal with H : _ /\ _ |- _ => destruct H end;
    try (split; [|split]; first [apply shaped_nothing|apply shaped_entry|assumption|reflexivity]; fail).
  - split; [|split]; [apply shaped_one_of|apply shaped_nothing|reflexivity].
  - split; [|split]; auto. apply (shaped_followed (p_adderr p)); auto.
  - split; [|split]; auto. apply (shaped_expected (p_adderr p)); auto.
  - split; [|split]; auto. apply tuple_shaped; auto.
  - split; [|split]; auto; [|cbn; repeat match goal with H : p_count _ = _ |- _ => rewrite H; clear H end; reflexivity]. cbn [with_ p_adderr mk_both pair2 tuple mk_mode]. apply tuple_shaped; [|discriminate]. repeat (constructor; [split; assumption|]). constructor.
  - split; [|split]; auto; [|cbn; repeat match goal with H : p_count _ = _ |- _ => rewrite H; clear H end; reflexivity]. cbn [skip p_adderr mk_both pair2 tuple mk_mode]. apply tuple_shaped; [|discriminate]. repeat (constructor; [split; assumption|]). constructor.
  - destruct H0 as [ws [F ->]]. split; [|split]; [apply choice_shaped; auto|apply shaped_nothing|reflexivity].
  - split; [|split]; [|apply shaped_nothing|reflexivity]. cbn [or_ p_adderr mk_mode].
    assert (X : first_said s1 ++ first_said s2 = List.concat [first_said s1; first_said s2]) by (cbn; rewrite app_nil_r; reflexivity). rewrite X.
    eapply or_shaped; [apply choice_shaped| |reflexivity].
    + cbn [alts_adderr]. constructor; [exists s1; auto|]. constructor; [exists s2; auto|]. constructor.
    + intros [e o] Z. cbn in Z. subst o. reflexivity.
  - destruct H0 as [ws [F ->]]. split; [|split]; [apply choice_shaped; auto|apply shaped_nothing|reflexivity].
  - split; [|split]; [|apply shaped_nothing|reflexivity]. apply (shaped_followed (p_adderr p)); auto.
  - cbn [tup_errfns]. split; [|split; [discriminate|split]]; [|auto|cbn; rewrite H2; reflexivity]. constructor; [split; auto|constructor].
  - cbn [tup_errfns]. split; [|split; [discriminate|split]].
    + constructor; [split; auto|auto].
    + unfold tuple_addcexp in *. cbn [last]. destruct (tup_errfns t) eqn:X; [destruct t; discriminate|]. exact H4.
    + cbn [tup_count fold_right length]. unfold tup_count in H5. rewrite H5. cbn [ef_count errfns_of]. rewrite H7. lia.
  - exists [first_said s]. cbn. rewrite app_nil_r. split; auto. constructor; [exists s; auto|constructor].
  - destruct H2 as [ws [F ->]]. exists (first_said s :: ws). split; [|reflexivity]. constructor; [exists s; auto|auto].
  - exists []. split; constructor.
  - destruct H2 as [ws [F ->]]. exists (first_said s :: ws). split; [|reflexivity]. constructor; [exists s; auto|auto].
Qed.

Lemma extends ws (e : E) : extended e ws (addl ws e).
Proof. destruct (fold_add_news L ws e) as [l [N1 F1]]. rewrite F1. split; [reflexivity|]. exists l. auto. Qed.

Lemma asks_reports {S A} (p : parser C S A) s m n : asks p s m n -> p_count p = n /\
  forall t, extended (terr t) (said_at s (toff t)) (terr (p_adderr p t)) /\ toff (p_adderr p t) = left_at s (toff t) /\
    extended (terr t) (said_at m (toff t)) (terr (p_addcexp p t)) /\ toff (p_addcexp p t) = left_at m (toff t).
Proof. intros H. destruct (asks_obeys _ _ p s m n H) as [H1 [H2 H3]]. split; auto. intros t. rewrite (H1 t), (H2 t). cbn [terr toff]. auto using extends. Qed.

Lemma asks_stream : forall S A (p : parser C S A) s m n, asks p s m n ->
  (outer_attempt p /\ (forall i, p_stream p i = default_lazy (p_init p) (p_run p) i)) \/ forall i, p_stream p i = default_stream (p_init p) (p_run p) (p_adderr p) i.
Proof.
  apply (asks_mut (T:=T) (fl:=fl) (dg:=dg) (fun S A p s m n => (outer_attempt p /\ (forall i, p_stream p i = default_lazy (p_init p) (p_run p) i)) \/ forall i, p_stream p i = default_stream (p_init p) (p_run p) (p_adderr p) i)
    (fun SS B t ws m => True) (fun A SS t w => True) (fun S A l w => True)); intros; auto; try (right; intros; reflexivity).
  - left. split; [constructor|reflexivity].
  - destruct H0 as [[H0 K]|H0]; [left; split; [constructor; auto|exact K]|right; auto].
  - destruct H0 as [[H0 K]|H0]; [left; split; [constructor; auto|exact K]|right; auto].
Qed.
Lemma asks_cmode : forall S A (p : parser C S A) s m n, asks p s m n -> bare p \/ forall b i st, p_cmode p b i st = default_cmode (p_run p) (p_adderr p) b i st.
Proof.
  intros S A p s m n H. destruct H; try (right; reflexivity); left; constructor.
Qed.
Lemma own_report_add (i : input C) (e : E) ws : addl ws (own_report i e) = addl (found i :: ws) e.
Proof. reflexivity. Qed.

Lemma asks_parse {S A} (p : parser C S A) s m n : asks p s m n -> forall i t i', fresh p i = Done (PeekErr t, i') ->
  (outer_attempt p /\ parse p i = Done (inr (terr t), i')) \/
  exists e, parse p i = Done (inr e, i) /\ extended (terr t) (found i :: said_at s (toff t)) e.
Proof.
  intros H i t i' K. destruct (asks_stream _ _ p s m n H) as [[Ho Hs]|Hs].
  - left. split; auto. unfold parse. rewrite Hs. unfold default_lazy. apply fresh_run in K. destruct K as [st K]. rewrite K. reflexivity.
  - right. rewrite (parse_peek p i t i' Hs K). eexists. split; [reflexivity|]. destruct (asks_obeys _ _ p s m n H) as [H1 _]. rewrite (H1 _). cbn [terr toff].
    rewrite own_report_add. apply extends.
Qed.
Lemma augment_add {S A} (p : parser C S A) s m n (i : input C) t : asks p s m n ->
  augment_err (p_adderr p) i t = Trk (addl (found i :: said_at s (toff t)) (terr t)) (left_at s (toff t)).
Proof.
  intros H. destruct (asks_obeys _ _ p s m n H) as [H1 _]. unfold augment_err, uncons, found. destruct (rest i); rewrite (H1 _); reflexivity.
Qed.
Lemma asks_attempt_report {S A} (p : parser C S A) s m n : asks p s m n -> forall i t i', fresh p i = Done (PeekErr t, i') ->
  bare p \/ exists e, fresh (attempt p) i = Done (PeekErr (Trk e (left_at s (toff t))), i) /\
    parse (attempt p) i = Done (inr e, i) /\ extended (terr t) (found i :: said_at s (toff t)) e.
Proof.
  intros H i t i' K. destruct (asks_cmode _ _ p s m n H) as [Hb|Hc]; auto. right. apply fresh_run in K. destruct K as [st K].
  assert (R : attempt_run p true i (p_init p) = Done (PeekErr (Trk (addl (found i :: said_at s (toff t)) (terr t)) (left_at s (toff t))), i, st)).
  { unfold attempt_run. rewrite Hc. unfold default_cmode. rewrite K. cbn [omap augment3 augment]. rewrite (augment_add p s m n i t H). reflexivity. }
  eexists. split; [|split].
  - unfold fresh. cbn [attempt p_run p_init]. rewrite R. reflexivity.
  - unfold parse. cbn [attempt p_stream]. unfold default_lazy. rewrite R. reflexivity.
  - apply extends.
Qed.

(** Sequences. *)
Lemma blame_tail (f : nat) (g : errfns (C:=C)) post inner s : shaped (ef_add g) s -> (left_at s inner <= 1)%N ->
  forall (pre : list (errfns (C:=C))) ws j e0 o, Forall2 flat_part pre ws -> f <= j -> o = N.of_nat (Datatypes.S (length pre)) ->
  terr (add_sequence_errors j f inner (Trk e0 o) (pre ++ g :: post)) = addl (List.concat ws ++ said_at s inner) e0.
Proof.
  intros Hg Hl. induction pre as [|x pre IH]; intros ws j e0 o Hp Hf Ho; inversion Hp as [|? w ? ws' [Ha Hc] Hp']; subst.
  - cbn [app add_sequence_errors List.concat]. unfold add_sequence_error. destruct (j + 1 =? f) eqn:E1; [apply Nat.eqb_eq in E1; lia|].
    destruct (f <=? j) eqn:E2; [|apply Nat.leb_gt in E2; lia]. cbn [toff].
    destruct (N.of_nat (Datatypes.S (length (@nil (errfns (C:=C))))) <=? 1)%N eqn:E3; [|apply N.leb_gt in E3; cbn [length] in E3; lia].
    unfold set_off. cbn [terr]. rewrite (Hg _). cbn [terr toff]. destruct (N.leb_spec (left_at s inner) 1); [reflexivity|lia].
  - cbn [app add_sequence_errors List.concat].
    unfold add_sequence_error. destruct (j + 1 =? f) eqn:E1; [apply Nat.eqb_eq in E1; lia|].
    destruct (f <=? j) eqn:E2; [|apply Nat.leb_gt in E2; lia]. cbn [toff length].
    destruct (N.of_nat (Datatypes.S (Datatypes.S (length pre))) <=? 1)%N eqn:E3; [apply N.leb_le in E3; lia|]. rewrite (Ha _). cbn [terr toff said_at left_at]. rewrite E3.
    unfold set_off, sat_sub. cbn [terr toff]. rewrite Hc. rewrite (IH ws'); auto; try lia. rewrite <- app_assoc, (fold_left_app _ w). reflexivity.
Qed.
Lemma blame_all (f : nat) (g : errfns (C:=C)) post inner s : shaped (ef_add g) s -> (left_at s inner <= 1)%N ->
  forall (done : list (errfns (C:=C))) (last : errfns (C:=C)) (pre : list (errfns (C:=C))) ws m j e0 o, Forall (fun f => ef_count f = 1%N) done -> ef_count last = 1%N -> shaped (ef_cexp last) (One m) ->
  Forall2 flat_part pre ws -> f = j + Datatypes.S (length done) -> o = N.of_nat (Datatypes.S (length (done ++ last :: pre))) ->
  terr (add_sequence_errors j f inner (Trk e0 o) (done ++ last :: pre ++ g :: post)) = addl (m ++ List.concat ws ++ said_at s inner) e0.
Proof.
  intros Hg Hl. induction done as [|x done IH]; intros last pre ws m j e0 o Hd Hc Hx Hp Hf Ho; cbn [app add_sequence_errors]; unfold add_sequence_error; cbn [length] in Hf.
  - destruct (f <=? j) eqn:E2; [apply Nat.leb_le in E2; lia|]. destruct (j + 1 =? f) eqn:E1; [|apply Nat.eqb_neq in E1; lia].
    rewrite (Hx _). unfold set_off, sat_sub. cbn [terr toff said_at left_at]. rewrite Hc. rewrite (blame_tail f g post inner s Hg Hl pre ws); auto; [rewrite (fold_left_app _ m); reflexivity|lia|].
    cbn [app length] in Ho. lia.
  - inversion Hd as [|? ? Dc Hd']; subst. destruct (j + Datatypes.S (Datatypes.S (length done)) <=? j) eqn:E2; [apply Nat.leb_le in E2; lia|].
    destruct (j + 1 =? j + Datatypes.S (Datatypes.S (length done))) eqn:E1; [apply Nat.eqb_eq in E1; lia|]. unfold set_off, sat_sub. cbn [terr toff]. rewrite Dc.
    apply IH; auto; [lia|]. cbn [app length]. lia.
Qed.
Definition full_part (f : errfns (C:=C)) (x : list entry * list entry) : Prop := flat_part f (fst x) /\ shaped (ef_cexp f) (One (snd x)).
Lemma blamed_fns {SS B} (t : tup (C:=C) SS B) l s : blamed t l s -> exists pre g post, tup_errfns t = pre ++ g :: post /\ Forall2 full_part pre l /\ shaped (ef_add g) s.
Proof.
  induction 1 as [S A p s m n H|S A SS B p t s m n H|S A SS B p t w m l s H Hb IH].
  - exists [], (errfns_of p), []. split; [reflexivity|]. split; [constructor|]. apply (asks_obeys _ _ p s m n H).
  - exists [], (errfns_of p), (tup_errfns t). split; [reflexivity|]. split; [constructor|]. apply (asks_obeys _ _ p s m n H).
  - destruct IH as [pre [g [post [E1 [E2 E3]]]]]. exists (errfns_of p :: pre), g, post. split; [cbn; rewrite E1; reflexivity|]. split; auto.
    destruct (asks_obeys _ _ p _ _ _ H) as [K1 [K2 K3]]. constructor; [split; [split|]|]; auto.
Qed.
Lemma seq_rest_counts {SS B} (t : tup (C:=C) SS B) : forall k f i ib e cur fep off, Forall (fun f => ef_count f = 1%N) (firstn k (tup_errfns t)) -> seq_prefix t i k f ib e ->
  exists st off', seq_rest t true cur fep i (tup_init t) off = Done (KPeek e (if f =? 0 then fep else cur + 1 + f), ib, st, off') /\
    ((off <= 255)%N -> off' = N.min 255 (off + N.of_nat k)).
Proof.
  induction t as [S A p|S A SS B p r IH]; intros k f i ib e cur fep off Hp H; cbn [seq_prefix] in H.
  - destruct H as [-> [-> [-> [ia H]]]]. apply fresh_run in H. destruct H as [s H]. cbn. unfold seq_elem. cbn. rewrite H. cbn.
    eexists _, _. split; [reflexivity|]. intros Ho. lia.
  - destruct H as [[-> [-> [-> [ia H]]]]|[c [a [i1 [k' [f' [H1 [H2 [-> ->]]]]]]]]].
    + apply fresh_run in H. destruct H as [s H]. cbn. unfold seq_elem. cbn. rewrite H. cbn. eexists _, _. split; [reflexivity|]. intros Ho. lia.
    + cbn [tup_errfns firstn] in Hp. inversion Hp as [|? ? Hc Hp']; subst. cbn in Hc.
      apply fresh_run in H1. destruct H1 as [s H1]. cbn [seq_rest tup_init fst snd]. unfold seq_elem at 1. cbn [orb]. rewrite H1.
      assert (Hs : (off <= 255 -> sat_add off (p_count p) <= 255 /\ sat_add off (p_count p) = N.min 255 (off + 1))%N).
      { intros Ho. unfold sat_add. rewrite Hc. lia. }
      destruct c; cbn [okr omap obind].
      * destruct (IH k' f' i1 ib e (cur + 1) (cur + 1 + 1) (sat_add off (p_count p)) Hp' H2) as [st [off' [K1 K2]]]. rewrite K1. cbn [omap].
        eexists _, off'. split; [|intros Ho; destruct (Hs Ho) as [Hs1 Hs2]; rewrite (K2 Hs1), Hs2; lia].
        match goal with |- Done (KPeek e ?a, _, _, _) = Done (KPeek e ?b, _, _, _) => replace a with b; [reflexivity|] end; destruct (f' =? 0) eqn:Ef; cbn; lia.
      * destruct (IH k' f' i1 ib e (cur + 1) fep (sat_add off (p_count p)) Hp' H2) as [st [off' [K1 K2]]]. rewrite K1. cbn [omap].
        eexists _, off'. split; [|intros Ho; destruct (Hs Ho) as [Hs1 Hs2]; rewrite (K2 Hs1), Hs2; lia].
        match goal with |- Done (KPeek e ?a, _, _, _) = Done (KPeek e ?b, _, _, _) => replace a with b; [reflexivity|] end; destruct (f' =? 0) eqn:Ef; cbn; lia.
Qed.
Lemma seq_all_counts {SS B} (t : tup (C:=C) SS B) k f i ib e : Forall (fun f => ef_count f = 1%N) (firstn k (tup_errfns t)) -> seq_prefix t i k f ib e -> 1 <= k ->
  exists st, seq_all t true i (tup_init t) 0 = Done (KPeek e f, ib, st, N.min 255 (N.of_nat (Datatypes.S k))).
Proof.
  intros Hp H Hk. destruct t as [S A p|S A SS B p r]; cbn [seq_prefix] in H; [destruct H as [K _]; lia|].
  destruct H as [[K _]|[c [a [i1 [k' [f' [H1 [H2 [Ek Ef]]]]]]]]]; [lia|].
  rewrite Ek in Hp. cbn [tup_errfns firstn] in Hp. inversion Hp as [|? ? Hc Hp'']; subst. cbn in Hc.
  apply fresh_run in H1. destruct H1 as [s H1]. cbn [seq_all tup_init fst snd]. unfold seq_head. cbn [orb]. rewrite H1.
  assert (Ho : sat_add (p_count p) 1 = 2%N) by (rewrite Hc; reflexivity). rewrite Ho.
  destruct c; cbn [okr omap obind].
  - destruct (seq_rest_counts r k' f' i1 ib e 0 1 2%N Hp'' H2) as [st [off' [K1 K2]]]. rewrite K1. cbn [omap]. rewrite K2 by lia. eexists.
    match goal with |- Done (KPeek e ?a, _, _, ?n) = Done (KPeek e ?b, _, _, ?m) => replace a with b; [replace n with m by lia; reflexivity|] end; destruct (f' =? 0) eqn:Ef'; cbn; lia.
  - destruct (seq_rest_counts r k' f' i1 ib e 0 0 2%N Hp'' H2) as [st [off' [K1 K2]]]. rewrite K1. cbn [omap]. rewrite K2 by lia. eexists.
    match goal with |- Done (KPeek e ?a, _, _, ?n) = Done (KPeek e ?b, _, _, ?m) => replace a with b; [replace n with m by lia; reflexivity|] end; destruct (f' =? 0) eqn:Ef'; cbn; lia.
Qed.

Lemma blamed_sequence {SS B} (t : tup (C:=C) SS B) l s k f i ib e : blamed t l s -> k = length l -> seq_prefix t i k f ib e -> 1 <= f -> k <= 254 -> (left_at s (toff e) <= 1)%N ->
  exists e', fails_with (fresh (tuple t)) i true e' /\
    extended (terr e) (next_token ib ++ snd (nth (f - 1) l ([], [])) ++ List.concat (List.map fst (skipn f l)) ++ said_at s (toff e)) e'.
Proof.
  intros Hb Ek H Hf Hk Hs. destruct (blamed_fns t l s Hb) as [pre [g [post [Ht [Hp Hg]]]]].
  destruct (seq_prefix_bound t k f i ib e H) as [Hb1 Hb2]. assert (Hlen : length pre = k) by (rewrite Ek; clear - Hp; induction Hp; cbn; auto).
  assert (Hc : Forall (fun f => ef_count f = 1%N) pre) by (clear - Hp; induction Hp as [|x y pre l [[_ H] _] Hp IH]; constructor; auto).
  destruct (seq_all_counts t k f i ib e) as [st Hall]; auto; [|lia|].
  { rewrite Ht, <- Hlen, firstn_app_len. exact Hc. }
  exists (addl (snd (nth (f - 1) l ([], [])) ++ List.concat (List.map fst (skipn f l)) ++ said_at s (toff e)) (addl (next_token ib) (terr e))). split.
  - unfold fails_with. change (fresh (tuple t) i) with (omap fst (tuple_run t true i (tup_init t, 0%N))). unfold tuple_run. cbn [fst snd]. rewrite Hall. cbn [obind].
    unfold add_errors. destruct (f =? 0) eqn:Ef; [apply Nat.eqb_eq in Ef; lia|].
    assert (Hu : exists i2, (match uncons ib with
        | (Some t0, i') => (on_err (fun e0 => e_add C e0 (se_unexpected C (IToken t0))) (set_off e (N.min 255 (N.of_nat (Datatypes.S k)))), i')
        | (None, i') => (set_off e (N.min 255 (N.of_nat (Datatypes.S k))), i') end) = (Trk (addl (next_token ib) (terr e)) (N.min 255 (N.of_nat (Datatypes.S k))), i2)).
    { unfold uncons, next_token, on_err, set_off. destruct (rest ib); cbn; eauto. }
    destruct Hu as [i2 Hu]. rewrite Hu. eexists _, i2. split; [reflexivity|]. cbn [error_of committed]. split; auto. f_equal.
    (* split the parts at the last committed one *)
    assert (Hsplit : exists done last pre2 l1 x l2, pre = done ++ last :: pre2 /\ l = l1 ++ x :: l2 /\ length done = f - 1 /\ length l1 = f - 1 /\ full_part last x /\ Forall2 full_part pre2 l2).
    { clear - Hp Hlen Hf Hb2. assert (Hlt : f - 1 < length pre) by lia. revert l Hp. generalize (f - 1) Hlt. clear.
      induction pre as [|y pre IH]; intros j Hj l Hp; [cbn in Hj; lia|]. inversion Hp as [|? x ? l' Hx Hp']; subst. destruct j as [|j].
      - exists [], y, pre, [], x, l'. cbn. repeat split; auto; apply Hx.
      - cbn in Hj. destruct (IH j ltac:(lia) l' Hp') as [done [last [pre2 [l1 [x' [l2 [-> [-> [K1 [K2 [K3 K4]]]]]]]]]]].
        exists (y :: done), last, pre2, (x :: l1), x', l2. cbn. repeat split; auto; apply K3. }
    destruct Hsplit as [done [last [pre2 [l1 [x [l2 [E1 [E2 [K1 [K2 [K3 K4]]]]]]]]]]].
    assert (N1 : nth (f - 1) l ([], []) = x) by (rewrite E2, <- K2, app_nth2, Nat.sub_diag by lia; reflexivity).
    assert (N2 : skipn f l = l2) by (rewrite E2; replace f with (length (l1 ++ [x])) by (rewrite app_length; cbn; lia); replace (l1 ++ x :: l2) with ((l1 ++ [x]) ++ l2) by (rewrite <- app_assoc; reflexivity); apply skipn_app_len).
    rewrite N1, N2, Ht, E1, <- app_assoc. cbn [app].
    apply (blame_all f g post (toff e) s Hg Hs done last pre2 (List.map fst l2) (snd x)).
    + rewrite E1 in Hc. apply Forall_app in Hc. apply Hc.
    + apply K3.
    + apply K3.
    + clear - K4. induction K4 as [|a b pre2 l2 [H _] K IH]; constructor; auto.
    + lia.
    + rewrite <- E1, Hlen. lia.
  - rewrite <- fold_left_app. apply extends.
Qed.

(** A sequence that read nothing. *)
Lemma asks_tup_counts {SS B} (t : tup (C:=C) SS B) ws m : asks_tup t ws m -> Forall2 flat_part (tup_errfns t) ws.
Proof.
  induction 1 as [S A p w m H|S A SS B p t w m ws m' H Ht IH]; cbn [tup_errfns]; constructor; auto; try constructor; destruct (asks_obeys _ _ p _ _ _ H) as [K1 [K2 K3]]; auto.
Qed.
Lemma unread_sequence {SS B} (t : tup (C:=C) SS B) ws m k i ib e : asks_tup t ws m -> seq_prefix t i k 0 ib e -> toff e = 1%N -> k <= 254 ->
  exists e', parse (tuple t) i = Done (inr e', i) /\ extended (terr e) (found i :: List.concat (firstn (Datatypes.S k) ws)) e'.
Proof.
  intros Ha H He Hk. pose proof (asks_tup_counts t ws m Ha) as Hp. destruct (seq_prefix_bound t k 0 i ib e H) as [Hb1 _].
  assert (F : exists ia, fresh (tuple t) i = Done (PeekErr (Trk (terr e) (N.of_nat (Datatypes.S k))), ia)).
  { destruct k as [|k].
    - destruct t as [S A p|S A SS B p r]; cbn [seq_prefix] in H.
      + destruct H as [_ [_ [-> [ia H]]]]. apply fresh_run in H. destruct H as [s H]. exists ia. change (fresh (tuple (T1 p)) i) with (omap fst (tuple_run (T1 p) true i (tup_init (T1 p), 0%N))).
        unfold tuple_run. cbn [seq_all tup_init fst snd]. unfold seq_head. cbn [orb]. rewrite H. cbn. destruct e as [e o]. cbn in He. subst o. reflexivity.
      + destruct H as [[_ [_ [-> [ia H]]]]|[c [a [i1 [k' [f' [_ [_ [K _]]]]]]]]]; [|discriminate]. apply fresh_run in H. destruct H as [s H]. exists ia.
        change (fresh (tuple (TC p r)) i) with (omap fst (tuple_run (TC p r) true i (tup_init (TC p r), 0%N))).
        unfold tuple_run. cbn [seq_all tup_init fst snd]. unfold seq_head. cbn [orb]. rewrite H. cbn. destruct e as [e o]. cbn in He. subst o. reflexivity.
    - destruct (seq_all_counts t (Datatypes.S k) 0 i ib e) as [st Hall]; auto; [|lia|].
      { clear - Hp. generalize (Datatypes.S k). intros n. revert n. induction Hp as [|x w l ws [_ Hc] Hp IH]; intros [|n]; cbn; constructor; auto. }
      exists ib. change (fresh (tuple t) i) with (omap fst (tuple_run t true i (tup_init t, 0%N))). unfold tuple_run. cbn [fst snd]. rewrite Hall. cbn [obind add_errors Nat.eqb omap].
      unfold set_off. replace (N.min 255 (N.of_nat (Datatypes.S (Datatypes.S k)))) with (N.of_nat (Datatypes.S (Datatypes.S k))) by lia. reflexivity. }
  destruct F as [ia F]. rewrite (parse_peek (tuple t) i _ ia (fun _ => eq_refl) F). eexists. split; [reflexivity|].
  destruct (asks_obeys _ _ (tuple t) _ _ _ (asks_tuple Ha)) as [H1 _]. rewrite (H1 _). cbn [terr toff said_at]. rewrite own_report_add, app_nil_r.
  replace (Nat.max 1 (N.to_nat (N.of_nat (Datatypes.S k)))) with (Datatypes.S k) by lia. apply extends.
Qed.

Lemma failed_choice {A SS} (t : alts (C:=C) A SS) w i e es : asks_alts t w -> alts_fail t i (e :: es) ->
  exists e', parse (choice t) i = Done (inr e', i) /\ extended (merged (C:=C) e es) (found i :: w) e'.
Proof.
  intros Ha H. rewrite (choice_report t i e es H). eexists. split; [reflexivity|].
  assert (K : forall x : E, expectations (C:=C) (alts_errfns t) x = addl w x).
  { clear H e es i. unfold expectations. induction Ha as [S A p s m n Hp|S A SS p t s m n w Hp Ht IH]; intros x; destruct (asks_obeys _ _ p s m n Hp) as [H1 _]; cbn [alts_errfns fold_left ef_add errfns_of]; rewrite (H1 _); cbn [terr toff to_trk].
    - reflexivity.
    - rewrite IH, fold_left_app. reflexivity. }
  rewrite K, own_report_add. apply extends.
Qed.
End ReportProofs.
