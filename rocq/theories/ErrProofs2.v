(** Error reports of parsers: what [add_error] does, the entry points, and the error combinators. *)
From Coq Require Import String List Bool Arith NArith Lia.
Import ListNotations.
From Verif Require Import Base Errors Parser Token Combinator Sequence Choice Repeat RangeP ByteP Spec LibSpec SeqSpec CombProofs AgreeSpec AgreeProofs ErrSpec ErrProofs.
Unset Implicit Arguments.

Section Reports.
Context {T : TokCfg} {fl : nat} {dg : bool}.
Notation C := (cfg_easy T fl dg).
Notation E := (Err C).
Notation appends := (@ErrSpec.appends T fl dg).

Lemma easy_add_append (es : errors (t_tok T) (t_Pos T)) e : eposition (easy_add T es e) = eposition es /\ exists l, elist (easy_add T es e) = elist es ++ l.
Proof. unfold easy_add. destruct (forallb _ _); cbn; split; auto; [eauto|exists []; rewrite app_nil_r; auto]. Qed.

Lemma appends_id : appends (fun t => t).
Proof. intros t. split; auto. exists []. rewrite app_nil_r; auto. Qed.
Lemma appends_comp f g : appends f -> appends g -> appends (fun t => g (f t)).
Proof.
  intros Hf Hg t. destruct (Hf t) as [P1 [l1 H1]], (Hg (f t)) as [P2 [l2 H2]]. split; [congruence|]. exists (l1 ++ l2). rewrite H2, H1, app_assoc. auto.
Qed.
Lemma appends_add e : appends (on_err (C:=C) (fun x => easy_add T x e)).
Proof. intros t. apply easy_add_append. Qed.
Lemma appends_off f g : appends f -> (forall t, terr (g t) = terr (f t)) -> appends g.
Proof. intros H K t. rewrite K. apply H. Qed.
Lemma appends_if (b : trk E -> bool) f g : appends f -> appends g -> appends (fun t => if b t then f t else g t).
Proof. intros Hf Hg t. destruct (b t); [apply Hf|apply Hg]. Qed.
Lemma appends_set f o : appends f -> appends (fun t => f (set_off (C:=C) t (o t))).
Proof. intros H t. destruct (H (set_off t (o t))) as [P Q]. split; auto. Qed.
Lemma firstn_app_len {X} (l r : list X) : firstn (length l) (l ++ r) = l.
Proof. rewrite firstn_app, Nat.sub_diag, firstn_all, firstn_O, app_nil_r. auto. Qed.
Lemma skipn_app_len {X} (l r : list X) : skipn (length l) (l ++ r) = r.
Proof. rewrite skipn_app, Nat.sub_diag, skipn_all. auto. Qed.

(** [set_expected]: what it really computes when the callback only adds. *)
Lemma set_expected_eq f x t l : elist (terr (f t)) = elist (terr t) ++ l ->
  terr (easy_set_expected T t x f) =
  easy_add T (MkErrs (eposition (terr (f t))) (elist (terr t) ++ filter (fun e => negb (is_expected e)) l)) x.
Proof. intros H. unfold easy_set_expected. cbn [terr]. rewrite H, firstn_app_len, skipn_app_len. reflexivity. Qed.

Lemma appends_set_expected f x : appends f -> appends (fun t => e_set_expected C t x f).
Proof.
  intros H t. destruct (H t) as [P [l Hl]]. pose proof (set_expected_eq f x t l Hl) as K.
  change (terr (e_set_expected C t x f) = easy_add T (MkErrs (eposition (terr (f t))) (elist (terr t) ++ filter (fun e => negb (is_expected e)) l)) x) in K.
  rewrite K. match goal with |- context [easy_add T ?a x] => destruct (easy_add_append a x) as [Q [l2 Q2]] end.
  split; [rewrite Q; auto|]. rewrite Q2. cbn. rewrite <- app_assoc. eauto.
Qed.

Lemma appends_fold fns : Forall appends fns -> forall o, appends (fun t => fold_left (fun e f => f (set_off (C:=C) e o)) fns t).
Proof.
  induction 1 as [|f fns Hf Hs IH]; intros o; [apply appends_id|].
  intros t. destruct (Hf (set_off t o)) as [P1 [l1 H1]], (IH o (f (set_off t o))) as [P2 [l2 H2]]. cbn [fold_left].
  split; [etransitivity; [exact P2|exact P1]|]. exists (l1 ++ l2). rewrite app_assoc. etransitivity; [exact H2|]. f_equal. exact H1.
Qed.
Lemma appends_choice fns : Forall appends fns -> appends (choice_adderr (C:=C) fns).
Proof.
  intros H t. unfold choice_adderr, add_error_choice. destruct (toff t =? 0)%N; [apply (appends_id t)|].
  apply (appends_fold fns H 1%N t).
Qed.

Definition ef_appends (f : errfns (C:=C)) : Prop := appends (ef_add f) /\ appends (ef_cexp f).
Lemma appends_seq fns : Forall ef_appends fns -> appends (tuple_adderr (C:=C) fns).
Proof.
  intros H. assert (Hr : Forall ef_appends fns -> appends (fun t => tuple_adderr_rest (C:=C) t fns)).
  { clear H. induction 1 as [|f fns [Hf _] Hs IH]; [apply appends_id|]. intros t. cbn [tuple_adderr_rest].
    destruct (toff (ef_add f t) <=? 1)%N; [apply (Hf t)|].
    destruct (Hf t) as [P1 [l1 H1]].
    set (u := match fns with [] => ef_add f t | _ :: _ => _ end).
    assert (Hu : terr u = terr (ef_add f t)) by (unfold u; destruct fns; auto; destruct (toff (ef_add f t) =? toff t)%N; auto).
    destruct (IH u) as [P2 [l2 H2]]. rewrite Hu in P2, H2. split; [congruence|]. exists (l1 ++ l2). rewrite H2, H1, app_assoc. auto. }
  assert (Hr2 : appends (fun t => tuple_adderr_rest (C:=C) t (tl fns))).
  { destruct H as [|f fns Hf Hs]; [apply appends_id|]. cbn. clear Hr.
    induction Hs as [|g gs [Hg _] Hs IH]; [apply appends_id|]. intros t. cbn [tuple_adderr_rest].
    destruct (toff (ef_add g t) <=? 1)%N; [apply (Hg t)|].
    destruct (Hg t) as [P1 [l1 H1]].
    set (u := match gs with [] => ef_add g t | _ :: _ => _ end).
    assert (Hu : terr u = terr (ef_add g t)) by (unfold u; destruct gs; auto; destruct (toff (ef_add g t) =? toff t)%N; auto).
    destruct (IH u) as [P2 [l2 H2]]. rewrite Hu in P2, H2. split; [congruence|]. exists (l1 ++ l2). rewrite H2, H1, app_assoc. auto. }
  destruct H as [|f fns [Hf _] Hs]; [apply appends_id|]. intros t. cbn [tuple_adderr].
  destruct (toff (ef_add f t) <=? 1)%N; [apply (Hf t)|]. destruct (Hf t) as [P1 [l1 H1]]. cbn in Hr2.
  set (u := if (toff (ef_add f t) =? toff t)%N then _ else _).
  assert (Hu : terr u = terr (ef_add f t)) by (unfold u; destruct (toff (ef_add f t) =? toff t)%N; auto).
  destruct (Hr2 u) as [P2 [l2 H2]]. rewrite Hu in P2, H2. split; [congruence|]. exists (l1 ++ l2). rewrite H2, H1, app_assoc. auto.
Qed.
Lemma appends_cexp fns : Forall ef_appends fns -> appends (tuple_addcexp (C:=C) fns).
Proof.
  intros H. unfold tuple_addcexp. assert (K : ef_appends (last fns (EF (fun t => t) (fun t => t) 1))).
  { induction H as [|f fns Hf Hs IH]; [split; apply appends_id|]. cbn. destruct fns; auto. }
  apply K.
Qed.

Definition both_append {S A} (p : parser C S A) : Prop := appends (p_adderr p) /\ appends (p_addcexp p).

Lemma one_of_appends l : appends (fun t => fold_left (fun t c => on_err (C:=C) (fun e => e_add_expected (C:=C) e (IToken c)) t) l t).
Proof.
  induction l as [|c l IH]; [apply appends_id|]. intros t. cbn [fold_left].
  destruct (appends_add (EExpected (IToken c)) t) as [P1 [l1 H1]], (IH (on_err (C:=C) (fun e => e_add_expected (C:=C) e (IToken c)) t)) as [P2 [l2 H2]].
  split; [etransitivity; [exact P2|exact P1]|]. exists (l1 ++ l2). rewrite app_assoc. etransitivity; [exact H2|]. f_equal. exact H1.
Qed.

Lemma lib_appends : forall S A (p : parser C S A), lib p -> both_append p.
Proof.
  apply (lib_mut (C:=C) (fun S A p => both_append p) (fun SS B t => Forall ef_appends (tup_errfns t))
    (fun A SS t => Forall appends (alts_adderr t)) (fun S A l => Forall appends (List.map (@p_adderr C S A) l)));
    intros; auto; unfold both_append in *; cbn [p_adderr p_addcexp];
    repeat match goal with H : _ /\ _ |- _ => destruct H end;
    try (split; first [apply appends_id|apply appends_add|assumption]; fail).
  - split; [apply one_of_appends|apply appends_id].
  - (* message *) split; auto. cbn. apply (appends_comp (p_adderr p)); auto. apply appends_add.
  - (* expected *) split; auto. cbn. apply appends_set_expected; auto.
  - (* tuple *) split; [apply appends_seq|apply appends_cexp]; auto.
  - (* with *) split; cbn; [apply appends_seq|apply appends_cexp]; repeat apply Forall_cons; try apply Forall_nil; split; auto.
  - split; cbn; [apply appends_seq|apply appends_cexp]; repeat apply Forall_cons; try apply Forall_nil; split; auto.
  - split; [apply appends_choice; auto|apply appends_id].
  - (* or *) split; [|apply appends_id]. apply (appends_if (fun t => (toff t =? 0)%N) (fun t => t)); [apply appends_id|]. apply appends_choice. repeat apply Forall_cons; try apply Forall_nil; auto.
  - split; [apply appends_choice; auto|apply appends_id].
  - (* escaped *) split; [|apply appends_id]. cbn. apply (appends_comp (p_adderr p)); auto. apply appends_add.
  - cbn. apply Forall_cons; auto; split; auto.
  - cbn. constructor; auto. split; auto.
  - cbn. apply Forall_cons; auto.
  - cbn. constructor; auto.
  - cbn. constructor.
  - cbn. constructor; auto.
Qed.

(** ** Entry points *)
Lemma lib_stream : forall S A (p : parser C S A), lib p -> outer_attempt p \/ forall i, p_stream p i = default_stream (p_init p) (p_run p) (p_adderr p) i.
Proof.
  apply (lib_mut (C:=C) (fun S A p => outer_attempt p \/ forall i, p_stream p i = default_stream (p_init p) (p_run p) (p_adderr p) i)
    (fun SS B t => True) (fun A SS t => True) (fun S A l => True)); intros; auto;
    try (right; intros; reflexivity).
  - left. constructor.
  - destruct H0 as [H0|H0]; [left; constructor; auto|right; auto].
  - destruct H0 as [H0|H0]; [left; constructor; auto|right; auto].
Qed.

Context (L : tok_laws T).

Lemma easy_add_said_info (es : errors (t_tok T) (t_Pos T)) e : says e <> None -> said (elist (easy_add T es e)) e.
Proof.
  intros H. destruct (easy_add_contains L es e) as [x [Hx [Hs| ->]]]; [exists x; auto|]. exists e. split; auto. apply same_say_refl; auto.
Qed.

Lemma augment_said (ae : trk E -> trk E) (i : input C) t : appends ae ->
  said (elist (terr (augment_err ae i t))) (found i).
Proof.
  intros H. unfold augment_err.
  set (u := match uncons i with (Some tk, _) => _ | _ => _ end).
  assert (Hu : said (elist (terr u)) (found i)).
  { unfold u, uncons, found. destruct (rest i) as [|x l]; apply easy_add_said_info; discriminate. }
  destruct (H u) as [_ [l Hl]]. destruct Hu as [x [Hx Hs]]. exists x. split; auto.
  assert (K : In x (elist (terr u) ++ l)) by (apply in_or_app; auto). rewrite <- Hl in K. exact K.
Qed.

Lemma augment_pos (ae : trk E -> trk E) (i : input C) t : appends ae -> eposition (terr (augment_err ae i t)) = eposition (terr t).
Proof.
  intros H. unfold augment_err. set (u := match uncons i with (Some tk, _) => _ | _ => _ end).
  destruct (H u) as [K _]. etransitivity; [exact K|]. unfold u, uncons. destruct (rest i); apply easy_add_append.
Qed.

Lemma parse_ok {S A} (p : parser C S A) : stream_agrees p -> forall i v i',
  parse p i = Done (inl v, i') <-> exists c, succeeds (fresh p) i c v i'.
Proof.
  intros H i v i'. specialize (H i). unfold parse, succeeds. destruct (fresh p i) as [[r j]| |], (p_stream p i) as [[r2 j2]| |]; try contradiction; cbn.
  - destruct H as [Hs [Ho Hc]]. destruct r as [a|a|e|e]; cbn in *.
    + destruct (Ho eq_refl) as [-> ->]. cbn. split; [intros K; inversion K; exists true; auto|intros [[|] K]; inversion K; auto].
    + destruct (Ho eq_refl) as [-> ->]. cbn. split; [intros K; inversion K; exists false; auto|intros [[|] K]; inversion K; auto].
    + rewrite (Hc eq_refl). cbn. split; [discriminate|intros [[|] K]; discriminate].
    + destruct r2; try discriminate. cbn. split; [discriminate|intros [[|] K]; discriminate].
  - split; [discriminate|intros [c K]; discriminate].
  - split; [discriminate|intros [c K]; discriminate].
Qed.

Lemma parse_committed {S A} (p : parser C S A) : stream_agrees p -> forall i e, fails_with (fresh p) i true e -> exists i', parse p i = Done (inr e, i').
Proof.
  intros H i e [r [i1 [K1 [K2 K3]]]]. specialize (H i). rewrite K1 in H. unfold parse. destruct (p_stream p i) as [[r2 j2]| |]; try contradiction.
  destruct H as [_ [_ Hc]]. rewrite (Hc K3). destruct r; try discriminate. inversion K2; subst. cbn. eauto.
Qed.

Lemma parse_backtracks {S A} (p : parser C S A) : lib p -> forall i, fails (fresh p) i false ->
  outer_attempt p \/ exists e, parse p i = Done (inr e, i) /\ said (elist e) (found i).
Proof.
  intros H i [e [r [i1 [K1 [K2 K3]]]]]. destruct (lib_stream _ _ p H) as [Ho|Ho]; auto. right. unfold parse. rewrite Ho.
  unfold default_stream. apply fresh_run in K1. destruct K1 as [s K1]. rewrite K1. destruct r; try discriminate. cbn.
  eexists. split; [reflexivity|]. apply augment_said. apply (lib_appends _ _ p H).
Qed.

Lemma parse_partial_spec {S A} (p : parser C S A) : lib p -> forall i st,
  match p_run p false i st, parse_stream_partial p i st with
  | Done (r, i', s'), Done (r2, i2, s2) => s2 = s' /\ shape r2 = shape r /\
      match r with PeekErr _ => i2 = i /\ exists e, error_of r2 = Some e /\ said (elist e) (found i) | _ => r2 = r /\ i2 = i' end
  | Panic, Panic | OOF, OOF => True
  | _, _ => False
  end.
Proof.
  intros H i st. unfold parse_stream_partial. destruct (p_run p false i st) as [[[r i'] s']| |]; cbn; auto.
  destruct r; cbn; auto. split; auto. split; auto. split; auto. eexists. split; [reflexivity|]. apply augment_said. apply (lib_appends _ _ p H).
Qed.

(** ** expected, message, silent, unexpected *)
Definition own_report (i : input C) (e : E) : E := easy_add T e (found i).

Lemma parse_peek {S A} (p : parser C S A) i t i' : (forall i, p_stream p i = default_stream (p_init p) (p_run p) (p_adderr p) i) ->
  fresh p i = Done (PeekErr t, i') ->
  parse p i = Done (inr (terr (p_adderr p (Trk (own_report i (terr t)) (toff t)))), i).
Proof.
  intros Ho K1. unfold parse. rewrite Ho. unfold default_stream. apply fresh_run in K1. destruct K1 as [s K1]. rewrite K1. cbn.
  unfold augment_err, own_report, uncons, found. destruct (rest i); reflexivity.
Qed.

Lemma others_filter (l : list (easy_error (t_tok T))) : filter (fun e => negb (is_expected e)) l = others l.
Proof. apply filter_ext. intros [x|x|x|x]; reflexivity. Qed.

Lemma add_news (es : errors (t_tok T) (t_Pos T)) e : exists x, news (elist es) [e] x /\ easy_add T es e = MkErrs (eposition es) (elist es ++ x).
Proof. apply (fold_add_news L [e] es). Qed.

Lemma expected_adds {S A} (p : parser C S A) m : lib p -> forall t : trk E, exists l x,
  elist (terr (p_adderr p t)) = elist (terr t) ++ l /\
  news (elist (terr t) ++ others l) [EExpected m] x /\
  terr (p_adderr (expected p m) t) = MkErrs (eposition (terr t)) (elist (terr t) ++ others l ++ x).
Proof.
  intros H t. destruct (lib_appends _ _ p H) as [Ha _]. destruct (Ha t) as [Hp [l Hl]].
  pose proof (set_expected_eq (p_adderr p) (EExpected m) t l Hl) as K.
  rewrite others_filter in K. match type of K with _ = easy_add T ?a _ => destruct (add_news a (EExpected m)) as [x [N Ex]] end.
  exists l, x. split; [exact Hl|]. split; [exact N|]. etransitivity; [exact K|]. rewrite Ex. cbn [eposition elist].
  rewrite <- app_assoc. f_equal. exact Hp.
Qed.

Lemma expected_parse {S A} (p : parser C S A) m : lib p -> forall i t i', fresh p i = Done (PeekErr t, i') ->
  exists f l x,
    news (elist (terr t)) [found i] f /\
    (outer_attempt p \/ parse p i = Done (inr (MkErrs (eposition (terr t)) (elist (terr t) ++ f ++ l)), i)) /\
    news (elist (terr t) ++ f ++ others l) [EExpected m] x /\
    parse (expected p m) i = Done (inr (MkErrs (eposition (terr t)) (elist (terr t) ++ f ++ others l ++ x)), i).
Proof.
  intros H i t i' K. destruct (add_news (terr t) (found i)) as [f [Nf Ef]].
  set (u := Trk (own_report i (terr t)) (toff t)).
  destruct (expected_adds p m H u) as [l [x [H1 [H2 H3]]]].
  assert (Hu : terr u = MkErrs (eposition (terr t)) (elist (terr t) ++ f)) by exact Ef.
  rewrite Hu in H2. cbn [elist] in H2. rewrite <- app_assoc in H2.
  assert (H1' : elist (terr (p_adderr p u)) = elist (terr t) ++ f ++ l).
  { etransitivity; [exact H1|]. rewrite app_assoc. f_equal. exact (f_equal (@elist _ _) Hu). }
  assert (H3' : terr (p_adderr (expected p m) u) = MkErrs (eposition (terr t)) (elist (terr t) ++ f ++ others l ++ x)).
  { etransitivity; [exact H3|]. rewrite (app_assoc (elist (terr t)) f). f_equal; [exact (f_equal (@eposition _ _) Hu)|f_equal; exact (f_equal (@elist _ _) Hu)]. }
  exists f, l, x. split; [exact Nf|]. split; [|split; [exact H2|]].
  - destruct (lib_stream _ _ p H) as [Ho|Ho]; auto. right. rewrite (parse_peek p i t i' Ho K). fold u. f_equal. f_equal. f_equal.
    destruct (lib_appends _ _ p H) as [Ha _]. destruct (Ha u) as [Hp _]. rewrite <- H1'.
    assert (Hq : eposition (terr (p_adderr p u)) = eposition (terr t)) by (etransitivity; [exact Hp|]; exact (f_equal (@eposition _ _) Hu)).
    rewrite <- Hq. destruct (terr (p_adderr p u)); reflexivity.
  - assert (K2 : fresh (expected p m) i = Done (PeekErr t, i')) by exact K.
    rewrite (parse_peek (expected p m) i t i' (fun _ => eq_refl) K2). fold u. rewrite <- H3'. reflexivity.
Qed.

Lemma message_parse {S A} (p : parser C S A) m : lib p -> forall i t i', fresh p i = Done (PeekErr t, i') ->
  exists e x, (outer_attempt p \/ parse p i = Done (inr e, i)) /\ (exists l, elist e = elist (terr t) ++ l) /\ said (elist e) (found i) /\
    news (elist e) [EMessage m] x /\ parse (message p m) i = Done (inr (MkErrs (eposition e) (elist e ++ x)), i).
Proof.
  intros H i t i' K. set (u := Trk (own_report i (terr t)) (toff t)).
  destruct (add_news (terr (p_adderr p u)) (EMessage m)) as [x [N Ex]].
  exists (terr (p_adderr p u)), x. destruct (lib_appends _ _ p H) as [Ha _].
  split; [|split; [|split; [|split; [exact N|]]]].
  - destruct (lib_stream _ _ p H) as [Ho|Ho]; auto. right. apply (parse_peek p i t i' Ho K).
  - destruct (Ha u) as [_ [l Hl]]. destruct (add_news (terr t) (found i)) as [f [_ Ef]]. exists (f ++ l). etransitivity; [exact Hl|]. rewrite app_assoc. f_equal. exact (f_equal (@elist _ _) Ef).
  - destruct (Ha u) as [_ [l Hl]]. assert (Hs : said (elist (own_report i (terr t))) (found i)) by (apply easy_add_said_info; unfold found; destruct (rest i); discriminate).
    destruct Hs as [y [Hy Hz]]. exists y. split; auto. assert (Hw : In y (elist (own_report i (terr t)) ++ l)) by (apply in_or_app; auto). change (In y (elist (terr u) ++ l)) in Hw. rewrite <- Hl in Hw. exact Hw.
  - assert (K2 : fresh (message p m) i = Done (PeekErr t, i')).
    { apply fresh_run in K. destruct K as [s K]. unfold fresh. cbn. rewrite K. reflexivity. }
    rewrite (parse_peek (message p m) i t i' (fun _ => eq_refl) K2). fold u. rewrite <- Ex. reflexivity.
Qed.

Lemma message_committed {S A} (p : parser C S A) m i e : fails_with (fresh p) i true e ->
  exists x, news (elist e) [EMessage m] x /\ fails_with (fresh (message p m)) i true (MkErrs (eposition e) (elist e ++ x)).
Proof.
  intros [r [i' [K1 [K2 K3]]]]. destruct r as [a|a|e0|e0]; try discriminate. inversion K2; subst.
  destruct (add_news e (EMessage m)) as [x [N Ex]]. exists x. split; auto. rewrite <- Ex. apply fresh_run in K1. destruct K1 as [s K1].
  eexists _, i'. unfold fresh. cbn. rewrite K1. cbn. split; [reflexivity|]. auto.
Qed.
Lemma message_same {S A} (p : parser C S A) m i :
  (forall c a i', succeeds (fresh (message p m)) i c a i' <-> succeeds (fresh p) i c a i') /\
  (forall c, fails (fresh (message p m)) i c <-> fails (fresh p) i c).
Proof.
  unfold succeeds, fails, fails_with, fresh. cbn. destruct (p_run p true i (p_init p)) as [[[r i'] s]| |]; cbn.
  - split; [intros c a j; destruct r; cbn; try tauto; split; intros K; inversion K; destruct c; discriminate|].
    intros c. destruct r; cbn; try tauto. split; intros [e0 [r [j [K1 [K2 K3]]]]]; inversion K1; subst; cbn in *; eexists _, _, _; (split; [reflexivity|]); cbn; auto.
  - split; [tauto|]. intros c. split; intros [? [? [? [? _]]]]; discriminate.
  - split; [tauto|]. intros c. split; intros [? [? [? [? _]]]]; discriminate.
Qed.

Lemma silent_same {S A} (p : parser C S A) i :
  (forall c a i', succeeds (fresh (silent p)) i c a i' <-> succeeds (fresh p) i c a i') /\
  (forall c e, fails_with (fresh (silent p)) i c e <-> exists e0, fails_with (fresh p) i c e0 /\ e = MkErrs (eposition e0) (others (elist e0))).
Proof.
  assert (Hc : forall e : E, e_clear_expected C e = MkErrs (eposition e) (others (elist e))).
  { intros e. cbn. unfold easy_clear_expected. rewrite others_filter. reflexivity. }
  unfold succeeds, fails_with, fresh. cbn -[e_clear_expected]. destruct (p_run p true i (p_init p)) as [[[r i'] s]| |]; cbn -[e_clear_expected].
  - split.
    + intros c a j. destruct r; cbn -[e_clear_expected]; try tauto; split; intros K; inversion K; destruct c; discriminate.
    + intros c e. split.
      * intros [r1 [j [K1 [K2 K3]]]]. inversion K1; subst. destruct r; try discriminate; cbn in K2 |- *; inversion K2; subst; eexists; (split; [eexists _, _; split; [reflexivity|]; cbn; auto|]); auto; apply Hc.
      * intros [e0 [[r1 [j [K1 [K2 K3]]]] ->]]. inversion K1; subst. eexists _, _. split; [reflexivity|]. rewrite <- Hc. destruct r1; try discriminate; cbn in *; inversion K2; subst; auto.
  - split; [tauto|]. intros c e. split; [intros [? [? [? _]]]; discriminate|intros [? [[? [? [? _]]] _]]; discriminate].
  - split; [tauto|]. intros c e. split; [intros [? [? [? _]]]; discriminate|intros [? [[? [? [? _]]] _]]; discriminate].
Qed.

Lemma silent_parse {S A} (p : parser C S A) : forall i t i', fresh p i = Done (PeekErr t, i') ->
  exists f, news (others (elist (terr t))) [found i] f /\
    parse (silent p) i = Done (inr (MkErrs (eposition (terr t)) (others (elist (terr t)) ++ f)), i).
Proof.
  intros i t i' K. destruct (add_news (MkErrs (eposition (terr t)) (others (elist (terr t)))) (found i)) as [f [N Ef]].
  exists f. split; auto. assert (K2 : fresh (silent p) i = Done (PeekErr (Trk (e_clear_expected C (terr t)) (toff t)), i')).
  { apply fresh_run in K. destruct K as [s K]. unfold fresh. cbn. rewrite K. reflexivity. }
  rewrite (parse_peek (silent p) i _ i' (fun _ => eq_refl) K2). f_equal. f_equal. f_equal. cbn [terr]. unfold own_report.
  etransitivity; [|exact Ef]. cbn. unfold easy_clear_expected. rewrite others_filter. reflexivity.
Qed.

Lemma unexpected_parse {A} m i :
  fails (fresh (@unexpected_any C A m)) i false /\
  exists x, news [found i] [EUnexpected m] x /\ parse (@unexpected_any C A m) i = Done (inr (MkErrs (ipos i) (found i :: x)), i).
Proof.
  split; [eexists _, _, _; split; [reflexivity|]; split; reflexivity|].
  destruct (add_news (MkErrs (ipos i) [found i]) (EUnexpected m)) as [x [N Ex]]. exists x. split; [exact N|].
  erewrite (parse_peek (@unexpected_any C A m) i (to_trk (MkErrs (ipos i) [])) i); [|reflexivity|reflexivity].
  cbn [p_adderr unexpected_any mk_lazy on_err terr]. f_equal. f_equal. f_equal. etransitivity; [|exact Ex]. reflexivity.
Qed.
End Reports.
