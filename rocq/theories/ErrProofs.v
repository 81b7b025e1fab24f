(** Proofs about error values and error reports. *)
From Coq Require Import String List Bool Arith NArith Lia.
Import ListNotations.
From Verif Require Import Base Errors Parser Token Combinator Sequence Choice Repeat RangeP ByteP Spec LibSpec SeqSpec CombProofs AgreeSpec AgreeProofs ErrSpec.
Unset Implicit Arguments.

Section Values.
Context {T : TokCfg} (L : tok_laws T).
Notation tk := (t_tok T).
Notation eqb := (t_eqb T).
Notation eerrs := (errors (t_tok T) (t_Pos T)).

Lemma info_eqb_iff (a b : info tk) : info_eqb eqb a b = true <-> say_info a = say_info b.
Proof.
  assert (Hl : forall l r : list tk,
    (fix leqb (l r : list tk) : bool := match l, r with [], [] => true | x :: l', y :: r' => eqb x y && leqb l' r' | _, _ => false end) l r = true <-> l = r).
  { induction l as [|x l IH]; destruct r as [|y r]; split; intros H; auto; try discriminate.
    - apply andb_true_iff in H. destruct H as [H1 H2]. apply (tl_eqb L) in H1. apply IH in H2. congruence.
    - inversion H; subst. apply andb_true_iff. split; [apply (tl_eqb L); auto|apply IH; auto]. }
  destruct a as [x|x|x|x], b as [y|y|y|y]; cbn [info_eqb say_info]; try (split; [discriminate|intros K; discriminate]);
    rewrite ?Hl, ?(tl_eqb L), ?String.eqb_eq; split; intros K; try (inversion K; reflexivity); congruence.
Qed.

Lemma easy_eqb_iff (a b : easy_error tk) : easy_eqb eqb a b = true <-> same_say a b.
Proof.
  unfold same_say. destruct a as [x|x|x|x], b as [y|y|y|y]; cbn [easy_eqb says];
    try (split; [discriminate|intros [m [K1 K2]]; congruence]); rewrite info_eqb_iff;
    (split; [intros ->; eauto|intros [m [K1 K2]]; congruence]).
Qed.

Lemma same_say_sym (a b : easy_error tk) : same_say a b -> same_say b a.
Proof. intros [m [H1 H2]]. exists m. auto. Qed.
Lemma same_say_trans (a b c : easy_error tk) : same_say a b -> same_say b c -> same_say a c.
Proof. intros [m [H1 H2]] [m' [H3 H4]]. exists m. split; auto. congruence. Qed.
Lemma same_say_refl (a : easy_error tk) : says a <> None -> same_say a a.
Proof. intros H. destruct (says a) as [m|] eqn:Hs; [exists m; auto|congruence]. Qed.

Lemma easy_add_cases (es : eerrs) e :
  (said (elist es) e /\ easy_add T es e = es) \/
  (~ said (elist es) e /\ easy_add T es e = MkErrs (eposition es) (elist es ++ [e])).
Proof.
  unfold easy_add. destruct (forallb (fun x => negb (easy_eqb eqb x e)) (elist es)) eqn:H.
  - right. split; auto. rewrite forallb_forall in H. intros [x [Hx Hs]]. apply H in Hx. apply easy_eqb_iff in Hs.
    rewrite Hs in Hx. discriminate.
  - left. split; auto. assert (K : exists x, In x (elist es) /\ easy_eqb eqb x e = true).
    { clear - H. induction (elist es) as [|x l IH]; cbn in H; [discriminate|]. destruct (easy_eqb eqb x e) eqn:He; cbn in H.
      - exists x. cbn; auto.
      - destruct (IH H) as [y [Hy Hz]]. exists y. cbn; auto. }
    destruct K as [x [Hx He]]. exists x. split; auto. apply easy_eqb_iff; auto.
Qed.

Lemma easy_add_said (es : eerrs) e : said (elist es) e -> easy_add T es e = es.
Proof. intros H. destruct (easy_add_cases es e) as [[_ K]|[K _]]; auto. contradiction. Qed.
Lemma easy_add_new (es : eerrs) e : ~ said (elist es) e -> easy_add T es e = MkErrs (eposition es) (elist es ++ [e]).
Proof. intros H. destruct (easy_add_cases es e) as [[K _]|[_ K]]; auto. contradiction. Qed.

Lemma easy_add_pos (es : eerrs) e : eposition (easy_add T es e) = eposition es.
Proof. destruct (easy_add_cases es e) as [[_ ->]|[_ ->]]; auto. Qed.

Lemma easy_add_contains (es : eerrs) e : exists x, In x (elist (easy_add T es e)) /\ (same_say x e \/ x = e).
Proof.
  destruct (easy_add_cases es e) as [[[x [Hx Hs]] ->]|[_ ->]]; [exists x; auto|]. exists e. cbn. split; auto. apply in_or_app. cbn; auto.
Qed.

Lemma no_repeats_snoc (l : list (easy_error tk)) e : no_repeats l -> ~ said l e -> no_repeats (l ++ [e]).
Proof.
  induction l as [|x l IH]; intros H K; cbn in *; [split; auto; intros ? []|]. destruct H as [H1 H2]. split.
  - intros e' He. apply in_app_or in He. destruct He as [He|[<-|[]]]; auto. intros Hs. apply K. exists x. cbn; auto.
  - apply IH; auto. intros [y [Hy Hz]]. apply K. exists y. cbn; auto.
Qed.
Lemma easy_add_no_repeats (es : eerrs) e : no_repeats (elist es) -> no_repeats (elist (easy_add T es e)).
Proof. intros H. destruct (easy_add_cases es e) as [[_ ->]|[K ->]]; auto. apply no_repeats_snoc; auto. Qed.

(** Adding a list of errors. *)
Lemma fold_add_news (l : list (easy_error tk)) : forall es : eerrs, exists l',
  news (elist es) l l' /\ fold_left (easy_add T) l es = MkErrs (eposition es) (elist es ++ l').
Proof.
  induction l as [|e l IH]; intros es; cbn.
  - exists []. rewrite app_nil_r. destruct es; split; auto. constructor.
  - destruct (easy_add_cases es e) as [[[x [Hx Hs]] ->]|[K ->]].
    + destruct (IH es) as [l' [H1 H2]]. exists l'. split; auto. eapply news_old; eauto.
    + destruct (IH (MkErrs (eposition es) (elist es ++ [e]))) as [l' [H1 H2]]. exists (e :: l'). cbn in *. split.
      * apply news_new; auto. intros x Hx Hs. apply K. exists x; auto.
      * rewrite H2, <- app_assoc. reflexivity.
Qed.

Lemma news_fun (seen l l1 : list (easy_error tk)) : news seen l l1 -> forall l2, news seen l l2 -> l1 = l2.
Proof.
  induction 1 as [|seen e l l' x H1 H2 H3 IH|seen e l l' H1 H2 IH]; intros l2 K; inversion K; subst; auto.
  - exfalso. eapply H5; eauto.
  - exfalso. eapply H1; eauto.
  - f_equal. auto.
Qed.

Lemma fold_add_eq (l l' : list (easy_error tk)) (es : eerrs) : news (elist es) l l' ->
  fold_left (easy_add T) l es = MkErrs (eposition es) (elist es ++ l').
Proof. intros H. destruct (fold_add_news l es) as [l2 [H1 H2]]. rewrite (news_fun _ _ _ H _ H1). auto. Qed.

(** Leaving out what is already known does not matter. *)
Lemma fold_add_news_absorb (seen c c' : list (easy_error tk)) : news seen c c' -> forall es : eerrs,
  (forall e, In e seen -> says e <> None -> said (elist es) e) ->
  fold_left (easy_add T) c es = fold_left (easy_add T) c' es.
Proof.
  induction 1 as [|seen e l l' x H1 H2 H3 IH|seen e l l' H1 H2 IH]; intros es K; cbn; auto.
  - assert (Hx : says x <> None) by (destruct H2 as [m [H2 _]]; congruence).
    destruct (K x H1 Hx) as [y [Hy Hz]]. rewrite (easy_add_said es e); auto. exists y. split; auto. eapply same_say_trans; eauto.
  - apply IH. intros a Ha Hn. apply in_app_or in Ha. destruct Ha as [Ha|[<-|[]]].
    + destruct (K a Ha Hn) as [y [Hy Hz]]. exists y. split; auto.
      destruct (easy_add_cases es e) as [[_ ->]|[_ ->]]; auto. cbn. apply in_or_app; auto.
    + destruct (easy_add_cases es e) as [[[y [Hy Hz]] ->]|[_ ->]]; [exists y; auto|]. exists e. split; [cbn; apply in_or_app; cbn; auto|].
      apply same_say_refl; auto.
Qed.

Lemma fold_add_keeps (l : list (easy_error tk)) (es : eerrs) e : In e (elist es) -> In e (elist (fold_left (easy_add T) l es)).
Proof. intros H. destruct (fold_add_news l es) as [l' [_ ->]]. cbn. apply in_or_app; auto. Qed.
Lemma fold_add_said (l : list (easy_error tk)) : forall (es : eerrs) e, In e l -> says e <> None -> said (elist (fold_left (easy_add T) l es)) e.
Proof.
  induction l as [|x l IH]; intros es e H Hn; [contradiction|]. cbn. destruct H as [<-|H]; [|auto].
  destruct (easy_add_cases es x) as [[[y [Hy Hz]] ->]|[_ ->]].
  - exists y. split; auto. apply fold_add_keeps; auto.
  - exists x. split; [apply fold_add_keeps; cbn; apply in_or_app; cbn; auto|apply same_say_refl; auto].
Qed.

(** ** merge *)
Lemma merge_lt (a b : eerrs) : t_pos_cmp T (eposition a) (eposition b) = Lt -> easy_merge T a b = b.
Proof. intros H. unfold easy_merge. rewrite H. auto. Qed.
Lemma merge_gt (a b : eerrs) : t_pos_cmp T (eposition a) (eposition b) = Gt -> easy_merge T a b = a.
Proof. intros H. unfold easy_merge. rewrite H. auto. Qed.
Lemma merge_eq (a b : eerrs) : eposition a = eposition b ->
  exists l', news (elist a) (elist b) l' /\ easy_merge T a b = MkErrs (eposition a) (elist a ++ l').
Proof. intros H. unfold easy_merge. rewrite (proj2 (tl_cmp_eq L _ _) H). apply fold_add_news. Qed.

Lemma cmp_gt_lt p q : t_pos_cmp T p q = Gt <-> t_pos_cmp T q p = Lt.
Proof. rewrite (tl_cmp_anti L p q). destruct (t_pos_cmp T p q); cbn; split; congruence. Qed.

Lemma merge_assoc (a b c : eerrs) : easy_merge T (easy_merge T a b) c = easy_merge T a (easy_merge T b c).
Proof.
  destruct (t_pos_cmp T (eposition a) (eposition b)) eqn:Hab.
  - apply (tl_cmp_eq L) in Hab. destruct (merge_eq a b Hab) as [l1 [N1 E1]].
    destruct (t_pos_cmp T (eposition b) (eposition c)) eqn:Hbc.
    + apply (tl_cmp_eq L) in Hbc. destruct (merge_eq b c Hbc) as [l2 [N2 E2]].
      rewrite E2. unfold easy_merge at 1. rewrite E1. cbn [eposition]. rewrite (proj2 (tl_cmp_eq L (eposition a) (eposition c))) by congruence.
      unfold easy_merge. cbn [eposition elist]. rewrite (proj2 (tl_cmp_eq L (eposition a) (eposition b)) Hab). rewrite fold_left_app.
      rewrite (fold_add_eq _ _ a N1). apply (fold_add_news_absorb _ _ _ N2). intros e He Hn. cbn [elist].
      change (elist a ++ l1) with (elist (MkErrs (eposition a) (elist a ++ l1))). rewrite <- (fold_add_eq _ _ a N1). apply fold_add_said; auto.
    + rewrite (merge_lt b c Hbc). rewrite E1. rewrite (merge_lt a c) by congruence. apply merge_lt. cbn. congruence.
    + rewrite (merge_gt b c Hbc). apply merge_gt. rewrite E1. cbn. congruence.
  - rewrite (merge_lt a b Hab). destruct (t_pos_cmp T (eposition b) (eposition c)) eqn:Hbc.
    + apply (tl_cmp_eq L) in Hbc. destruct (merge_eq b c Hbc) as [l2 [N2 E2]]. rewrite E2. symmetry. apply merge_lt. auto.
    + rewrite (merge_lt b c Hbc). symmetry. apply merge_lt. eapply (tl_cmp_trans L); eauto.
    + rewrite (merge_gt b c Hbc). symmetry. apply merge_lt. auto.
  - rewrite (merge_gt a b Hab). destruct (t_pos_cmp T (eposition b) (eposition c)) eqn:Hbc.
    + apply (tl_cmp_eq L) in Hbc. destruct (merge_eq b c Hbc) as [l2 [N2 E2]]. rewrite E2. rewrite (merge_gt a c) by congruence. symmetry. apply merge_gt. auto.
    + rewrite (merge_lt b c Hbc). reflexivity.
    + rewrite (merge_gt b c Hbc). rewrite (merge_gt a b Hab). apply merge_gt. apply cmp_gt_lt. apply cmp_gt_lt in Hab, Hbc. eapply (tl_cmp_trans L); eauto.
Qed.

Lemma merge_idem (a : eerrs) : (forall e, In e (elist a) -> says e <> None) -> easy_merge T a a = a.
Proof.
  intros H. unfold easy_merge. rewrite (proj2 (tl_cmp_eq L _ _) eq_refl).
  assert (K : forall l, (forall e, In e l -> In e (elist a)) -> fold_left (easy_add T) l a = a).
  { induction l as [|e l IH]; intros Hl; cbn; auto. rewrite easy_add_said; [apply IH; cbn in Hl; auto|].
    exists e. split; [apply Hl; cbn; auto|]. apply same_say_refl. apply H. apply Hl. cbn; auto. }
  apply K. auto.
Qed.

Lemma merge_no_repeats (a b : eerrs) : no_repeats (elist a) -> no_repeats (elist b) -> no_repeats (elist (easy_merge T a b)).
Proof.
  intros Ha Hb. unfold easy_merge. destruct (t_pos_cmp T (eposition a) (eposition b)); auto.
  clear Hb. revert a Ha. induction (elist b) as [|e l IH]; intros a Ha; cbn; auto. apply IH. apply easy_add_no_repeats; auto.
Qed.
End Values.
