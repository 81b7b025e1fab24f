(** take_until_range, take_until_byte(s), length_prefix, numbers. *)
From Coq Require Import String List Bool Arith NArith ZArith Lia.
Import ListNotations.
From Verif Require Import Base Parser Token Combinator Sequence Choice Repeat RangeP ByteP Spec RangeSpec SeqProofs CombProofs
  LibSpec ForwardProofs AgreeSpec AgreeProofs RepeatProofs CombProofs2 RangeProofs.
Unset Implicit Arguments.

(** ** occurrences *)
Lemma first_here {X} (r s : list X) : first_occurrence r (r ++ s) [] s.
Proof. split; [reflexivity|]. cbn. lia. Qed.
Lemma first_later {X} (r l : list X) t b a : (forall s, t :: l <> r ++ s) -> first_occurrence r l b a -> first_occurrence r (t :: l) (t :: b) a.
Proof.
  intros H [H1 H2]. split; [cbn; congruence|]. intros b' a' K. destruct b' as [|x b']; [exfalso; eapply H; exact K|].
  inversion K; subst. cbn. specialize (H2 b' a'). cbn in H2. apply le_n_S. apply H2. assumption.
Qed.
Lemma same_len_app {X} : forall (b b' x y : list X), length b = length b' -> b ++ x = b' ++ y -> b = b' /\ x = y.
Proof.
  induction b as [|t b IH]; intros [|t' b'] x y H K; try discriminate; auto. cbn in *. inversion H; inversion K; subst.
  destruct (IH b' x y) as [-> ->]; auto.
Qed.
Lemma first_unique {X} (r l : list X) b a b' a' : first_occurrence r l b a -> first_occurrence r l b' a' -> b = b' /\ a = a'.
Proof.
  intros [H1 H2] [K1 K2]. pose proof (H2 _ _ K1). pose proof (K2 _ _ H1). assert (length b = length b') by lia.
  rewrite H1 in K1. destruct (same_len_app _ _ _ _ H3 K1) as [-> K]. split; auto. apply app_inv_head in K. auto.
Qed.
(** The occurrences of [r] in [t :: l]: here or later. *)
Lemma first_cases {X} (r l : list X) b a : first_occurrence r l b a ->
  (exists s, l = r ++ s /\ b = [] /\ a = s) \/ (exists t l' b', l = t :: l' /\ b = t :: b' /\ first_occurrence r l' b' a /\ forall s, l <> r ++ s).
Proof.
  intros [H1 H2]. destruct b as [|t b].
  - left. exists a. auto.
  - right. exists t, (b ++ r ++ a), b. split; [exact H1|]. split; [auto|]. split.
    + split; auto. intros b' a' K. specialize (H2 (t :: b') a'). cbn in H2. rewrite H1 in H2. cbn in H2. rewrite K in H2. specialize (H2 eq_refl). lia.
    + intros s Hs. specialize (H2 [] s Hs). cbn in H2. lia.
Qed.
Lemma occurs_first {X} (r : list X) (dec : forall l, {s | l = r ++ s} + {forall s, l <> r ++ s}) : forall l, {b & {a | first_occurrence r l b a}} + {~ occurs r l}.
Proof.
  induction l as [|t l IH].
  - destruct (dec []) as [[s Hs]|Hn].
    + left. exists [], s. split; [exact Hs|]. cbn. lia.
    + right. intros [b [a H]]. symmetry in H. apply app_eq_nil in H. destruct H as [_ H]. apply (Hn a). auto.
  - destruct (dec (t :: l)) as [[s Hs]|Hn].
    + left. exists [], s. rewrite Hs. apply first_here.
    + destruct IH as [[b [a H]]|H].
      * left. exists (t :: b), a. apply first_later; auto.
      * right. intros [b [a K]]. destruct b as [|x b]; [eapply Hn; exact K|]. apply H. inversion K; subst. exists b, a. auto.
Qed.

Section RangeProofs2.
Context {C : Cfg}.
Notation T := (tok C).
Notation E := (Err C).
Notation beh := (@Spec.beh C).
Notation units := (@RangeSpec.units C).

Lemma prefix_dec (L : lawful C) : forall (r l : list T), {s | l = r ++ s} + {forall s, l <> r ++ s}.
Proof.
  induction r as [|x r IH]; intros l; [left; exists l; auto|]. destruct l as [|y l]; [right; intros s H; discriminate|].
  destruct (tok_eqb C x y) eqn:He.
  - apply (law_tok L) in He. subst. destruct (IH l) as [[s ->]|H]; [left; exists s; auto|]. right. intros s K. inversion K; subst. eapply H; eauto.
  - right. intros s K. inversion K; subst. rewrite (proj2 (law_tok L x x) eq_refl) in He. discriminate.
Qed.

Lemma advance_app (i : input C) a b r : rest i = (a ++ b) ++ r -> advance (advance i a (b ++ r)) b r = advance i (a ++ b) r.
Proof. intros H. unfold advance. cbn. rewrite pos_after_app. reflexivity. Qed.

Lemma tur_loop_eq (r : list T) before fe tc l pos : tur_loop r before fe tc l pos =
  match uncons_range (range_len r) (Inp l pos (ipart before)) with
  | (inl xs, i') =>
      if list_eqb (tok_eqb C) xs r then
        let dist := distance i' before - range_len r in
        match uncons_range dist before with
        | (inl committed, i2) => if dist =? 0 then Done (PeekOk committed, i2, tc) else Done (CommitOk committed, i2, 0)
        | (inr _, _) => Panic
        end
      else match l with [] => Panic | t :: l' => tur_loop r before fe tc l' (pos_step C pos t) end
  | (inr err, i') =>
      let fe' := match fe with None => (err, distance i' before) | Some x => x end in
      match l with
      | [] => Done (wrap_stream_error before (fst fe'), before, snd fe')
      | t :: l' => tur_loop r before (Some fe') tc l' (pos_step C pos t)
      end
  end.
Proof. destruct l; reflexivity. Qed.

Lemma tur_hit (L : lawful C) (r : list T) before fe tc pre s : rest before = pre ++ r ++ s ->
  tur_loop r before fe tc (r ++ s) (pos_after (ipos before) pre) =
    Done (okr (consumed_some pre) pre, advance before pre (r ++ s), if consumed_some pre then 0 else tc).
Proof.
  intros H. rewrite tur_loop_eq. rewrite (uncons_range_exact L _ r (advance (Inp (r ++ s) (pos_after (ipos before) pre) (ipart before)) r s)) by (apply advance_by; reflexivity).
  rewrite (proj2 (list_eqb_iff L r r) eq_refl). cbv zeta.
  assert (Hd : forall i0, rest i0 = s -> distance i0 before - range_len r = range_len pre).
  { intros i0 Hi. unfold distance. rewrite Hi, H, !range_len_app. lia. }
  rewrite Hd by reflexivity. rewrite (uncons_range_exact L before pre (advance before pre (r ++ s))) by (apply advance_by; auto).
  destruct pre as [|x pre]; [reflexivity|]. change (range_len (x :: pre)) with (width C x + range_len pre). pose proof (law_width L x).
  destruct (width C x + range_len pre =? 0) eqn:Hz; [apply Nat.eqb_eq in Hz; lia|reflexivity].
Qed.
Lemma range_len_zero (L : lawful C) (r : list T) : range_len r = 0 -> r = [].
Proof. apply (range_len_0 L). Qed.
Lemma tur_miss (L : lawful C) (r : list T) before fe tc t l pos : (forall s, t :: l <> r ++ s) ->
  exists fe', tur_loop r before fe tc (t :: l) pos = tur_loop r before fe' tc l (pos_step C pos t).
Proof.
  intros H. rewrite tur_loop_eq. unfold uncons_range. cbn [rest]. destruct (split_width (range_len r) (t :: l)) as [[xs b]|e] eqn:Hs.
  - destruct (split_width_ok _ _ _ _ Hs) as [K1 K2]. destruct (list_eqb (tok_eqb C) xs r) eqn:He; [|eauto].
    apply (list_eqb_iff L) in He. subst xs. exfalso. exact (H _ K1).
  - cbv zeta. eauto.
Qed.
Lemma tur_miss_end (L : lawful C) (r : list T) before fe tc pos : r <> [] ->
  exists d, tur_loop r before fe tc [] pos = Done (wrap_stream_error before (match fe with Some x => fst x | None => se_eoi C end), before, d).
Proof.
  intros H. rewrite tur_loop_eq. unfold uncons_range. cbn [rest split_width]. destruct (range_len r =? 0) eqn:Hz.
  - apply Nat.eqb_eq in Hz. apply (range_len_0 L) in Hz. contradiction.
  - destruct fe as [[e d]|]; eauto.
Qed.

Lemma tur_found (L : lawful C) r before : forall (l : list T) pre fe tc b a, rest before = pre ++ l ->
  first_occurrence r l b a -> tur_loop r before fe tc l (pos_after (ipos before) pre) =
    Done (okr (consumed_some (pre ++ b)) (pre ++ b), advance before (pre ++ b) (r ++ a), if consumed_some (pre ++ b) then 0 else tc).
Proof.
  induction l as [|t l IH]; intros pre fe tc b a Hr Hf; destruct (first_cases _ _ _ _ Hf) as [[s [K1 [-> ->]]]|[x [l' [b' [K1 [K2 [K3 K4]]]]]]].
  - symmetry in K1. apply app_eq_nil in K1. destruct K1 as [-> ->]. rewrite app_nil_r. apply (tur_hit L [] before fe tc pre []). exact Hr.
  - discriminate.
  - rewrite K1 in Hr |- *. rewrite app_nil_r. apply (tur_hit L). exact Hr.
  - injection K1 as <- <-. subst b. destruct (tur_miss L r before fe tc t l (pos_after (ipos before) pre) K4) as [fe' ->].
    replace (pos_step C (pos_after (ipos before) pre) t) with (pos_after (ipos before) (pre ++ [t])) by (rewrite pos_after_app; reflexivity).
    rewrite (IH (pre ++ [t]) fe' tc b' a); [|rewrite <- app_assoc; exact Hr|exact K3]. rewrite <- app_assoc. reflexivity.
Qed.
Lemma tur_absent (L : lawful C) r before : forall (l : list T) pre fe tc, rest before = pre ++ l -> ~ occurs r l ->
  exists e d, tur_loop r before fe tc l (pos_after (ipos before) pre) = Done (wrap_stream_error before e, before, d).
Proof.
  induction l as [|t l IH]; intros pre fe tc Hr Hn.
  - destruct (tur_miss_end L r before fe tc (pos_after (ipos before) pre)) as [d ->]; [intros ->; apply Hn; exists [], []; reflexivity|]. eauto.
  - destruct (tur_miss L r before fe tc t l (pos_after (ipos before) pre)) as [fe' ->]; [intros s Hs; apply Hn; exists [], s; exact Hs|].
    replace (pos_step C (pos_after (ipos before) pre) t) with (pos_after (ipos before) (pre ++ [t])) by (rewrite pos_after_app; reflexivity).
    apply IH; [rewrite <- app_assoc; exact Hr|]. intros [b [a ->]]. apply Hn. exists (t :: b), a. reflexivity.
Qed.

Lemma fresh_tur (r : list T) i : fresh (take_until_range r) i = omap fst (tur_loop r i None 0 (rest i) (ipos i)).
Proof.
  unfold fresh. cbn. unfold take_until_range_run, s_uncons_range, uncons_range. assert (split_width 0 (rest i) = inl ([], rest i)) as -> by (destruct (rest i); reflexivity).
  reflexivity.
Qed.

Lemma take_until_range_spec (L : lawful C) (r : list T) :
  (forall i c l i', succeeds (fresh (take_until_range r)) i c l i' <->
     advanced_by i l i' /\ (exists a, first_occurrence r (rest i) l a) /\ c = consumed_some l) /\
  (forall i c, fails (fresh (take_until_range r)) i c <-> ~ occurs r (rest i) /\ c = ipart i) /\
  (forall i, fresh (take_until_range r) i <> Panic /\ fresh (take_until_range r) i <> OOF).
Proof.
  assert (F : forall i : input C,
     (exists b a, first_occurrence r (rest i) b a /\ fresh (take_until_range r) i = Done (okr (consumed_some b) b, advance i b (r ++ a))) \/
     (~ occurs r (rest i) /\ exists e, fresh (take_until_range r) i = Done (wrap_stream_error i e, i))).
  { intros i. rewrite fresh_tur. destruct (occurs_first r (prefix_dec L r) (rest i)) as [[b [a H]]|H].
    - left. exists b, a. split; auto. pose proof (tur_found L r i (rest i) [] None 0 b a eq_refl H) as K. cbn [pos_after fold_left app] in K.
      etransitivity; [exact (f_equal (omap fst) K)|reflexivity].
    - right. split; auto. destruct (tur_absent L r i (rest i) [] None 0 eq_refl H) as [e [d K]]. exists e. etransitivity; [exact (f_equal (omap fst) K)|reflexivity]. }
  split; [|split].
  - intros i c l i'. unfold succeeds. destruct (F i) as [[b [a [H1 ->]]]|[H1 [e ->]]].
    + split.
      * intros K. injection K as K <-. apply okr_inj in K. destruct K as [<- <-]. split; [apply advance_by; apply H1|]. split; eauto.
      * intros [K1 [[a' K2] ->]]. destruct (first_unique _ _ _ _ _ _ H1 K2) as [-> ->]. f_equal. f_equal. eapply advanced_by_eq; [|exact K1]. apply advance_by. apply K2.
    + unfold wrap_stream_error. split; [intros K; destruct (ipart i), c; discriminate|]. intros [_ [[a K] _]]. exfalso. apply H1. exists l, a. apply K.
  - intros i c. unfold fails, fails_with. destruct (F i) as [[b [a [H1 ->]]]|[H1 [e ->]]].
    + split; [intros [e [x [j [K [K1 _]]]]]; injection K as <- <-; rewrite okr_not_error in K1; discriminate|]. intros [K _]. exfalso. apply K. exists b, a. apply H1.
    + split.
      * intros [x [r0 [j [K [K1 K2]]]]]. split; auto. injection K as <- <-. unfold wrap_stream_error in K2. destruct (ipart i); auto.
      * intros [_ ->]. eexists. apply (fails_with_wrap (A:=list T) i e).
  - intros i. destruct (F i) as [[b [a [H1 ->]]]|[H1 [e ->]]]; split; discriminate.
Qed.
End RangeProofs2.
