(** take, take_while, take_while1, range, take_until_range, take_fn, length_prefix. *)
From Coq Require Import String List Bool Arith NArith ZArith Lia.
Import ListNotations.
From Verif Require Import Base Parser Token Combinator Sequence Choice Repeat RangeP ByteP Spec RangeSpec SeqProofs CombProofs
  LibSpec ForwardProofs AgreeSpec AgreeProofs RepeatProofs CombProofs2.
Unset Implicit Arguments.

Section RangeProofs.
Context {C : Cfg}.
Notation T := (tok C).
Notation E := (Err C).
Notation beh := (@Spec.beh C).
Notation units := (@RangeSpec.units C).

Lemma range_len_units (l : list T) : range_len (C:=C) l = units l.
Proof. reflexivity || (unfold units; induction l; cbn; auto). Qed.

(** ** splitting by size *)
Lemma split_width_ok : forall (l : list T) n a b, split_width n l = inl (a, b) -> l = a ++ b /\ range_len a = n.
Proof.
  induction l as [|t l IH]; intros n a b H; cbn in H.
  - destruct (n =? 0) eqn:Hn; [|discriminate]. inversion H; subst. apply Nat.eqb_eq in Hn. subst. auto.
  - destruct (n =? 0) eqn:Hn.
    + inversion H; subst. apply Nat.eqb_eq in Hn. subst. auto.
    + destruct (width C t <=? n) eqn:Hw; [|discriminate]. destruct (split_width (n - width C t) l) as [[a' b']|e] eqn:Hs; [|discriminate].
      inversion H; subst. destruct (IH _ _ _ Hs) as [-> Hl]. apply Nat.leb_le in Hw. split; auto.
      change (range_len (t :: a')) with (width C t + range_len a'). lia.
Qed.
Lemma split_width_err : forall (l : list T) n e, split_width n l = inr e ->
  (forall a b, l = a ++ b -> range_len a <> n) /\
  ((range_len l < n /\ e = se_eoi C) \/ (n < range_len l /\ e = se_boundary C)).
Proof.
  induction l as [|t l IH]; intros n e H; cbn in H.
  - destruct (n =? 0) eqn:Hn; [discriminate|]. inversion H; subst. apply Nat.eqb_neq in Hn. split; [|left; cbn; split; [lia|auto]].
    intros a b Ha. symmetry in Ha. apply app_eq_nil in Ha. destruct Ha; subst. cbn. lia.
  - destruct (n =? 0) eqn:Hn; [discriminate|]. apply Nat.eqb_neq in Hn. destruct (width C t <=? n) eqn:Hw.
    + destruct (split_width (n - width C t) l) as [[a' b']|e'] eqn:Hs; [discriminate|]. injection H as ->. apply Nat.leb_le in Hw.
      destruct (IH _ _ Hs) as [H1 H2]. split.
      * intros a b Ha. destruct a as [|x a]; [cbn; lia|]. inversion Ha; subst.
        change (range_len (x :: a)) with (width C x + range_len a). specialize (H1 a b eq_refl). lia.
      * change (range_len (t :: l)) with (width C t + range_len l). destruct H2 as [[H2 ->]|[H2 ->]]; [left|right]; split; auto; lia.
    + injection H as <-. apply Nat.leb_gt in Hw. change (range_len (t :: l)) with (width C t + range_len l). split; [|right; split; auto; lia].
      intros a b Ha. destruct a as [|x a]; [cbn; lia|]. inversion Ha; subst. change (range_len (x :: a)) with (width C x + range_len a). lia.
Qed.

Lemma advance_by (i : input C) a b : rest i = a ++ b -> advanced_by i a (advance i a b).
Proof. intros H. repeat split; auto. Qed.
Lemma advanced_by_eq (i : input C) l i1 i2 : advanced_by i l i1 -> advanced_by i l i2 -> i1 = i2.
Proof.
  intros [H1 [H2 H3]] [K1 [K2 K3]]. destruct i1, i2; cbn in *. rewrite H1 in K1. apply app_inv_head in K1. congruence.
Qed.
Lemma prefix_same_len (L : lawful C) : forall (a a' b b' : list T), a ++ b = a' ++ b' -> range_len a = range_len a' -> a = a'.
Proof.
  induction a as [|t a IH]; intros [|t' a'] b b' H K; auto.
  - exfalso. change (range_len (t' :: a')) with (width C t' + range_len a') in K. cbn in K. pose proof (law_width L t'). lia.
  - exfalso. change (range_len (t :: a)) with (width C t + range_len a) in K. cbn in K. pose proof (law_width L t). lia.
  - inversion H; subst. f_equal. eapply IH; eauto. change (range_len (t' :: a)) with (width C t' + range_len a) in K.
    change (range_len (t' :: a')) with (width C t' + range_len a') in K. lia.
Qed.

Lemma prefix_same_units (L : lawful C) (a a' b b' : list T) : a ++ b = a' ++ b' -> units a = units a' -> a = a'.
Proof. intros H K. apply (prefix_same_len L a a' b b' H). rewrite !range_len_units. exact K. Qed.

(** What [uncons_range] does. *)
Lemma uncons_range_cases n (i : input C) :
  (exists l i', uncons_range n i = (inl l, i') /\ advanced_by i l i' /\ units l = n) \/
  (exists e, uncons_range n i = (inr e, i) /\ (forall l r, rest i = l ++ r -> units l <> n) /\
     ((units (rest i) < n /\ e = se_eoi C) \/ (n < units (rest i) /\ e = se_boundary C))).
Proof.
  unfold uncons_range. destruct (split_width n (rest i)) as [[a b]|e] eqn:Hs.
  - destruct (split_width_ok _ _ _ _ Hs) as [H1 H2]. left. exists a, (advance i a b). split; auto. split; [apply advance_by; auto|]. rewrite <- range_len_units. exact H2.
  - destruct (split_width_err _ _ _ Hs) as [H1 H2]. right. exists e. split; auto. rewrite <- range_len_units. split; auto.
    intros l r Hl. rewrite <- range_len_units. eauto.
Qed.

Lemma fresh_lazy {A} (lz : input C -> outcome (PR A E * input C)) a b n i : fresh (mk_lazy lz a b n) i = lz i.
Proof. unfold fresh. cbn. unfold lazy_run. destruct (lz i) as [[r j]| |]; reflexivity. Qed.

Lemma fails_with_wrap {A} (i : input C) e : fails_with (fun _ => Done (@wrap_stream_error C A i e, i)) i (ipart i) (e_from C (ipos i) e).
Proof. unfold fails_with, wrap_stream_error. destruct (ipart i); do 2 eexists; (split; [reflexivity|split; reflexivity]). Qed.

Lemma take_spec (L : lawful C) n :
  (forall i c l i', succeeds (fresh (take n)) i c l i' <-> advanced_by i l i' /\ units l = n /\ c = negb (n =? 0)) /\
  (forall i c e, fails_with (fresh (take n)) i c e <->
     (forall l r, rest i = l ++ r -> units l <> n) /\ c = ipart i /\
     e = e_from C (ipos i) (if units (rest i) <? n then se_eoi C else se_boundary C)).
Proof.
  assert (F : forall i, fresh (take n) i = Done (s_uncons_range i n)) by (intros i; apply (fresh_lazy (take_lazy n))).
  split.
  - intros i c l i'. unfold succeeds. rewrite F. unfold s_uncons_range. destruct (uncons_range_cases n i) as [[l0 [i0 [H1 [H2 H3]]]]|[e [H1 [H2 H3]]]]; rewrite H1.
    + split.
      * intros H. destruct (n =? 0); [apply done_peek in H|apply done_commit in H]; destruct H as [-> [-> ->]]; auto.
      * intros [K1 [K2 ->]]. assert (l = l0).
        { destruct H2 as [H2 _], K1 as [K1 _]. eapply (prefix_same_units L); [rewrite <- K1; exact H2|congruence]. }
        subst l0. rewrite (advanced_by_eq _ _ _ _ K1 H2). destruct (n =? 0); reflexivity.
    + split.
      * unfold wrap_stream_error. intros H. destruct (ipart i), c; discriminate.
      * intros [[K1 _] [K2 _]]. exfalso. exact (H2 _ _ K1 K2).
  - intros i c e. unfold fails_with. rewrite F. unfold s_uncons_range. destruct (uncons_range_cases n i) as [[l0 [i0 [H1 [H2 H3]]]]|[e0 [H1 [H2 H3]]]]; rewrite H1.
    + split.
      * intros [r [j [H [K1 K2]]]]. inversion H; subst. destruct (units l0 =? 0); discriminate.
      * intros [K _]. exfalso. destruct H2 as [H2 _]. exact (K _ _ H2 H3).
    + assert (Q : e0 = (if units (rest i) <? n then se_eoi C else se_boundary C)).
      { destruct H3 as [[H3 ->]|[H3 ->]]; [apply Nat.ltb_lt in H3; rewrite H3; auto|]. destruct (units (rest i) <? n) eqn:Hl; auto. apply Nat.ltb_lt in Hl. lia. }
      rewrite <- Q. split.
      * intros [r [j [H [K1 K2]]]]. split; auto. inversion H; subst. unfold wrap_stream_error in *. destruct (ipart j); cbn in *; inversion K1; auto.
      * intros [_ [-> ->]]. apply (fails_with_wrap (A:=list T) i e0).
Qed.

Lemma list_eqb_iff (L : lawful C) : forall a b : list T, list_eqb (tok_eqb C) a b = true <-> a = b.
Proof.
  induction a as [|x a IH]; intros [|y b]; cbn; try (split; [discriminate|discriminate]); try tauto.
  rewrite andb_true_iff, (law_tok L), IH. split; [intros [-> ->]; auto|intros H; inversion H; auto].
Qed.

Lemma range_spec (L : lawful C) r :
  (forall i c l i', succeeds (fresh (range r)) i c l i' <-> c = true /\ l = r /\ advanced_by i r i') /\
  (forall i c, fails (fresh (range r)) i c <->
     (forall s, rest i <> r ++ s) /\ c = if ipart i then forallb (fun k => negb (units (firstn k (rest i)) =? units r)) (seq 0 (S (length (rest i)))) else false).
Proof.
  assert (F : forall i, fresh (range r) i = match uncons_range (range_len r) i with
                    | (inl other, i') => if list_eqb (tok_eqb C) other r then Done (CommitOk other, i') else Done (PeekErr (to_trk (e_empty C (ipos i))), i')
                    | (inr e, i') => Done (wrap_stream_error i' e, i') end) by (intros i; unfold range; rewrite fresh_lazy; reflexivity).
  assert (W : forall i l s, rest i = l ++ s -> forallb (fun k => negb (units (firstn k (rest i)) =? units l)) (seq 0 (S (length (rest i)))) = false).
  { intros i l s H. apply not_true_iff_false. intros K. rewrite forallb_forall in K. specialize (K (length l)).
    rewrite H in K. rewrite firstn_app, Nat.sub_diag, firstn_O, firstn_all, app_nil_r in K.
    rewrite Nat.eqb_refl in K. assert (Q : In (length l) (seq 0 (S (length (l ++ s))))) by (apply in_seq; rewrite app_length; lia). specialize (K Q). discriminate. }
  split.
  - intros i c l i'. unfold succeeds. rewrite F. rewrite range_len_units.
    destruct (uncons_range_cases (units r) i) as [[l0 [i0 [H1 [H2 H3]]]]|[e [H1 [H2 H3]]]]; rewrite H1.
    + destruct (list_eqb (tok_eqb C) l0 r) eqn:He.
      * apply (list_eqb_iff L) in He. subst. split.
        -- intros H. apply done_commit in H. destruct H as [-> [-> ->]]. auto.
        -- intros [-> [-> H]]. rewrite (advanced_by_eq _ _ _ _ H H2). reflexivity.
      * split; [intros H; destruct c; discriminate|]. intros [-> [-> H]]. exfalso. destruct H as [H _], H2 as [H2 _].
        assert (l0 = r) by (eapply (prefix_same_units L); [rewrite <- H2; exact H|exact H3]). subst. 
        rewrite (proj2 (list_eqb_iff L r r) eq_refl) in He. discriminate.
    + unfold wrap_stream_error. split; [intros H; destruct (ipart i), c; discriminate|]. intros [-> [-> [H _]]]. exfalso. exact (H2 _ _ H eq_refl).
  - intros i c. unfold fails, fails_with. rewrite F. rewrite range_len_units.
    destruct (uncons_range_cases (units r) i) as [[l0 [i0 [H1 [H2 H3]]]]|[e [H1 [H2 H3]]]]; rewrite H1.
    + destruct (list_eqb (tok_eqb C) l0 r) eqn:He.
      * apply (list_eqb_iff L) in He. subst. split; [intros [e [x [j [H [K _]]]]]; inversion H; subst; discriminate|]. intros [H _]. exfalso. destruct H2 as [H2 _]. exact (H _ H2).
      * destruct H2 as [H2 _]. rewrite <- H3, (W _ _ _ H2). split.
        -- intros [e [x [j [H [K1 K2]]]]]. inversion H; subst. split; [|destruct (ipart i); reflexivity].
           intros s Hs. assert (l0 = r) by (eapply (prefix_same_units L); [rewrite <- H2; exact Hs|exact H3]). subst.
           rewrite (proj2 (list_eqb_iff L r r) eq_refl) in He. discriminate.
        -- intros [_ ->]. do 3 eexists. split; [reflexivity|]. split; [reflexivity|]. destruct (ipart i); reflexivity.
    + assert (Q : forallb (fun k => negb (units (firstn k (rest i)) =? units r)) (seq 0 (S (length (rest i)))) = true).
      { apply forallb_forall. intros k _. apply negb_true_iff, Nat.eqb_neq. apply (H2 _ (skipn k (rest i))). symmetry. apply firstn_skipn. }
      rewrite Q. split.
      * intros [x [r0 [j [H [K1 K2]]]]]. inversion H; subst. split; [intros s Hs; exact (H2 _ _ Hs eq_refl)|]. unfold wrap_stream_error. destruct (ipart j); reflexivity.
      * intros [_ ->]. exists (e_from C (ipos i) e). replace (if ipart i then true else false) with (ipart i) by (destruct (ipart i); auto). apply (fails_with_wrap (A:=list T) i e).
Qed.

(** ** take_while *)
Lemma span_while_longest {X} (f : X -> bool) : forall l, longest_prefix f l (fst (span_while f l)) (snd (span_while f l)).
Proof.
  induction l as [|t l IH]; cbn; [split; [auto|split; [constructor|discriminate]]|]. destruct (f t) eqn:Hf.
  - destruct (span_while f l) as [a b]. destruct IH as [H1 [H2 H3]]. cbn in *. split; [rewrite H1; reflexivity|]. split; [constructor; auto|exact H3].
  - split; [reflexivity|]. split; [constructor|]. intros x r H. inversion H; subst; auto.
Qed.
Lemma longest_unique {X} (f : X -> bool) : forall l a b a' b', longest_prefix f l a b -> longest_prefix f l a' b' -> a = a' /\ b = b'.
Proof.
  induction l as [|t l IH]; intros a b a' b' [H1 [H2 H3]] [K1 [K2 K3]].
  - symmetry in H1, K1. apply app_eq_nil in H1, K1. destruct H1, K1; subst; auto.
  - destruct a as [|x a], a' as [|x' a']; cbn in *; subst; auto.
    + inversion K1; subst. inversion K2; subst. rewrite (H3 _ _ eq_refl) in *. discriminate.
    + inversion H1; subst. inversion H2; subst. rewrite (K3 _ _ eq_refl) in *. discriminate.
    + inversion H1; subst. inversion K1; subst. inversion H2; inversion K2; subst.
      destruct (IH a b a' b') as [-> ->]; auto; split; auto.
Qed.
Lemma at_eof_iff (L : lawful C) (i : input C) : input_at_eof i = true <-> rest i = [].
Proof. unfold input_at_eof, uncons. destruct (rest i); [rewrite (law_eoi L); tauto|split; discriminate]. Qed.

Lemma s_uncons_while_cases (L : lawful C) f (i : input C) a b : longest_prefix f (rest i) a b ->
  s_uncons_while i f = if ipart i && (match b with [] => true | _ => false end) then (CommitErr (e_from C (pos_after (ipos i) a) (se_eoi C)), advance i a b)
                       else (okr (consumed_some a) a, advance i a b).
Proof.
  intros H. unfold s_uncons_while, m_uncons_while. pose proof (span_while_longest f (rest i)) as K. destruct (span_while f (rest i)) as [a' b'].
  destruct (longest_unique _ _ _ _ _ _ H K) as [E1 E2]. cbn [fst snd] in E1, E2. subst a' b'. cbn [ipart advance].
  assert (Q : input_at_eof (advance i a b) = match b with [] => true | _ => false end).
  { destruct b; [apply (at_eof_iff L); reflexivity|]. reflexivity. }
  rewrite Q. destruct (ipart i && _); [reflexivity|]. destruct a as [|t a]; [reflexivity|].
  change (range_len (t :: a)) with (width C t + range_len a). pose proof (law_width L t). destruct (width C t + range_len a =? 0) eqn:Hz; [apply Nat.eqb_eq in Hz; lia|reflexivity].
Qed.
Lemma s_uncons_while1_cases (L : lawful C) f (i : input C) a b : longest_prefix f (rest i) a b ->
  s_uncons_while1 i f = if ipart i && (match b with [] => true | _ => false end) then (CommitErr (e_from C (pos_after (ipos i) a) (se_eoi C)), advance i a b)
                       else (match a with [] => PeekErr (to_trk (e_empty C (ipos i))) | _ => CommitOk a end, advance i a b).
Proof.
  intros H. unfold s_uncons_while1, m_uncons_while1.
  assert (Q : forall j : input C, input_at_eof j = match rest j with [] => true | _ => false end).
  { intros j. destruct (rest j) eqn:Hr; [apply (at_eof_iff L); auto|]. unfold input_at_eof, uncons. rewrite Hr. reflexivity. }
  destruct H as [H1 [H2 H3]]. destruct a as [|t a].
  - cbn in H1. destruct b as [|t b]; rewrite H1.
    + assert (advance i [] [] = i) as -> by (destruct i; cbn in *; unfold advance; cbn; congruence).
      rewrite Q, H1. destruct (ipart i); reflexivity.
    + rewrite (H3 _ _ eq_refl). assert (advance i [] (t :: b) = i) as -> by (destruct i; cbn in *; unfold advance; cbn; congruence).
      rewrite Q, H1. destruct (ipart i); reflexivity.
  - rewrite H1. cbn [app]. inversion H2; subst. match goal with K : f t = true |- _ => rewrite K end.
    pose proof (span_while_longest f (a ++ b)) as K. destruct (span_while f (a ++ b)) as [a' b'] eqn:Hs.
    assert (longest_prefix f (a ++ b) a b) as K2 by (split; auto).
    destruct (longest_unique _ _ _ _ _ _ K2 K) as [E1 E2]. cbn [fst snd] in E1, E2. subst a' b'. rewrite Q. reflexivity.
Qed.

Lemma fresh_partial_range f g i a b n dist : fresh (mk_mode dist (parse_partial_range (C:=C) f g) a b n) i =
  let (r, i') := f i in Done (r, match r with CommitErr _ => if ipart i then i else i' | _ => i' end).
Proof.
  unfold fresh. cbn. unfold parse_partial_range. destruct (ipart i); cbn; destruct (f i) as [r i']; destruct r; reflexivity.
Qed.

Lemma take_while_spec (L : lawful C) (f : T -> bool) :
  (forall (i : input C) c l i', succeeds (fresh (take_while f)) i c l i' <->
     advanced_by i l i' /\ longest_prefix f (rest i) l (rest i') /\ c = consumed_some l /\ (ipart i = true -> rest i' <> [])) /\
  (forall i c e, fails_with (fresh (take_while f)) i c e <->
     ipart i = true /\ Forall (fun t => f t = true) (rest i) /\ c = true /\ e = e_from C (pos_after (ipos i) (rest i)) (se_eoi C)).
Proof.
  assert (F : forall i : input C, exists a b, longest_prefix f (rest i) a b /\
     fresh (take_while f) i = if ipart i && (match b with [] => true | _ => false end) then Done (CommitErr (e_from C (pos_after (ipos i) a) (se_eoi C)), i)
                              else Done (okr (consumed_some a) a, advance i a b)).
  { intros i. exists (fst (span_while f (rest i))), (snd (span_while f (rest i))). split; [apply span_while_longest|].
    unfold take_while. rewrite fresh_partial_range, (s_uncons_while_cases L f i _ _ (span_while_longest f (rest i))).
    destruct (ipart i), (snd (span_while f (rest i))); cbn; try reflexivity; destruct (fst (span_while f (rest i))); reflexivity. }
  split.
  - intros i c l i'. unfold succeeds. destruct (F i) as [a [b [H ->]]]. destruct (ipart i && _) eqn:Hp.
    + apply andb_true_iff in Hp. destruct Hp as [Hp Hb]. destruct b; [|discriminate]. split; [intros K; destruct c; discriminate|].
      intros [_ [K1 [_ K2]]]. exfalso. destruct (longest_unique _ _ _ _ _ _ H K1) as [_ E]. apply K2; auto.
    + split.
      * intros K. injection K as K <-. apply okr_inj in K. destruct K as [<- <-]. split; [apply advance_by; apply H|]. split; [exact H|]. split; auto.
        intros Hi. rewrite Hi in Hp. destruct b; [discriminate|]. cbn. discriminate.
      * intros [K1 [K2 [-> K4]]]. destruct (longest_unique _ _ _ _ _ _ H K2) as [-> ->]. f_equal. f_equal. eapply advanced_by_eq; [|exact K1]. apply advance_by. apply K1.
  - intros i c e. unfold fails_with. destruct (F i) as [a [b [H ->]]]. destruct (ipart i && _) eqn:Hp.
    + apply andb_true_iff in Hp. destruct Hp as [Hp Hb]. destruct b; [|discriminate]. destruct H as [H1 [H2 _]]. rewrite app_nil_r in H1. rewrite H1. split.
      * intros [r [j [K [K1 K2]]]]. inversion K; subst. inversion K1; subst. auto.
      * intros [_ [_ [-> ->]]]. do 2 eexists. split; [reflexivity|split; reflexivity].
    + split.
      * intros [r [j [K [K1 K2]]]]. inversion K; subst. rewrite okr_not_error in K1. discriminate.
      * intros [K1 [K2 _]]. exfalso. rewrite K1 in Hp. cbn in Hp. destruct b as [|t b]; [discriminate|]. destruct H as [H1 [_ H3]].
        rewrite H1 in K2. apply Forall_app in K2. destruct K2 as [_ K2]. inversion K2; subst. rewrite (H3 _ _ eq_refl) in *. discriminate.
Qed.

Lemma take_while1_spec (L : lawful C) (f : T -> bool) :
  (forall (i : input C) c l i', succeeds (fresh (take_while1 f)) i c l i' <->
     advanced_by i l i' /\ longest_prefix f (rest i) l (rest i') /\ l <> [] /\ c = true /\ (ipart i = true -> rest i' <> [])) /\
  (forall i c, fails (fresh (take_while1 f)) i c <->
     if c then ipart i = true /\ Forall (fun t => f t = true) (rest i)
     else (ipart i = false /\ rest i = []) \/ exists t r, rest i = t :: r /\ f t = false).
Proof.
  assert (F : forall i : input C, exists a b, longest_prefix f (rest i) a b /\
     fresh (take_while1 f) i = if ipart i && (match b with [] => true | _ => false end) then Done (CommitErr (e_from C (pos_after (ipos i) a) (se_eoi C)), i)
                              else Done (match a with [] => PeekErr (to_trk (e_empty C (ipos i))) | _ => CommitOk a end, advance i a b)).
  { intros i. exists (fst (span_while f (rest i))), (snd (span_while f (rest i))). split; [apply span_while_longest|].
    unfold take_while1. rewrite fresh_partial_range, (s_uncons_while1_cases L f i _ _ (span_while_longest f (rest i))).
    destruct (ipart i), (snd (span_while f (rest i))); cbn; try reflexivity; destruct (fst (span_while f (rest i))); reflexivity. }
  split.
  - intros i c l i'. unfold succeeds. destruct (F i) as [a [b [H ->]]]. destruct (ipart i && _) eqn:Hp.
    + apply andb_true_iff in Hp. destruct Hp as [Hp Hb]. destruct b; [|discriminate]. split; [intros K; destruct c; discriminate|].
      intros [_ [K1 [_ [_ K2]]]]. exfalso. destruct (longest_unique _ _ _ _ _ _ H K1) as [_ E]. apply K2; auto.
    + split.
      * intros K. destruct a as [|t a]; [destruct c; discriminate|]. apply done_commit in K. destruct K as [-> [-> ->]]. split; [apply advance_by; apply H|]. split; [exact H|]. split; [discriminate|]. split; auto.
        intros Hi. rewrite Hi in Hp. destruct b; [discriminate|]. cbn. discriminate.
      * intros [K1 [K2 [K3 [-> K4]]]]. destruct (longest_unique _ _ _ _ _ _ H K2) as [-> ->]. destruct l as [|t l]; [contradiction|]. unfold okr. f_equal. f_equal. eapply advanced_by_eq; [|exact K1]. apply advance_by. apply K1.
  - intros i c. unfold fails, fails_with. destruct (F i) as [a [b [H ->]]]. destruct (ipart i && _) eqn:Hp.
    + apply andb_true_iff in Hp. destruct Hp as [Hp Hb]. destruct b; [|discriminate]. destruct H as [H1 [H2 _]]. rewrite app_nil_r in H1. subst a. split.
      * intros [e [r [j [K [K1 K2]]]]]. inversion K; subst. cbn. auto.
      * destruct c; [intros _; do 3 eexists; (split; [reflexivity|split; reflexivity])|]. intros [[K _]|[t [r [K1 K2]]]]; [congruence|]. rewrite K1 in H2. inversion H2; congruence.
    + destruct H as [H1 [H2 H3]]. split.
      * intros [e [r [j [K [K1 K2]]]]]. destruct a as [|t a]; [|inversion K; subst; discriminate]. inversion K; subst. cbn. cbn in H1. rewrite H1. destruct b as [|t b].
        -- left. rewrite andb_true_r in Hp. auto.
        -- right. exists t, b. split; eauto.
      * destruct c.
        -- intros [K1 K2]. exfalso. rewrite K1 in Hp. destruct b as [|t b]; [discriminate|]. rewrite H1 in K2. apply Forall_app in K2. destruct K2 as [_ K2]. inversion K2; subst. rewrite (H3 _ _ eq_refl) in *. discriminate.
        -- intros K. destruct a as [|t a]; [do 3 eexists; (split; [reflexivity|split; reflexivity])|]. exfalso. cbn in H1. inversion H2; subst. destruct K as [[_ K]|[t' [r [K1 K2]]]]; congruence.
Qed.
End RangeProofs.
