(** The streams the parsers run on (Base.v: lists of tokens) are what the index and byte level code of StreamM.v does. *)
From Coq Require Import String List Bool Arith NArith Lia.
Import ListNotations.
From Verif Require Import Base Errors Instances Spec RangeSpec RangeProofs StreamM StreamSpec StreamProofs.
Unset Implicit Arguments.

Lemma span_scans {T} (f : T -> bool) l a b : span_while f l = (a, b) -> scans (stateless f) tt l a b tt.
Proof.
  revert a b. induction l as [|t l IH]; intros a b H; cbn in H; [injection H as <- <-; constructor|].
  destruct (f t) eqn:Hf.
  - destruct (span_while f l) as [a' b'] eqn:Hs. injection H as <- <-. econstructor; [unfold stateless; rewrite Hf; reflexivity|auto].
  - injection H as <- <-. constructor. unfold stateless. rewrite Hf. reflexivity.
Qed.

Section Str.
Context {C : Cfg}.
(** Characters as code points, any positions and errors. *)
Variable cp : tok C -> N.
Hypothesis W : forall t, width C t = len_utf8 (cp t).
Definition bytes_of (l : list (tok C)) : list N := encode_all (map cp l).
Lemma bytes_of_app a b : bytes_of (a ++ b) = bytes_of a ++ bytes_of b.
Proof. unfold bytes_of. rewrite map_app, encode_all_app. reflexivity. Qed.
Lemma bytes_length l : length (bytes_of l) = range_len l.
Proof.
  induction l as [|t l IH]; [reflexivity|]. change (bytes_of (t :: l)) with (encode (cp t) ++ bytes_of l). rewrite app_length, encode_length, IH. cbn [range_len fold_right]. rewrite W. reflexivity.
Qed.
Lemma refine_uncons (i : input C) : text (map cp (rest i)) ->
  str_uncons (bytes_of (rest i)) =
    Done (match fst (uncons i) with Some t => inl (cp t) | None => inr SeEoi end, bytes_of (rest (snd (uncons i)))).
Proof. intros H. unfold bytes_of at 1. rewrite (str_uncons_spec _ H). unfold uncons. destruct i as [[|t l] p pt]; reflexivity. Qed.
Lemma map_split {A B} (g : A -> B) l a b : map g l = a ++ b -> exists a' b', l = a' ++ b' /\ a = map g a' /\ b = map g b'.
Proof.
  revert a. induction l as [|x l IH]; intros a H; cbn in H.
  - symmetry in H. apply app_eq_nil in H. destruct H as [-> ->]. exists [], []. auto.
  - destruct a as [|y a]; cbn in H.
    + exists [], (x :: l). rewrite <- H. auto.
    + injection H as <- H. destruct (IH _ H) as [a' [b' [-> [-> ->]]]]. exists (x :: a'), b'. auto.
Qed.
Lemma refine_range n (i : input C) : text (map cp (rest i)) ->
  match uncons_range n i with
  | (inl r, i') => str_uncons_range n (bytes_of (rest i)) = Done (inl (bytes_of r), bytes_of (rest i'))
  | (inr e, i') => i' = i /\ exists se, str_uncons_range n (bytes_of (rest i)) = Done (inr se, bytes_of (rest i)) /\
      e = match se with SeBoundary => se_boundary C | _ => se_eoi C end
  end.
Proof.
  intros H. unfold uncons_range. destruct (str_range_spec n _ H) as [H1 [H2 H3]]. destruct (split_width n (rest i)) as [[a b]|e] eqn:Hs.
  - destruct (split_width_ok _ _ _ _ Hs) as [K1 K2]. cbn [rest advance]. specialize (H1 (map cp a) (map cp b)). rewrite K1 in H1 at 1. rewrite map_app in H1.
    apply H1; auto. change (length (bytes_of a) = n). rewrite bytes_length. exact K2.
  - split; auto. destruct (split_width_err _ _ _ Hs) as [K1 K2]. fold (bytes_of (rest i)) in H2, H3. rewrite bytes_length in H2, H3.
    destruct K2 as [[Hn ->]|[Hn ->]].
    + exists SeEoi. auto.
    + exists SeBoundary. split; auto. apply H2; [lia|]. intros [a [b [E1 E2]]].
      destruct (map_split _ _ _ _ E1) as [a' [b' [E3 [-> ->]]]]. apply (K1 a' b' E3). rewrite <- bytes_length. exact E2.
Qed.
Lemma scans_map f l a b : scans (stateless (fun t => f (cp t))) tt l a b tt -> scans (stateless f) tt (map cp l) (map cp a) (map cp b) tt.
Proof.
  intros H. remember tt as x eqn:Hx in H at 1. remember tt as y eqn:Hy in H. clear Hx Hy. induction H; cbn [map]; try constructor.
  - unfold stateless in *. congruence.
  - econstructor; [unfold stateless in *; injection H as ->; reflexivity|]. exact IHscans.
Qed.
Lemma refine_while f (i : input C) : text (map cp (rest i)) ->
  let (r, i') := m_uncons_while (fun t => f (cp t)) i in
  str_uncons_while (stateless f) (bytes_of (rest i)) tt = Done (inl (bytes_of r), bytes_of (rest i'), tt).
Proof.
  intros H. unfold m_uncons_while. destruct (span_while (fun t => f (cp t)) (rest i)) as [a b] eqn:Hs.
  apply (str_while_spec (stateless f) _ tt (map cp a) (map cp b) tt H). apply scans_map. apply span_scans. exact Hs.
Qed.
Lemma refine_while1 f (i : input C) : text (map cp (rest i)) ->
  match m_uncons_while1 (fun t => f (cp t)) i with
  | (Some r, i') => str_uncons_while1 (stateless f) (bytes_of (rest i)) tt = Done (inl (bytes_of r), bytes_of (rest i'), tt)
  | (None, i') => i' = i /\ exists se, str_uncons_while1 (stateless f) (bytes_of (rest i)) tt = Done (inr se, bytes_of (rest i), tt)
  end.
Proof.
  intros H. unfold m_uncons_while1, bytes_of. destruct (str_while1_spec (stateless f) _ tt H) as [[K1 K2]|[[c [r [[] [K1 [K2 K3]]]]]|[c [r [a [b [[] [[] [K1 [K2 [K3 K4]]]]]]]]]]].
  - destruct (rest i); [|discriminate]. split; auto. eauto.
  - destruct (rest i) as [|t l] eqn:Hi; [discriminate|]. injection K1 as K1a K1b. unfold stateless in K2. rewrite K1a. injection K2 as ->. split; auto. eauto.
  - destruct (rest i) as [|t l] eqn:Hi; [discriminate|]. injection K1 as K1a K1b. unfold stateless in K2. rewrite K1a. injection K2 as ->.
    destruct (span_while (fun t0 => f (cp t0)) l) as [a' b'] eqn:Hs. apply span_scans in Hs. apply scans_map in Hs. rewrite K1b in Hs. destruct (scans_det _ _ _ _ _ _ _ _ _ K3 Hs) as [-> [-> _]].
    rewrite K4. cbn [rest advance map]. rewrite K1a. reflexivity.
Qed.
(** [distance] (stream/mod.rs:595-597) is a difference of byte lengths. *)
Lemma refine_distance (now before : input C) : distance now before = length (bytes_of (rest before)) - length (bytes_of (rest now)).
Proof. unfold distance. rewrite !bytes_length. reflexivity. Qed.
End Str.

Section Slice.
Context {C : Cfg}.
Hypothesis SL : is_slice (C:=C).
Lemma slice_len (l : list (tok C)) : range_len l = length l.
Proof. induction l as [|t l IH]; [reflexivity|]. cbn [range_len fold_right length]. rewrite SL. cbn [Nat.add]. f_equal. exact IH. Qed.
Lemma refine_sl_uncons (i : input C) :
  sl_uncons (rest i) = (match fst (uncons i) with Some t => inl t | None => inr SeEoi end, rest (snd (uncons i))).
Proof. unfold uncons. destruct i as [[|t l] p pt]; reflexivity. Qed.
Lemma refine_sl_range n (i : input C) :
  match uncons_range n i with
  | (inl r, i') => sl_uncons_range n (rest i) = Done (inl r, rest i')
  | (inr e, i') => i' = i /\ e = se_eoi C /\ sl_uncons_range n (rest i) = Done (inr SeEoi, rest i)
  end.
Proof.
  unfold uncons_range. rewrite sl_range_spec. destruct (split_width n (rest i)) as [[a b]|e] eqn:Hs.
  - destruct (split_width_ok _ _ _ _ Hs) as [K1 K2]. rewrite slice_len in K2. cbn [rest advance]. rewrite K1, app_length, (proj2 (Nat.leb_le _ _)) by lia.
    subst n. rewrite firstn_app, firstn_all, skipn_app, skipn_all, Nat.sub_diag, firstn_O, app_nil_r. reflexivity.
  - destruct (split_width_err _ _ _ Hs) as [K1 K2]. rewrite slice_len in K2. split; auto. destruct K2 as [[Hn ->]|[Hn ->]].
    + rewrite (proj2 (Nat.leb_gt _ _) Hn). auto.
    + exfalso. apply (K1 (firstn n (rest i)) (skipn n (rest i))); [rewrite firstn_skipn; reflexivity|]. rewrite slice_len, firstn_length_le; auto. lia.
Qed.
Lemma refine_sl_while debug f (i : input C) :
  let (r, i') := m_uncons_while f i in sl_uncons_while debug (stateless f) (rest i) tt = Done (inl r, rest i', tt).
Proof.
  unfold m_uncons_while. destruct (span_while f (rest i)) as [a b] eqn:Hs. apply span_scans in Hs. unfold sl_uncons_while.
  pose proof (slice_uncons_while_spec debug (stateless f) [] (rest i) tt a b tt ltac:(cbn; lia) Hs) as K. cbn [app length] in K. rewrite K. reflexivity.
Qed.
Lemma refine_sl_while1 debug f (i : input C) :
  match m_uncons_while1 f i with
  | (Some r, i') => sl_uncons_while1 debug (stateless f) (rest i) tt = Done (inl r, rest i', tt)
  | (None, i') => i' = i /\ exists se, sl_uncons_while1 debug (stateless f) (rest i) tt = Done (inr se, rest i, tt)
  end.
Proof.
  unfold m_uncons_while1, sl_uncons_while1. destruct (rest i) as [|t l] eqn:Hi; [eauto|]. unfold stateless at 1. destruct (f t) eqn:Hf.
  - destruct (span_while f l) as [a b] eqn:Hs. apply span_scans in Hs.
    pose proof (slice_uncons_while_spec debug (stateless f) [t] l tt a b tt ltac:(cbn; lia) Hs) as K. cbn [app length] in K. rewrite K. reflexivity.
  - split; auto. unfold stateless at 1. rewrite Hf. eauto.
Qed.
Lemma refine_sl_distance (now before : input C) : length (rest now) <= length (rest before) ->
  sl_distance (rest now) (rest before) = Done (distance now before).
Proof. intros H. unfold sl_distance, distance. rewrite !slice_len, (proj2 (Nat.leb_le _ _) H). reflexivity. Qed.
End Slice.
