(** Proofs about [position::Stream]. *)
From Coq Require Import String List Bool Arith NArith ZArith Lia.
Import ListNotations.
From Verif Require Import Base StreamM StreamSpec StreamProofs.
Unset Implicit Arguments.

(** What the proofs need of an inner stream: [repr s l] when [s] holds the tokens [l], [rrep r l] when the range [r] is
    [l], [size] the length of a range. *)
Record ops_ok {S T R} (ops : stream_ops S T R) (repr : S -> list T -> Prop) (rrep : R -> list T -> Prop) (size : list T -> nat) : Prop := {
  ok_uncons : forall s l, repr s l ->
    (l = [] /\ so_uncons ops s = Done (inr SeEoi, s)) \/
    (exists t r s', l = t :: r /\ so_uncons ops s = Done (inl t, s') /\ repr s' r);
  ok_range : forall n s l, repr s l ->
    (exists a b r s', l = a ++ b /\ size a = n /\ so_range ops n s = Done (inl r, s') /\ rrep r a /\ repr s' b) \/
    ((forall a b, l = a ++ b -> size a <> n) /\ exists e, so_range ops n s = Done (inr e, s));
  ok_while : forall X (f : fnmut X T) s l x a b x', repr s l -> scans f x l a b x' ->
    exists r s', so_while ops f s x = Done (inl r, s', x') /\ rrep r a /\ repr s' b;
  ok_while1 : forall X (f : fnmut X T) s l x, repr s l ->
    (l = [] /\ so_while1 ops f s x = Done (inr SeEoi, s, x)) \/
    (exists t r x', l = t :: r /\ f x t = (false, x') /\ so_while1 ops f s x = Done (inr SeUnexpected, s, x')) \/
    (exists t r a b x' x2 rg s', l = t :: r /\ f x t = (true, x') /\ scans f x' r a b x2 /\
       so_while1 ops f s x = Done (inl rg, s', x2) /\ rrep rg (t :: a) /\ repr s' b)
}.

Lemma slice_ok debug T : ops_ok (slice_ops debug T) (fun s l => s = l) (fun r l => r = l) (@length T).
Proof.
  split.
  - intros s l ->. cbn. destruct l as [|t l]; [left; auto|right]. exists t, l, l. auto.
  - intros n s l ->. cbn [so_range slice_ops]. rewrite sl_range_spec. destruct (n <=? length l) eqn:H.
    + apply Nat.leb_le in H. left. exists (firstn n l), (skipn n l), (firstn n l), (skipn n l). rewrite firstn_skipn. rewrite firstn_length_le by auto. auto.
    + apply Nat.leb_gt in H. right. split; [|eauto]. intros a b ->. rewrite app_length in H. lia.
  - intros X f s l x a b x' -> H. cbn [so_while slice_ops]. unfold sl_uncons_while. pose proof (slice_uncons_while_spec debug f [] l x a b x' ltac:(cbn; lia) H) as K. cbn [app length] in K. rewrite K. cbn. eauto.
  - intros X f s l x ->. cbn [so_while1 slice_ops]. unfold sl_uncons_while1. destruct l as [|t r]; [left; auto|]. right. destruct (f x t) as [[|] x'] eqn:Hf.
    + right. destruct (scans_total f x' r) as [a [b [x2 H]]]. exists t, r, a, b, x', x2, (t :: a), b.
      pose proof (slice_uncons_while_spec debug f [t] r x' a b x2 ltac:(cbn; lia) H) as K. cbn [app length] in K. rewrite K. cbn. auto 7.
    + left. exists t, r, x'. auto.
Qed.
Definition str_repr (s : list N) (cs : list N) : Prop := text cs /\ s = encode_all cs.
Lemma at_char_dec cs n : at_char cs n \/ ~ at_char cs n.
Proof.
  revert n. induction cs as [|c cs IH]; intros n.
  - destruct n; [left; exists [], []; auto|right]. intros [[|x a] [b [H1 H2]]]; discriminate.
  - rewrite at_char_cons. destruct (IH (n - len_utf8 c)) as [H|H]; destruct (Nat.eq_dec n 0); destruct (Nat.le_gt_cases (len_utf8 c) n); try tauto; right; intros [?|[? ?]]; try tauto; lia.
Qed.
Lemma str_ok : ops_ok str_ops str_repr str_repr (fun l => length (encode_all l)).
Proof.
  split.
  - intros s l [Ht ->]. cbn [so_uncons str_ops]. rewrite (str_uncons_spec _ Ht). destruct l as [|c r]; [left; auto|right]. inversion Ht; subst. exists c, r, (encode_all r). unfold str_repr. auto 6.
  - intros n s l [Ht ->]. cbn [so_range str_ops]. destruct (str_range_spec n l Ht) as [H1 [H2 H3]]. destruct (Nat.lt_ge_cases (length (encode_all l)) n) as [Hn|Hn].
    + right. split; [|eauto]. intros a b ->. rewrite encode_all_app, app_length in Hn. lia.
    + destruct (at_char_dec l n) as [[a [b [K1 K2]]]|K].
      * left. exists a, b, (encode_all a), (encode_all b). rewrite K1 in Ht. apply text_app in Ht. destruct Ht. unfold str_repr. auto 9.
      * right. split; [|eauto]. intros a b -> K2. apply K. exists a, b. auto.
  - intros X f s l x a b x' [Ht ->] H. cbn [so_while str_ops]. rewrite (str_while_spec f l x a b x' Ht H). rewrite (scans_app _ _ _ _ _ _ H) in Ht. apply text_app in Ht. destruct Ht. eexists _, _. unfold str_repr. auto.
  - intros X f s l x [Ht ->]. cbn [so_while1 str_ops]. destruct (str_while1_spec f l x Ht) as [[H1 H2]|[[c [r [x' [H1 [H2 H3]]]]]|[c [r [a [b [x' [x2 [H1 [H2 [H3 H4]]]]]]]]]]]; [left; auto|right; left; exists c, r, x'; auto|right; right].
    exists c, r, a, b, x', x2, (encode_all (c :: a)), (encode_all b). pose proof (scans_app _ _ _ _ _ _ H3) as E. subst l. rewrite E in Ht. change (c :: a ++ b) with ((c :: a) ++ b) in Ht. apply text_app in Ht. destruct Ht. unfold str_repr. auto 9.
Qed.

Section PosProofs.
Context {S T R P : Type}.
Variable ops : stream_ops S T R.
Variable posr : positioner P T R.
Variable repr : S -> list T -> Prop.
Variable rrep : R -> list T -> Prop.
Variable size : list T -> nat.
Hypothesis OK : ops_ok ops repr rrep size.

Definition stepped (p : P) (l : list T) : P := fold_left (po_update posr) l p.

(** The closure given to the inner stream scans like the one of the user, and updates the positioner. *)
Lemma closure_scans {X} (f : fnmut X T) x l a b x' p : scans f x l a b x' -> scans (ps_closure posr f) (x, p) l a b (x', stepped p a).
Proof.
  intros H. revert p. induction H; intros p; [constructor|constructor|].
  - unfold ps_closure. cbn. rewrite H. reflexivity.
  - econstructor; [unfold ps_closure; cbn [fst snd]; rewrite H; reflexivity|]. apply IHscans.
Qed.
Lemma scans_closure {X} (f : fnmut X T) x p l a b y : scans (ps_closure posr f) (x, p) l a b y -> exists x', y = (x', stepped p a) /\ scans f x l a b x'.
Proof.
  intros H. destruct (scans_total f x l) as [a0 [b0 [x0 K]]]. destruct (scans_det _ _ _ _ _ _ _ _ _ H (closure_scans f _ _ _ _ _ p K)) as [-> [-> ->]]. eauto.
Qed.
Lemma ps_uncons_spec s p l : repr s l ->
  (l = [] /\ ps_uncons ops posr (s, p) = Done (inr SeEoi, (s, p))) \/
  (exists t r s', l = t :: r /\ ps_uncons ops posr (s, p) = Done (inl t, (s', po_update posr p t)) /\ repr s' r).
Proof.
  intros H. unfold ps_uncons. cbn [fst snd]. destruct (ok_uncons _ _ _ _ OK _ _ H) as [[-> ->]|[t [r [s' [-> [-> K]]]]]]; [left; auto|right]. exists t, r, s'. auto.
Qed.
Lemma ps_range_spec n s p l : repr s l ->
  (exists a b r s', l = a ++ b /\ size a = n /\ ps_range ops posr n (s, p) = Done (inl r, (s', po_range posr p r)) /\ rrep r a /\ repr s' b) \/
  ((forall a b, l = a ++ b -> size a <> n) /\ exists e, ps_range ops posr n (s, p) = Done (inr e, (s, p))).
Proof.
  intros H. unfold ps_range. cbn [fst snd]. destruct (ok_range _ _ _ _ OK n _ _ H) as [[a [b [r [s' [K1 [K2 [K3 [K4 K5]]]]]]]]|[K [e ->]]].
  - left. exists a, b, r, s'. rewrite K3. auto.
  - right. split; auto. exists e. auto.
Qed.
Lemma ps_while_spec {X} (f : fnmut X T) s p l x a b x' : repr s l -> scans f x l a b x' ->
  exists r s', ps_while ops posr f (s, p) x = Done (inl r, (s', stepped p a), x') /\ rrep r a /\ repr s' b.
Proof.
  intros H K. unfold ps_while. cbn [fst snd]. destruct (ok_while _ _ _ _ OK _ (ps_closure posr f) _ _ _ _ _ _ H (closure_scans f _ _ _ _ _ p K)) as [r [s' [-> [K2 K3]]]].
  exists r, s'. auto.
Qed.
Lemma ps_while1_spec {X} (f : fnmut X T) s p l x : repr s l ->
  (l = [] /\ ps_while1 ops posr f (s, p) x = Done (inr SeEoi, (s, p), x)) \/
  (exists t r x', l = t :: r /\ f x t = (false, x') /\ ps_while1 ops posr f (s, p) x = Done (inr SeUnexpected, (s, p), x')) \/
  (exists t r a b x' x2 rg s', l = t :: r /\ f x t = (true, x') /\ scans f x' r a b x2 /\
     ps_while1 ops posr f (s, p) x = Done (inl rg, (s', stepped p (t :: a)), x2) /\ rrep rg (t :: a) /\ repr s' b).
Proof.
  intros H. unfold ps_while1. cbn [fst snd]. destruct (ok_while1 _ _ _ _ OK _ (ps_closure posr f) _ _ (x, p) H) as [[-> ->]|[[t [r [[x' p'] [-> [K1 ->]]]]]|[t [r [a [b [[x' p'] [x2 [rg [s' [-> [K1 [K2 [-> [K4 K5]]]]]]]]]]]]]]].
  - left. auto.
  - right. left. unfold ps_closure in K1. cbn in K1. destruct (f x t) as [[|] x1] eqn:Hf; [discriminate|]. injection K1 as -> ->. exists t, r, x'. auto.
  - right. right. unfold ps_closure in K1 at 1. cbn [fst snd] in K1. destruct (f x t) as [[|] x1] eqn:Hf; [|discriminate]. injection K1 as -> <-.
    destruct (scans_closure f _ _ _ _ _ _ K2) as [x3 [-> K3]]. exists t, r, a, b, x', x3, rg, s'. auto 7.
Qed.

(** The state after any history. *)
Definition at_prefix (l0 : list T) (p0 : P) (sp : pstream (S:=S) (P:=P)) : Prop := exists a b, l0 = a ++ b /\ repr (fst sp) b /\ snd sp = stepped p0 a.
Hypothesis AG : forall p r a, rrep r a -> po_range posr p r = stepped p a.
Lemma stepped_app p a b : stepped (stepped p a) b = stepped p (a ++ b).
Proof. unfold stepped. rewrite fold_left_app. reflexivity. Qed.
Lemma history l0 p0 cs : forall sp cps, at_prefix l0 p0 sp -> Forall (at_prefix l0 p0) cps ->
  exists sp' cps', do_calls ops posr cs sp cps = Done (sp', cps') /\ at_prefix l0 p0 sp' /\ Forall (at_prefix l0 p0) cps'.
Proof.
  induction cs as [|c cs IH]; intros [s p] cps H Hc; [cbn; eauto|]. cbn [do_calls].
  assert (K : exists sp1 cps1, do_call ops posr c (s, p) cps = Done (sp1, cps1) /\ at_prefix l0 p0 sp1 /\ Forall (at_prefix l0 p0) cps1).
  { destruct H as [a [b [H1 [H2 H3]]]]. cbn [fst snd] in H2, H3. assert (H : at_prefix l0 p0 (s, p)) by (exists a, b; auto). unfold do_call. destruct c as [|n|f|f| |k].
    - destruct (ps_uncons_spec s p b H2) as [[-> ->]|[t [r [s' [-> [-> K]]]]]]; cbn [omap snd]; eexists _, _; (split; [reflexivity|]); split; auto.
      exists (a ++ [t]), r. rewrite <- app_assoc. cbn [app fst snd]. rewrite <- stepped_app, <- H3. auto.
    - destruct (ps_range_spec n s p b H2) as [[a1 [b1 [r [s' [-> [K1 [-> [K2 K3]]]]]]]]|[_ [e ->]]]; cbn [omap snd]; eexists _, _; (split; [reflexivity|]); split; auto.
      exists (a ++ a1), b1. rewrite <- app_assoc. cbn [fst snd]. rewrite <- stepped_app, <- H3. auto.
    - destruct (scans_total (stateless f) tt b) as [a1 [b1 [x' K]]]. destruct (ps_while_spec _ s p _ _ _ _ _ H2 K) as [r [s' [-> [K2 K3]]]]. cbn [omap]. eexists _, _; (split; [reflexivity|]); split; auto.
      exists (a ++ a1), b1. rewrite <- app_assoc. cbn [fst snd]. rewrite <- stepped_app, <- H3. rewrite <- (scans_app _ _ _ _ _ _ K). auto.
    - destruct (ps_while1_spec (stateless f) s p b tt H2) as [[-> ->]|[[t [r [x' [-> [K1 ->]]]]]|[t [r [a1 [b1 [x' [x2 [rg [s' [-> [K1 [K2 [-> [K4 K5]]]]]]]]]]]]]]]; cbn [omap snd]; eexists _, _; (split; [reflexivity|]); split; auto.
      exists (a ++ t :: a1), b1. rewrite <- app_assoc. cbn [fst snd app]. rewrite <- stepped_app, <- H3. rewrite <- (scans_app _ _ _ _ _ _ K2). auto.
    - eexists _, _; (split; [reflexivity|]); split; auto.
    - eexists _, _; (split; [reflexivity|]); split; auto. destruct (nth_error cps k) as [s'|] eqn:Hk; auto. rewrite Forall_forall in Hc. apply Hc. eapply nth_error_In; eauto. }
  destruct K as [sp1 [cps1 [-> [K1 K2]]]]. cbn [obind fst snd]. apply IH; auto.
Qed.
End PosProofs.

(** * The positioners *)
Lemma index_stepped {T R} (len : R -> nat) p (l : list T) : stepped (index_positioner len) p l = p + length l.
Proof. unfold stepped. revert p. induction l as [|t l IH]; intros p; cbn; [lia|]. rewrite IH. lia. Qed.
Lemma src_bytes_spec fl : forall p cs, text cs -> length cs <= fl -> src_update_bytes fl p (encode_all cs) = fold_left src_update cs p.
Proof.
  induction fl as [|fl IH]; intros p cs Ht Hl; [destruct cs; [reflexivity|cbn in Hl; lia]|]. cbn [src_update_bytes]. rewrite (chars_next_text _ Ht).
  destruct cs as [|c r]; [reflexivity|]. inversion Ht; subst. cbn [fold_left]. apply IH; auto. cbn in Hl. lia.
Qed.
Lemma last_line_snoc cs c l : last_line cs l -> last_line (cs ++ [c]) (if (c =? 10)%N then [] else l ++ [c]).
Proof.
  intros [H1 H2]. destruct (N.eqb_spec c 10) as [->|Hc].
  - split; [tauto|]. right. exists cs. reflexivity.
  - split; [rewrite in_app_iff; cbn; intuition congruence|]. destruct H2 as [->|[b ->]]; [left; auto|right]. exists b. rewrite <- app_assoc. reflexivity.
Qed.
Lemma line_column_spec cs : at_line_column cs (fold_left src_update cs src_default).
Proof.
  induction cs as [|c cs IH] using rev_ind; [split; [reflexivity|]; exists []; split; [split; [tauto|auto]|reflexivity]|].
  rewrite fold_left_app. cbn [fold_left]. destruct IH as [H1 [l [H2 H3]]]. set (p := fold_left src_update cs src_default) in *. split.
  - unfold newlines in *. rewrite count_occ_app. unfold src_update. cbn [count_occ]. destruct (N.eqb_spec c 10) as [->|Hc].
    + destruct (N.eq_dec 10 10); [|congruence]. cbn [line]. rewrite H1. lia.
    + destruct (N.eq_dec c 10); [congruence|]. cbn [line]. rewrite H1. lia.
  - exists (if (c =? 10)%N then [] else l ++ [c]). split; [apply last_line_snoc; auto|]. unfold src_update. destruct (c =? 10)%N; cbn [column]; [reflexivity|]. rewrite H3, app_length. cbn [length]. lia.
Qed.
(** The line and column of a text are determined. *)
Lemma last_line_unique cs l l' : last_line cs l -> last_line cs l' -> l = l'.
Proof.
  intros [H1 H2] [K1 K2]. destruct H2 as [->|[b ->]], K2 as [E|[b' E]]; auto;
    [exfalso; apply H1; rewrite E; apply in_or_app; cbn; auto|exfalso; apply K1; rewrite <- E; apply in_or_app; cbn; auto|].
  revert b' E. induction b as [|x b IH]; intros [|y b'] E; cbn in E; injection E; intros; subst; auto.
  - exfalso. apply H1. rewrite in_app_iff. cbn. tauto.
  - exfalso. apply K1. rewrite in_app_iff. cbn. tauto.
  - eapply IH; eauto.
Qed.
