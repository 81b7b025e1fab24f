(** take_until_byte(s), length_prefix, numbers, character classes. *)
From Coq Require Import String List Bool Arith NArith ZArith Lia.
Import ListNotations.
From Verif Require Import Base Parser Token Combinator Sequence Choice Repeat RangeP ByteP Instances Spec RangeSpec TokenProofs SeqProofs CombProofs
  LibSpec ForwardProofs AgreeSpec AgreeProofs RepeatProofs CombProofs2 RangeProofs RangeProofs2.
Unset Implicit Arguments.

(** ** searching *)
Lemma find_index_some {X} (f : X -> bool) : forall l k, find_index f l = Some k ->
  exists b x a, l = b ++ x :: a /\ length b = k /\ f x = true /\ Forall (fun x => f x = false) b.
Proof.
  induction l as [|x l IH]; intros k H; cbn in H; [discriminate|]. destruct (f x) eqn:Hf.
  - inversion H; subst. exists [], x, l. auto.
  - destruct (find_index f l) as [k'|]; [|discriminate]. inversion H; subst. destruct (IH _ eq_refl) as [b [y [a [-> [Hl [Hy Hb]]]]]].
    exists (x :: b), y, a. cbn. repeat split; auto.
Qed.
Lemma find_index_none {X} (f : X -> bool) : forall l, find_index f l = None -> Forall (fun x => f x = false) l.
Proof.
  induction l as [|x l IH]; intros H; cbn in H; [constructor|]. destruct (f x) eqn:Hf; [discriminate|]. destruct (find_index f l); [discriminate|]. auto.
Qed.

Lemma starts_with_iff : forall (n l : list N), starts_with N.eqb n l = true <-> exists s, l = n ++ s.
Proof.
  induction n as [|x n IH]; intros l; cbn; [split; eauto|]. destruct l as [|y l]; [split; [discriminate|intros [s H]; discriminate]|].
  rewrite andb_true_iff, N.eqb_eq, IH. split; [intros [-> [s ->]]; eauto|intros [s H]; inversion H; subst; eauto].
Qed.
Lemma memslice_go_some p s : forall h k, memslice_go N.eqb p s h = Some k -> exists b a, first_occurrence (p :: s) h b a /\ length b = k.
Proof.
  induction h as [|x h IH]; intros k H; cbn in H; [discriminate|]. destruct (N.eqb x p && starts_with N.eqb s h) eqn:He.
  - apply andb_true_iff in He. destruct He as [He Hs]. apply N.eqb_eq in He. apply starts_with_iff in Hs. destruct Hs as [t ->]. subst. inversion H; subst.
    exists [], t. split; auto. split; [reflexivity|cbn; lia].
  - destruct (memslice_go N.eqb p s h) as [k'|]; [|discriminate]. inversion H; subst. destruct (IH _ eq_refl) as [b [a [K1 K2]]]. exists (x :: b), a. split; [|cbn; auto].
    apply first_later; auto. intros t Ht. inversion Ht; subst. rewrite N.eqb_refl in He. cbn in He. assert (starts_with N.eqb s (s ++ t) = true) by (apply starts_with_iff; eauto). congruence.
Qed.
Lemma memslice_go_none p s : forall h, memslice_go N.eqb p s h = None -> ~ occurs (p :: s) h.
Proof.
  induction h as [|x h IH]; intros H [b [a K]]; cbn in H; [destruct b; discriminate|]. destruct (N.eqb x p && starts_with N.eqb s h) eqn:He; [discriminate|].
  destruct (memslice_go N.eqb p s h); [discriminate|]. destruct b as [|y b].
  - inversion K; subst. rewrite N.eqb_refl in He. cbn in He. assert (starts_with N.eqb s (s ++ a) = true) by (apply starts_with_iff; eauto). congruence.
  - inversion K; subst. apply IH; auto. exists b, a. auto.
Qed.
Lemma memslice_some n h k : memslice N.eqb n h = Some k -> exists b a, first_occurrence n h b a /\ length b = k.
Proof.
  destruct n as [|p s]; cbn; intros H; [inversion H; subst; exists [], h; split; auto; split; [reflexivity|cbn; lia]|]. apply memslice_go_some; auto.
Qed.
Lemma memslice_none n h : memslice N.eqb n h = None -> ~ occurs n h.
Proof. destruct n as [|p s]; cbn; intros H; [discriminate|]. apply memslice_go_none; auto. Qed.

Section ByteProofs.
Context {C : Cfg}.
Notation T := (tok C).
Notation E := (Err C).
Notation beh := (@Spec.beh C).
Notation units := (@RangeSpec.units C).
Variable code : T -> N.

Lemma slice_units (SL : is_slice (C:=C)) (l : list T) : units l = length l.
Proof. unfold RangeSpec.units. induction l; cbn; auto. rewrite SL. cbn. f_equal. exact IHl. Qed.
Lemma slice_take (L : lawful C) (SL : is_slice (C:=C)) (i : input C) l r : rest i = l ++ r -> s_uncons_range i (length l) = (okr (consumed_some l) l, advance i l r).
Proof. intros H. rewrite <- (slice_units SL), <- range_len_units. apply (s_uncons_range_exact L). apply advance_by; auto. Qed.

Lemma fresh_take_fn s (i : input C) : fresh (take_fn s) i =
  match s (rest i) with
  | Found k => Done (s_uncons_range i k)
  | NotFound _ => Done (if negb (ipart i) && (range_len (rest i) =? 0) then PeekErr (to_trk (e_from C (pos_after (ipos i) (rest i)) (se_eoi C)))
                        else CommitErr (e_from C (pos_after (ipos i) (rest i)) (se_eoi C)), i)
  end.
Proof.
  unfold fresh. cbn. unfold take_fn_run. cbn. destruct (s (rest i)) as [k|k]; [destruct (s_uncons_range i k); reflexivity|].
  destruct (negb (ipart i) && (range_len (rest i) =? 0)); reflexivity.
Qed.

(** A searcher which finds, in a slice, the first place where [P] holds of what comes before and after. *)
Definition searches (s : list T -> take_range) (P : list T -> list T -> Prop) : Prop :=
  (forall h, (exists b a, h = b ++ a /\ P b a /\ s h = Found (length b)) \/ ((forall b a, h = b ++ a -> ~ P b a) /\ exists n, s h = NotFound n)) /\
  (forall b a b' a', b ++ a = b' ++ a' -> P b a -> P b' a' -> b = b').

Lemma take_fn_spec (L : lawful C) (SL : is_slice (C:=C)) s P : searches s P ->
  (forall i c l i', succeeds (fresh (take_fn s)) i c l i' <-> advanced_by i l i' /\ P l (rest i') /\ c = consumed_some l) /\
  (forall i c, fails (fresh (take_fn s)) i c <-> (forall b a, rest i = b ++ a -> ~ P b a) /\ c = ipart i || consumed_some (rest i)) /\
  (forall i r i', fresh (take_fn s) i = Done (r, i') -> is_ok r = false -> i' = i).
Proof.
  intros [Hs Hu].
  assert (F : forall i : input C,
     (exists b a, rest i = b ++ a /\ P b a /\ fresh (take_fn s) i = Done (okr (consumed_some b) b, advance i b a)) \/
     ((forall b a, rest i = b ++ a -> ~ P b a) /\ exists r, fresh (take_fn s) i = Done (r, i) /\ is_ok r = false /\ committed r = ipart i || consumed_some (rest i))).
  { intros i. rewrite fresh_take_fn. destruct (Hs (rest i)) as [[b [a [H1 [H2 ->]]]]|[H1 [n ->]]].
    - left. exists b, a. split; auto. split; auto. rewrite (slice_take L SL i b a H1). reflexivity.
    - right. split; auto. rewrite range_len_units, (slice_units SL). destruct (ipart i); [do 1 eexists; split; [reflexivity|split; reflexivity]|]. cbn [negb andb orb].
      destruct (rest i); cbn; eexists; (split; [reflexivity|split; reflexivity]). }
  split; [|split].
  - intros i c l i'. unfold succeeds. destruct (F i) as [[b [a [H1 [H2 ->]]]]|[H1 [r [-> [H2 _]]]]].
    + split.
      * intros K. injection K as K <-. apply okr_inj in K. destruct K as [<- <-]. split; [apply advance_by; auto|]. split; auto.
      * intros [K1 [K2 ->]]. assert (b = l) by (eapply Hu; [|exact H2|exact K2]; rewrite <- H1; apply K1). subst. f_equal. f_equal.
        eapply advanced_by_eq; [|exact K1]. apply advance_by. auto.
    + split; [intros K; injection K as -> _; destruct c; discriminate|]. intros [K1 [K2 _]]. exfalso. eapply H1; [apply K1|exact K2].
  - intros i c. unfold fails, fails_with. destruct (F i) as [[b [a [H1 [H2 ->]]]]|[H1 [r [-> [H2 H3]]]]].
    + split; [intros [e [x [j [K [K1 _]]]]]; injection K as <- <-; rewrite okr_not_error in K1; discriminate|]. intros [K _]. exfalso. eapply K; eauto.
    + split.
      * intros [e [x [j [K [K1 K2]]]]]. injection K as <- <-. split; auto. congruence.
      * intros [_ ->]. destruct r as [x|x|e|e]; try discriminate; do 3 eexists; (split; [reflexivity|split; [reflexivity|exact H3]]).
  - intros i r i' H Hr. destruct (F i) as [[b [a [H1 [H2 K]]]]|[H1 [r0 [K [H2 H3]]]]]; rewrite K in H; injection H as <- <-; auto.
    destruct (consumed_some b); discriminate.
Qed.

Lemma fresh_parser_fn {S A} (p : parser C S A) i : fresh (parser_fn p) i = fresh p i.
Proof. reflexivity. Qed.

Lemma byte_searches (f : N -> bool) : searches
  (fun haystack : list T => match find_index f (List.map code haystack) with Some i => Found i | None => NotFound (length (List.map code haystack)) end)
  (fun b a => Forall (fun t => f (code t) = false) b /\ exists t r, a = t :: r /\ f (code t) = true).
Proof.
  split.
  - intros h. destruct (find_index f (List.map code h)) as [k|] eqn:Hf.
    + left. destruct (find_index_some _ _ _ Hf) as [b [x [a [H1 [H2 [H3 H4]]]]]].
      exists (firstn k h), (skipn k h). rewrite firstn_skipn. split; auto. assert (Hb : List.map code (firstn k h) = b).
      { rewrite <- firstn_map, H1, <- H2, firstn_app, Nat.sub_diag, firstn_all, firstn_O, app_nil_r. reflexivity. }
      assert (Ha : List.map code (skipn k h) = x :: a).
      { rewrite <- skipn_map, H1, <- H2, skipn_app, Nat.sub_diag, skipn_all. reflexivity. }
      split.
      * split; [apply (proj1 (Forall_map code (fun x => f x = false) (firstn k h))); rewrite Hb; exact H4|].
        destruct (skipn k h) as [|t r]; [discriminate|]. cbn in Ha. inversion Ha; subst. eauto.
      * f_equal. rewrite <- (map_length code (firstn k h)), Hb. auto.
    + right. split; [|eauto]. apply find_index_none in Hf. apply (proj1 (Forall_map code (fun x => f x = false) h)) in Hf.
      intros b a -> [_ [t [r [-> Ht]]]]. apply Forall_app in Hf. destruct Hf as [_ Hf]. inversion Hf; congruence.
  - intros b a b' a' H [K1 [t [r [-> K2]]]] [L1 [t' [r' [-> L2]]]]. revert b' H L1. induction b as [|x b IH]; intros [|x' b'] H L1; auto.
    + cbn in H. inversion H; subst. inversion L1; congruence.
    + cbn in H. inversion H; subst. inversion K1; congruence.
    + inversion H; subst. f_equal. inversion K1; inversion L1; subst. apply IH; auto.
Qed.
Lemma bytes_searches (needle : list N) : searches
  (fun haystack : list T => match memslice N.eqb needle (List.map code haystack) with Some i => Found i | None => NotFound (length (List.map code haystack) - (length needle - 1)) end)
  (fun b a => exists a', first_occurrence needle (List.map code (b ++ a)) (List.map code b) a').
Proof.
  split.
  - intros h. destruct (memslice N.eqb needle (List.map code h)) as [k|] eqn:Hf.
    + left. destruct (memslice_some _ _ _ Hf) as [b [a [H1 H2]]].
      exists (firstn k h), (skipn k h). rewrite firstn_skipn. split; auto.
      assert (Hb : List.map code (firstn k h) = b).
      { destruct H1 as [H1 _]. rewrite <- firstn_map, H1, <- H2, firstn_app, Nat.sub_diag, firstn_all, firstn_O, app_nil_r. reflexivity. }
      split; [exists a; rewrite Hb; exact H1|]. f_equal. rewrite <- (map_length code (firstn k h)), Hb. auto.
    + right. split; [|eauto]. apply memslice_none in Hf. intros b a -> [a' [K _]]. apply Hf. exists (List.map code b), a'. exact K.
  - intros b a b' a' H [s [K1 K2]] [s' [L1 L2]]. rewrite H in K1, K2. pose proof (K2 _ _ L1). pose proof (L2 _ _ K1). rewrite !map_length in *.
    apply (same_len_app b b' a a'); [lia|exact H].
Qed.

(** ** length_prefix *)
Lemma fresh_parser_fn0 {S A} (p : parser C S A) i : fresh (parser_fn0 p) i = fresh p i.
Proof. unfold fresh. cbn. destruct (p_run p true i (p_init p)) as [[[r j] s]| |]; reflexivity. Qed.

Lemma length_prefix_spec (L : lawful C) {S A} (len : parser C S A) (to_usize : A -> nat + SErr C) :
  (forall i c l i', succeeds (fresh (length_prefix len to_usize)) i c l i' <->
     exists c1 a i1, succeeds (fresh len) i c1 a i1 /\ to_usize a = inl (units l) /\ advanced_by i1 l i' /\ c = c1 || negb (units l =? 0)) /\
  (forall i c, fails (fresh (length_prefix len to_usize)) i c <->
     fails (fresh len) i c \/
     (exists c1 a i1 se, succeeds (fresh len) i c1 a i1 /\ to_usize a = inr se /\ c = c1 || (ipart i1 && negb (consumed_some (rest i1)))) \/
     (exists c1 a i1 n, succeeds (fresh len) i c1 a i1 /\ to_usize a = inl n /\ (forall l r, rest i1 = l ++ r -> units l <> n) /\ c = c1 || ipart i1)).
Proof.
  assert (R : runs_after (fresh (and_then len to_usize)) (fun n => fresh (take n)) (fun _ b => b) (fresh (length_prefix len to_usize))).
  { pose proof (then_runs (and_then len to_usize) tt (@take C) (fun _ => eq_refl) (fun n => default_cmode_agrees (take n) eq_refl)) as H.
    destruct H as [H1 H2]. split; intros; unfold succeeds, fails, fails_with in *; setoid_rewrite fresh_parser_fn0; [apply H1|apply H2]. }
  destruct R as [R1 R2]. destruct (and_then_spec L len to_usize) as [A1 [A2 [A3 A4]]]. split.
  - intros i c l i'. rewrite R1. split.
    + intros [c1 [n [i1 [c2 [x [H1 [H2 [-> ->]]]]]]]]. apply A1 in H1. destruct H1 as [a [H1 Ha]]. apply (take_spec L n) in H2. destruct H2 as [K1 [K2 ->]].
      exists c1, a, i1. subst n. auto.
    + intros [c1 [a [i1 [H1 [H2 [H3 ->]]]]]]. exists c1, (units l), i1, (negb (units l =? 0)), l. split; [apply A1; eauto|]. split; [|auto]. apply (take_spec L). auto.
  - intros i c. rewrite R2. split.
    + intros [H|[c1 [n [i1 [c2 [H1 [H2 ->]]]]]]].
      * unfold fails in H. destruct (fresh len i) as [[r j]| |] eqn:Hl.
        -- destruct (okr_cases r) as [[c1 [a ->]]|[e He]].
           ++ assert (Hs : succeeds (fresh len) i c1 a j) by exact Hl. destruct (to_usize a) as [n|se] eqn:Hu.
              ** exfalso. assert (K : succeeds (fresh (and_then len to_usize)) i c1 n j) by (apply A1; eauto).
                 destruct H as [e [x [k [K1 [K2 _]]]]]. unfold succeeds in K. rewrite K in K1. inversion K1; subst. rewrite okr_not_error in K2. discriminate.
              ** right. left. exists c1, a, j, se. split; auto. split; auto. destruct (ipart j && negb (consumed_some (rest j))) eqn:Hp.
                 --- apply andb_true_iff in Hp. destruct Hp as [Hp Hr]. destruct (rest j) eqn:Hj; [|discriminate]. rewrite orb_true_r.
                     pose proof (A3 i c1 a j se Hs Hu Hp Hj) as K. destruct H as [e [x [k [K1 [K2 K3]]]]]. rewrite K in K1. inversion K1; subst. reflexivity.
                 --- rewrite orb_false_r. destruct (A2 i c1 a j se Hs Hu) as [x [K1 [K2 K3]]].
                     { destruct (ipart j); [right; destruct (rest j); [discriminate|intros; discriminate]|left; auto]. }
                     destruct H as [e [x' [k [L1 [L2 L3]]]]]. rewrite K1 in L1. inversion L1; subst. reflexivity.
           ++ left. exists e, r, j. split; auto. split; auto. assert (fails_with (fresh len) i (committed r) e) as K by (exists r, j; auto).
              apply A4 in K. destruct H as [e' [x [k [K1 [K2 K3]]]]], K as [x' [k' [L1 [L2 L3]]]]. rewrite L1 in K1. inversion K1; subst. congruence.
        -- exfalso. destruct H as [e [x [k [K1 [K2 K3]]]]]. unfold fresh in K1, Hl. cbn in K1. destruct (p_run len true i (p_init len)) as [[[? ?] ?]| |]; discriminate.
        -- exfalso. destruct H as [e [x [k [K1 [K2 K3]]]]]. unfold fresh in K1, Hl. cbn in K1. destruct (p_run len true i (p_init len)) as [[[? ?] ?]| |]; discriminate.
      * right. right. apply A1 in H1. destruct H1 as [a [H1 Ha]]. destruct H2 as [e H2]. apply (take_spec L n) in H2. destruct H2 as [K1 [-> _]]. exists c1, a, i1, n. auto.
    + intros [[e H]|[[c1 [a [i1 [se [H1 [H2 ->]]]]]]|[c1 [a [i1 [n [H1 [H2 [H3 ->]]]]]]]]].
      * left. exists e. apply A4. auto.
      * left. destruct (ipart i1 && negb (consumed_some (rest i1))) eqn:Hp.
        -- apply andb_true_iff in Hp. destruct Hp as [Hp Hr]. destruct (rest i1) eqn:Hj; [|discriminate]. rewrite orb_true_r.
           do 3 eexists. split; [eapply A3; eauto|split; reflexivity].
        -- rewrite orb_false_r. destruct (A2 i c1 a i1 se H1 H2) as [x [K1 [K2 K3]]].
           { destruct (ipart i1); [right; destruct (rest i1); [discriminate|intros; discriminate]|left; auto]. }
           do 3 eexists. eauto.
      * right. exists c1, n, i1, (ipart i1). split; [apply A1; eauto|]. split; [|auto]. eexists. apply (take_spec L n). split; auto.
Qed.

(** ** numbers *)
Lemma read_tokens_spec : forall k (i : input C),
  (exists l r, rest i = l ++ r /\ length l = k /\ exists x, read_tokens k i = (x, advance i l r) /\ value_of x = Some l) \/
  (length (rest i) < k /\ read_tokens k i = (wrap_stream_error (advance i (rest i) []) (se_eoi C), advance i (rest i) [])).
Proof.
  induction k as [|k IH]; intros i.
  - left. exists [], (rest i). split; auto. split; auto. exists (PeekOk []). split; auto. cbn. destruct i; reflexivity.
  - cbn [read_tokens]. unfold s_uncons, uncons. destruct (rest i) as [|t r] eqn:Hr.
    + right. split; [cbn; lia|]. replace (advance i [] []) with i by (destruct i; cbn in *; unfold advance; cbn; congruence).
      unfold wrap_stream_error. destruct (ipart i); reflexivity.
    + destruct (IH (Inp r (pos_step C (ipos i) t) (ipart i))) as [[l [s [H1 [H2 [x [H3 H4]]]]]]|[H1 H2]]; cbn [rest ipos ipart] in *.
      * left. exists (t :: l), s. subst r. split; [reflexivity|]. split; [cbn; auto|]. exists (pr_map (cons t) x). rewrite H3. split; [reflexivity|].
        destruct x; cbn in *; inversion H4; reflexivity.
      * right. split; [cbn; lia|]. rewrite H2. unfold wrap_stream_error, advance. cbn. destruct (ipart i); reflexivity.
Qed.

Lemma num_parser_spec {A} k (decode : list N -> A) :
  (forall i c v i', succeeds (fresh (num_parser code k decode)) i c v i' <->
     exists l, length l = k /\ advanced_by i l i' /\ v = decode (List.map code l) /\ c = true) /\
  (forall i c e, fails_with (fresh (num_parser code k decode)) i c e <->
     length (rest i) < k /\ c = ipart i /\ e = e_from C (pos_after (ipos i) (rest i)) (se_eoi C)) /\
  (forall i r i', fresh (num_parser code k decode) i = Done (r, i') -> is_ok r = false -> i' = i).
Proof.
  assert (F : forall i : input C,
    (exists l r, rest i = l ++ r /\ length l = k /\ fresh (num_parser code k decode) i = Done (CommitOk (decode (List.map code l)), advance i l r)) \/
    (length (rest i) < k /\ fresh (num_parser code k decode) i =
       Done (if ipart i then CommitErr (e_from C (pos_after (ipos i) (rest i)) (se_eoi C)) else PeekErr (to_trk (e_from C (pos_after (ipos i) (rest i)) (se_eoi C))), i))).
  { intros i. unfold num_parser, fn_parser. setoid_rewrite fresh_lazy. destruct (read_tokens_spec k i) as [[l [r [H1 [H2 [x [H3 H4]]]]]]|[H1 H2]].
    - left. exists l, r. split; auto. split; auto. rewrite H3. destruct x; inversion H4; subst; reflexivity.
    - right. split; auto. rewrite H2. unfold wrap_stream_error. cbn. destruct (ipart i); reflexivity. }
  split; [|split].
  - intros i c v i'. unfold succeeds. destruct (F i) as [[l [r [H1 [H2 ->]]]]|[H1 ->]].
    + split.
      * intros K. apply done_commit in K. destruct K as [-> [-> ->]]. exists l. split; auto. split; [apply advance_by; auto|auto].
      * intros [l' [K1 [K2 [-> ->]]]]. assert (l = l').
        { apply (same_len_app l l' r (rest i')); [congruence|]. rewrite <- H1. apply K2. }
        subst l'. unfold okr. f_equal. f_equal. eapply advanced_by_eq; [|exact K2]. apply advance_by; auto.
    + split; [intros K; destruct (ipart i), c; discriminate|]. intros [l [K1 [[K2 _] _]]]. rewrite K2, app_length in H1. lia.
  - intros i c e. unfold fails_with. destruct (F i) as [[l [r [H1 [H2 ->]]]]|[H1 ->]].
    + split; [intros [x [j [K [K1 _]]]]; inversion K; subst; discriminate|]. intros [K _]. rewrite H1, app_length in K. lia.
    + split.
      * intros [x [j [K [K1 K2]]]]. split; auto. inversion K; subst. destruct (ipart j); cbn in *; inversion K1; auto.
      * intros [_ [-> ->]]. destruct (ipart i); do 2 eexists; (split; [reflexivity|split; reflexivity]).
  - intros i r i' H Hr. destruct (F i) as [[l [r0 [H1 [H2 K]]]]|[H1 K]]; rewrite K in H; injection H as <- <-; [discriminate|auto].
Qed.
End ByteProofs.

(** ** base 256 *)
Open Scope N_scope.
Lemma be_value_acc : forall l a, fold_left (fun a b => a * 256 + b) l a = a * 256 ^ N.of_nat (length l) + be_value l.
Proof.
  unfold be_value. induction l as [|x l IH]; intros a; cbn [fold_left length]; [rewrite N.pow_0_r; lia|].
  rewrite (IH (a * 256 + x)), (IH (0 * 256 + x)). rewrite Nat2N.inj_succ, N.pow_succ_r'. lia.
Qed.
Lemma be_value_cons x l : be_value (x :: l) = x * 256 ^ N.of_nat (length l) + be_value l.
Proof. unfold be_value at 1. cbn [fold_left]. rewrite be_value_acc. lia. Qed.
Lemma be_value_bound : forall l, bytes_ok l -> be_value l < 256 ^ N.of_nat (length l).
Proof.
  induction l as [|x l IH]; intros H; [cbn; lia|]. inversion H; subst. rewrite be_value_cons. cbn [length]. rewrite Nat2N.inj_succ, N.pow_succ_r'.
  specialize (IH H3). nia.
Qed.
Lemma be_digits_mod : forall k n q, be_digits k (q * 256 ^ N.of_nat k + n) = be_digits k n.
Proof.
  induction k as [|k IH]; intros n q; cbn [be_digits]; auto. rewrite Nat2N.inj_succ, N.pow_succ_r'.
  set (P := 256 ^ N.of_nat k). assert (P <> 0) by (apply N.pow_nonzero; lia). f_equal.
  - replace (q * (256 * P) + n) with (n + (q * 256) * P) by lia. rewrite N.div_add by auto. rewrite N.mod_add by lia. reflexivity.
  - replace (q * (256 * P) + n) with ((q * 256) * P + n) by lia. apply IH.
Qed.
Lemma be_digits_value : forall l, bytes_ok l -> be_digits (length l) (be_value l) = l.
Proof.
  induction l as [|x l IH]; intros H; [reflexivity|]. inversion H; subst. rewrite be_value_cons. cbn [length be_digits]. f_equal.
  - pose proof (be_value_bound l H3). rewrite N.div_add_l by (apply N.pow_nonzero; lia). rewrite N.div_small by auto. rewrite N.add_0_r. apply N.mod_small. auto.
  - rewrite be_digits_mod. auto.
Qed.
Lemma be_digits_length : forall k n, length (be_digits k n) = k.
Proof. induction k; intros; cbn; auto. Qed.
Lemma be_digits_ok : forall k n, bytes_ok (be_digits k n).
Proof. induction k; intros; cbn; constructor; auto. apply N.mod_lt. lia. apply IHk. Qed.
Lemma be_value_digits : forall k n, n < 256 ^ N.of_nat k -> be_value (be_digits k n) = n.
Proof.
  induction k as [|k IH]; intros n H; [cbn in *; lia|]. cbn [be_digits]. rewrite be_value_cons, be_digits_length. rewrite Nat2N.inj_succ, N.pow_succ_r' in H.
  set (P := 256 ^ N.of_nat k) in *. assert (P <> 0) by (apply N.pow_nonzero; lia).
  assert (HP : n / P < 256) by (apply N.div_lt_upper_bound; auto; lia). rewrite (N.mod_small _ 256) by auto.
  pose proof (N.div_mod n P H0) as Hd.
  assert (Hm : be_digits k n = be_digits k (n mod P)).
  { transitivity (be_digits k (n / P * P + n mod P)); [|apply be_digits_mod]. f_equal. rewrite (N.mul_comm (n / P)). exact Hd. }
  rewrite Hm, IH by (apply N.mod_lt; auto). rewrite N.mul_comm. symmetry. exact Hd.
Qed.
Lemma le_value_rev : forall l, le_value l = be_value (rev l).
Proof.
  unfold be_value, le_value. intros l. rewrite fold_left_rev_right || idtac. rewrite <- (rev_involutive l) at 1. rewrite fold_left_rev_right.
  generalize (rev l). intros m. generalize 0. induction m as [|x m IH]; intros a; cbn [fold_left]; auto. rewrite IH. f_equal. lia.
Qed.
Lemma bytes_ok_rev l : bytes_ok l -> bytes_ok (rev l).
Proof. unfold bytes_ok. intros H. apply Forall_rev. auto. Qed.
Lemma le_digits_value l : bytes_ok l -> le_digits (length l) (le_value l) = l.
Proof. intros H. unfold le_digits. rewrite le_value_rev, <- rev_length, be_digits_value by (apply bytes_ok_rev; auto). apply rev_involutive. Qed.
Lemma le_value_digits k n : n < 256 ^ N.of_nat k -> le_value (le_digits k n) = n.
Proof. intros H. unfold le_digits. rewrite le_value_rev, rev_involutive. apply be_value_digits; auto. Qed.
Lemma le_value_bound l : bytes_ok l -> le_value l < 256 ^ N.of_nat (length l).
Proof. intros H. rewrite le_value_rev, <- rev_length. apply be_value_bound. apply bytes_ok_rev. auto. Qed.
Close Scope N_scope.

Open Scope Z_scope.
Lemma pow256 k : Z.of_N (256 ^ N.of_nat k) = 2 ^ (8 * Z.of_nat k).
Proof. rewrite N2Z.inj_pow, nat_N_Z. change (Z.of_N 256) with (2 ^ 8). rewrite <- Z.pow_mul_r by lia. reflexivity. Qed.
(** Two's complement: the representative of the residue class of [v] in the signed range. *)
Lemma signed_value_spec k v : (v < 256 ^ N.of_nat k)%N ->
  - 2 ^ (8 * Z.of_nat k) <= 2 * signed_value k v < 2 ^ (8 * Z.of_nat k) /\ (signed_value k v) mod 2 ^ (8 * Z.of_nat k) = Z.of_N v.
Proof.
  intros H. apply N2Z.inj_lt in H. rewrite pow256 in H. unfold signed_value. cbv zeta. set (m := 2 ^ (8 * Z.of_nat k)) in *.
  destruct (2 * Z.of_N v <? m) eqn:Hl.
  - apply Z.ltb_lt in Hl. split; [lia|]. apply Z.mod_small. lia.
  - apply Z.ltb_ge in Hl. split; [lia|]. replace (Z.of_N v - m) with (Z.of_N v + (-1) * m) by lia. rewrite Z.mod_add by lia. apply Z.mod_small. lia.
Qed.
Close Scope Z_scope.

(** ** classes *)
Lemma class_ok (f : N -> bool) (s : list N) :
  forallb (fun b => Bool.eqb (f b) (existsb (N.eqb b) s)) (List.map N.of_nat (seq 0 256)) = true ->
  (forall b, (256 <= b)%N -> f b = false) -> forallb (fun b => (b <? 256)%N) s = true ->
  forall b, f b = true <-> In b s.
Proof.
  intros H1 H2 H3 b. assert (Hex : existsb (N.eqb b) s = true <-> In b s).
  { rewrite existsb_exists. split; [intros [x [Hx He]]; apply N.eqb_eq in He; subst; auto|intros Hb; exists b; split; auto; apply N.eqb_refl]. }
  destruct (N.ltb_spec b 256) as [Hb|Hb].
  - rewrite forallb_forall in H1. specialize (H1 b). assert (In b (List.map N.of_nat (seq 0 256))) as Hin.
    { apply in_map_iff. exists (N.to_nat b). split; [apply N2Nat.id|]. apply in_seq. lia. }
    specialize (H1 Hin). apply eqb_prop in H1. rewrite H1. exact Hex.
  - rewrite (H2 b Hb). split; [discriminate|]. intros Hin. rewrite forallb_forall in H3. specialize (H3 b Hin). apply N.ltb_lt in H3. lia.
Qed.
Lemma in_range_false lo hi b : (hi < 256)%N -> (256 <= b)%N -> in_range lo hi b = false.
Proof. intros H1 H2. unfold in_range. apply andb_false_intro2. apply N.leb_gt. lia. Qed.

Section Classes.
Context {C : Cfg}.
Notation T := (tok C).
Variable code : T -> N.
Lemma byte_class_single f name : single_token (byte_class code f name) (fun t r => r = t /\ f (code t) = true).
Proof.
  intros first i st. destruct (satisfy_single (fun t => f (code t)) first i st) as [H1 [H2 [H3 H4]]].
  unfold byte_class. cbn [p_run expected]. split; [|split; [|split]]; intros; eauto.
Qed.
Lemma single_succeeds {R} (p : parser C unit R) acc : single_token p acc -> (forall t r r', acc t r -> acc t r' -> r = r') -> (forall t, {r | acc t r} + {forall r, ~ acc t r}) ->
  forall i c v i', succeeds (fresh p) i c v i' <-> exists t, advanced_by i [t] i' /\ acc t v /\ c = true.
Proof.
  intros H Hf Hd i c v i'. destruct (H true i (p_init p)) as [H1 [H2 [H3 H4]]]. unfold succeeds, fresh. split.
  - intros K. destruct (rest i) as [|t l] eqn:Hr.
    + destruct (ipart i) eqn:Hp; [rewrite (H4 eq_refl eq_refl) in K|rewrite (H3 eq_refl eq_refl) in K]; destruct c; discriminate.
    + destruct (Hd t) as [[r Ha]|Hn].
      * destruct (H1 t l r eq_refl Ha) as [j [K1 K2]]. rewrite K1 in K. cbn in K. apply done_commit in K. destruct K as [-> [-> ->]]. exists t. auto.
      * destruct (H2 t l eq_refl Hn) as [j K1]. rewrite K1 in K. destruct c; discriminate.
  - intros [t [[K1 K1'] [K2 ->]]]. destruct (H1 t (rest i') v K1 K2) as [j [L1 L2]]. rewrite L1. cbn. f_equal. f_equal.
    eapply advanced_by_eq; [exact L2|]. split; auto.
Qed.
Lemma byte_class_succeeds f name i c v i' : succeeds (fresh (byte_class code f name)) i c v i' <-> advanced_by i [v] i' /\ f (code v) = true /\ c = true.
Proof.
  rewrite (single_succeeds _ _ (byte_class_single f name)).
  - split; [intros [t [H1 [[-> H2] H3]]]; auto|intros [H1 [H2 H3]]; exists v; auto].
  - intros t r r' [-> _] [-> _]. auto.
  - intros t. destruct (f (code t)) eqn:Hf; [left; exists t; auto|right; intros r [_ H]; congruence].
Qed.
Lemma adv_by_trans (i j k : input C) a b : advanced_by i a j -> advanced_by j b k -> advanced_by i (a ++ b) k.
Proof.
  intros [H1 [H2 H3]] [K1 [K2 K3]]. split; [rewrite H1, K1, app_assoc; reflexivity|]. split; [rewrite pos_after_app; congruence|congruence].
Qed.
Lemma crlf_spec : forall i c v i', succeeds (fresh (b_crlf code)) i c v i' <->
  exists t, advanced_by i [t; v] i' /\ code t = 13%N /\ code v = 10%N /\ c = true.
Proof.
  intros i c v i'. set (q := with_ (satisfy (fun t => N.eqb 13 (code t))) (b_newline code)).
  assert (F : succeeds (fresh (b_crlf code)) i c v i' <-> succeeds (fresh q) i c v i').
  { assert (H : lazy_agrees q) by (apply (lib_agree _ _ q); repeat constructor). specialize (H i). unfold succeeds.
    assert (K : fresh (b_crlf code) i = p_lazy q i).
    { unfold b_crlf, q. unfold fresh. cbn [p_run expected no_partial mk_mode mk_both p_init]. destruct (p_lazy _ i) as [[r j]| |]; reflexivity. }
    rewrite K. destruct (fresh q i) as [[r j]| |], (p_lazy q i) as [[r2 j2]| |]; try contradiction; try tauto; try (split; discriminate).
    destruct H as [-> [->|[_ [-> [Hr _]]]]]; [tauto|]. split; intros H; injection H as -> ->; destruct c; discriminate. }
  rewrite F. unfold q. destruct (with_runs (satisfy (fun t => N.eqb 13 (code t))) (b_newline code)) as [R _]. rewrite R. split.
  - intros [c1 [a [i1 [c2 [x [H1 [H2 [-> ->]]]]]]]]. apply byte_class_succeeds in H2. destruct H2 as [K1 [K2 ->]].
    rewrite (single_succeeds _ _ (satisfy_single _)) in H1; [|intros t r r' [-> _] [-> _]; auto|intros t; destruct (N.eqb 13 (code t)) eqn:He; [left; exists t; auto|right; intros r [_ H]; congruence]].
    destruct H1 as [t [L1 [[-> L2] ->]]]. apply N.eqb_eq in L2, K2. exists t. split; [exact (adv_by_trans i i1 i' [t] [x] L1 K1)|auto].
  - intros [t [[H1 [H2 H3]] [Ht [Hv ->]]]]. cbn [app] in H1. exists true, t, (advance i [t] (v :: rest i')), true, v. split.
    + rewrite (single_succeeds _ _ (satisfy_single _)); [|intros x r r' [-> _] [-> _]; auto|intros x; destruct (N.eqb 13 (code x)) eqn:He; [left; exists x; auto|right; intros r [_ H]; congruence]].
      exists t. split; [apply advance_by; auto|]. split; auto. split; auto. apply N.eqb_eq. auto.
    + split; [|auto]. apply byte_class_succeeds. split; [|split; auto; apply N.eqb_eq; auto]. split; [reflexivity|]. split; [exact H2|exact H3].
Qed.
End Classes.
