(** Proofs for C29: ranges of a given size, numbers, searching parsers, on slices. *)
From Coq Require Import String List Bool Arith NArith Lia.
Import ListNotations.
From Verif Require Import Base Parser Token Combinator Sequence Choice Repeat RangeP ByteP Spec SeqSpec ChoiceSpec TidySpec RepeatSpec AgreeSpec RangeSpec.
From Verif Require Import ResultProofs SeqProofs CombProofs ChoiceProofs CombProofs2 RepeatProofs RangeProofs RangeProofs2 ChunkSpec ChunkProofs ChunkProofs2 ChunkProofs3.
Unset Implicit Arguments.

Section RangeChunk.
Context {C : Cfg}.
Notation T := (tok C).
Notation E := (Err C).
Notation nonempty := consumed_some.
Variable EL : eoi_laws C.
Variable L : lawful C.
Variable SL : is_slice (C:=C).

Lemma slice_len (l : list T) : range_len l = length l.
Proof. induction l as [|t l IH]; [reflexivity|]. change (range_len (t :: l)) with (width C t + range_len l). rewrite IH, SL. reflexivity. Qed.
Lemma slice_split : forall (l : list T) n, split_width n l = if n <=? length l then inl (firstn n l, skipn n l) else inr (se_eoi C).
Proof.
  induction l as [|t l IH]; intros [|n]; try reflexivity. cbn [split_width]. rewrite SL. cbn [Nat.eqb]. change (1 <=? S n) with true. cbn iota.
  replace (S n - 1) with n by lia. rewrite IH. change (S n <=? length (t :: l)) with (n <=? length l). destruct (n <=? length l); reflexivity.
Qed.
Lemma slice_uncons n (l : list T) pos f : uncons_range n (Inp l pos f) =
  if n <=? length l then (inl (firstn n l), Inp (skipn n l) (pos_after pos (firstn n l)) f) else (inr (se_eoi C), Inp l pos f).
Proof. unfold uncons_range. cbn [rest]. rewrite slice_split. destruct (n <=? length l); reflexivity. Qed.
Lemma firstn_ext {X} n (l m : list X) : n <= length l -> firstn n (l ++ m) = firstn n l.
Proof. intros H. rewrite firstn_app. replace (n - length l) with 0 by lia. cbn. apply app_nil_r. Qed.
Lemma skipn_ext {X} n (l m : list X) : n <= length l -> skipn n (l ++ m) = skipn n l ++ m.
Proof. intros H. rewrite skipn_app. replace (n - length l) with 0 by lia. reflexivity. Qed.
Lemma le_ext {X} n (l m : list X) : n <= length l -> n <=? length (l ++ m) = true.
Proof. intros H. apply Nat.leb_le. rewrite app_length. lia. Qed.
Lemma nonempty_firstn {X} n (l : list X) : n <= length l -> nonempty (firstn n l) = negb (n =? 0).
Proof. destruct n, l; cbn; try lia; reflexivity. Qed.

(** * take *)
Lemma take_eq n r pos f : s_uncons_range (C:=C) (Inp r pos f) n = if n <=? length r
  then (okr (negb (n =? 0)) (firstn n r), Inp (skipn n r) (pos_after pos (firstn n r)) f)
  else (wrap_stream_error (Inp r pos f) (se_eoi C), Inp r pos f).
Proof. unfold s_uncons_range. rewrite slice_uncons. destruct (n <=? length r); [|reflexivity]. destruct (n =? 0); reflexivity. Qed.

Lemma always_take n f pos (r : list T) : n <= length r ->
  always_ok f (fun i => Done (s_uncons_range (C:=C) i n)) pos (firstn n r) (skipn n r) (firstn n r).
Proof.
  intros Hn m Hm r0 i0 Q. rewrite take_eq in Q. rewrite app_assoc, firstn_skipn in Q. rewrite le_ext, firstn_ext, skipn_ext in Q by exact Hn.
  inversion Q; subst. rewrite nonempty_firstn by exact Hn. auto.
Qed.

Lemma chunk_take n : chunk_by true true false (negb (n =? 0)) ucln ures (@take C n).
Proof.
  apply chunk_lazy; [apply noneoi_no|apply noneoi_no|]. intros f pos r res i' Q. assert (Q' : s_uncons_range (Inp r pos f) n = (res, i')) by (unfold take_lazy in Q; congruence). clear Q. rewrite take_eq in Q'.
  destruct (n <=? length r) eqn:Hn.
  - apply Nat.leb_le in Hn. inversion Q'; subst.
    assert (Fin : (exists r1, r = r1 ++ skipn n r /\ Inp (skipn n r) (pos_after pos (firstn n r)) f = Inp (skipn n r) (pos_after (pos_after pos []) r1) f /\
      always_ok f (take_lazy n) pos ([] ++ r1) (skipn n r) (firstn n r) /\ (@nil T = [] -> negb (n =? 0) = nonempty r1)) /\
      ucln f tt /\ (negb (n =? 0) = true -> f = true -> r <> [])).
    { split; [|split; [exact I|intros Hz _ ->; destruct n; [discriminate|cbn in Hn; lia]]].
      exists (firstn n r). split; [symmetry; apply firstn_skipn|]. split; [reflexivity|]. split; [apply always_take; exact Hn|].
      intros _. symmetry. apply nonempty_firstn. exact Hn. }
    destruct (n =? 0); exact Fin.
  - apply Nat.leb_gt in Hn. unfold wrap_stream_error in Q'. cbn [ipart ipos] in Q'. destruct f; inversion Q'; subst.
    + left. split; [reflexivity|]. split; [rewrite (el_from EL); apply (el_se EL)|]. exists []. cbn. repeat split; auto.
    + split; [reflexivity|]. split; [discriminate|]. split; [auto|]. split; [intros; exact I|].
      intros m [Hm|Hm]; [discriminate|]. subst m. intros r0 i0 Q. assert (Q2 : s_uncons_range (Inp (([] ++ r) ++ []) pos false) n = (r0, i0)) by (unfold take_lazy in Q; congruence). clear Q. rewrite take_eq in Q2.
      rewrite app_nil_r in Q2. cbn [app] in Q2. apply Nat.leb_gt in Hn. rewrite Hn in Q2. unfold wrap_stream_error in Q2. cbn [ipart] in Q2. inversion Q2. auto.
Qed.

(** * range *)
Lemma chunk_range s : s <> [] -> chunk_by true true false true ucln ures (@range C s).
Proof.
  intros Hs. apply chunk_lazy; [apply (noneoi_expected EL)|apply noneoi_no|]. intros f pos r res i' Q. rewrite slice_uncons, slice_len in Q.
  assert (Ext : forall m, length s <= length r -> firstn (length s) (r ++ m) = firstn (length s) r) by (intros; apply firstn_ext; auto).
  destruct (length s <=? length r) eqn:Hn.
  - pose proof Hn as Hn'. apply Nat.leb_le in Hn'. destruct (list_eqb (tok_eqb C) (firstn (length s) r) s) eqn:He; inversion Q; subst.
    + split; [|split; [exact I|intros _ _ ->; destruct s; [congruence|cbn in Hn'; lia]]].
      exists (firstn (length s) r). cbn [rest]. split; [symmetry; apply firstn_skipn|]. split; [reflexivity|]. split.
      * intros m Hm r0 i0 Q2. cbn [app] in Q2. rewrite app_assoc, firstn_skipn, slice_uncons, slice_len in Q2. rewrite le_ext, firstn_ext, skipn_ext in Q2 by exact Hn'. rewrite He in Q2.
        inversion Q2; subst. cbn [app]. rewrite nonempty_firstn by exact Hn'. destruct s; [congruence|]. auto.
      * intros _. rewrite nonempty_firstn by exact Hn'. destruct s; [congruence|reflexivity].
    + split; [reflexivity|]. split; [intros _; split; [apply (el_empty EL)|intros ->; destruct s; [congruence|cbn in Hn'; lia]]|]. split; [auto|]. split; [intros; exact I|].
      intros m Hm r0 i0 Q2. cbn [app] in Q2. rewrite slice_uncons, slice_len in Q2. rewrite le_ext, firstn_ext, skipn_ext in Q2 by exact Hn'. rewrite He in Q2.
      inversion Q2; subst. auto.
  - unfold wrap_stream_error in Q. cbn [ipart ipos] in Q. destruct f; inversion Q; subst.
    + left. split; [reflexivity|]. split; [rewrite (el_from EL); apply (el_se EL)|]. exists []. cbn. repeat split; auto.
    + split; [reflexivity|]. split; [discriminate|]. split; [auto|]. split; [intros; exact I|].
      intros m [Hm|Hm]; [discriminate|]. subst m. intros r0 i0 Q2. rewrite app_nil_r in Q2. cbn [app] in Q2. rewrite slice_uncons, slice_len, Hn in Q2.
      unfold wrap_stream_error in Q2. cbn [ipart] in Q2. inversion Q2. auto.
Qed.

(** * Numbers *)
Lemma read_tokens_ok : forall k (r : list T) pos f, k <= length r -> exists c,
  read_tokens k (Inp r pos f) = (okr c (firstn k r), Inp (skipn k r) (pos_after pos (firstn k r)) f).
Proof.
  induction k as [|k IH]; intros r pos f Hk; [exists false; reflexivity|]. destruct r as [|t r]; [cbn in Hk; lia|]. cbn in Hk.
  cbn [read_tokens]. unfold s_uncons, uncons. cbn [rest]. destruct (IH r (pos_step C pos t) f) as [c K]; [lia|]. unfold advance. cbn [ipos ipart pos_after fold_left].
  change (fold_left (pos_step C) [t] pos) with (pos_step C pos t). rewrite K. exists c. destruct c; reflexivity.
Qed.
Lemma read_tokens_short : forall k (r : list T) pos f, length r < k -> exists p j,
  read_tokens k (Inp r pos f) = (if f then CommitErr (e_from C p (se_eoi C)) else PeekErr (to_trk (e_from C p (se_eoi C))), j).
Proof.
  induction k as [|k IH]; intros r pos f Hk; [lia|]. cbn [read_tokens]. unfold s_uncons, uncons. cbn [rest]. destruct r as [|t r].
  - unfold wrap_stream_error. cbn [ipart ipos]. exists pos, (Inp [] pos f). destruct f; reflexivity.
  - cbn in Hk. destruct (IH r (pos_step C pos t) f) as [p [j K]]; [lia|]. unfold advance. cbn [ipos ipart pos_after fold_left].
    change (fold_left (pos_step C) [t] pos) with (pos_step C pos t). rewrite K. exists p, j. destruct f; reflexivity.
Qed.

Definition num_lazy {A} (code : T -> N) (k : nat) (dec : list N -> A) (i : input C) : outcome (PR A E * input C) :=
  omap (fun x => (from_std (fst x), snd x))
    (match read_tokens k i with
     | (CommitOk l, i') | (PeekOk l, i') => Done (into_std (CommitOk (dec (List.map code l))), i')
     | (CommitErr e, _) => Done (into_std (CommitErr e), i)
     | (PeekErr e, _) => Done (into_std (PeekErr e), i)
     end).
Lemma num_eq {A} (code : T -> N) k (dec : list N -> A) (r : list T) pos f : num_lazy code k dec (Inp r pos f) = if k <=? length r
  then Done (CommitOk (dec (List.map code (firstn k r))), Inp (skipn k r) (pos_after pos (firstn k r)) f)
  else num_lazy code k dec (Inp r pos f).
Proof.
  destruct (k <=? length r) eqn:Hn; [|reflexivity]. apply Nat.leb_le in Hn. destruct (read_tokens_ok k r pos f Hn) as [c Hc].
  unfold num_lazy. rewrite Hc. destruct c; reflexivity.
Qed.
Lemma num_short {A} (code : T -> N) k (dec : list N -> A) (r : list T) pos f : length r < k -> exists p,
  num_lazy code k dec (Inp r pos f) = Done (if f then CommitErr (e_from C p (se_eoi C)) else PeekErr (to_trk (e_from C p (se_eoi C))), Inp r pos f).
Proof. intros Hk. destruct (read_tokens_short k r pos f Hk) as [p [j Q]]. exists p. unfold num_lazy. rewrite Q. destruct f; reflexivity. Qed.

Lemma chunk_num_parser {A} (code : T -> N) k (dec : list N -> A) : k <> 0 -> chunk_by true true false true ucln ures (num_parser code k dec).
Proof.
  intros Hk. apply (chunk_lazy true false true (num_lazy code k dec)); [apply noneoi_no|apply noneoi_no|]. intros f pos r res i' Q.
  destruct (Nat.le_gt_cases k (length r)) as [Hn|Hn].
  - rewrite num_eq in Q. rewrite (proj2 (Nat.leb_le _ _) Hn) in Q. inversion Q; subst. split; [|split; [exact I|intros _ _ ->; cbn in Hn; lia]].
    exists (firstn k r). cbn [rest]. split; [symmetry; apply firstn_skipn|]. split; [reflexivity|]. split.
    + intros m Hm r0 i0 Q2. cbn [app] in Q2. rewrite app_assoc, firstn_skipn, num_eq in Q2. rewrite le_ext, firstn_ext, skipn_ext in Q2 by exact Hn.
      inversion Q2; subst. cbn [app]. rewrite nonempty_firstn by exact Hn. destruct k; [congruence|]. auto.
    + intros _. rewrite nonempty_firstn by exact Hn. destruct k; [congruence|reflexivity].
  - destruct (num_short code k dec r pos f Hn) as [p K]. rewrite K in Q. destruct f; inversion Q; subst.
    + left. split; [reflexivity|]. split; [rewrite (el_from EL); apply (el_se EL)|]. exists []. cbn. repeat split; auto.
    + split; [reflexivity|]. split; [discriminate|]. split; [auto|]. split; [intros; exact I|].
      intros m [Hm|Hm]; [discriminate|]. subst m. intros r0 i0 Q2. rewrite app_nil_r in Q2. cbn [app] in Q2.
      destruct (num_short code k dec r pos false Hn) as [p' K']. rewrite K' in Q2. inversion Q2. auto.
Qed.

(** * take_fn with a function which gives an option *)
Definition zcln (_ : bool) (d : nat) : Prop := d = 0.
Definition zres (_ : bool) (_ : Pos C) (l _ : list T) (d : nat) : Prop := l = [] /\ d = 0.
Definition by_option (g : list T -> option nat) (l : list T) : take_range := take_range_of_option (g l).

Lemma take_fn_found g r pos f first n : g r = Some n -> take_fn_run (by_option g) first (Inp r pos f) 0 =
  Done (fst (s_uncons_range (Inp r pos f) n), snd (s_uncons_range (Inp r pos f) n), 0).
Proof.
  intros Hg. unfold take_fn_run, by_option. assert (U : snd (uncons_range 0 (Inp r pos f)) = Inp r pos f) by (rewrite slice_uncons; reflexivity).
  destruct first; cbv zeta; rewrite ?U; cbn [rest]; rewrite Hg; cbn [take_range_of_option Nat.add]; destruct (s_uncons_range _ n) as [x y]; destruct (is_ok x); reflexivity.
Qed.
Lemma take_fn_missed g r pos f first : g r = None -> exists e, e_is_eoi C e = true /\ take_fn_run (by_option g) first (Inp r pos f) 0 =
  Done (if f || nonempty r then CommitErr e else PeekErr (to_trk e), Inp r pos f, 0).
Proof.
  intros Hg. unfold take_fn_run, by_option. assert (U : snd (uncons_range 0 (Inp r pos f)) = Inp r pos f) by (rewrite slice_uncons; reflexivity).
  exists (e_from C (pos_after pos r) (se_eoi C)). split; [rewrite (el_from EL); apply (el_se EL)|].
  destruct first; cbv zeta; rewrite ?U; cbn [rest ipos]; rewrite Hg; cbn [take_range_of_option Nat.add ipart]; rewrite slice_len; destruct f, r; reflexivity.
Qed.
Lemma take_fn_fresh g r pos f : fresh (take_fn (by_option g)) (Inp r pos f) = omap fst (take_fn_run (by_option g) true (Inp r pos f) 0).
Proof. reflexivity. Qed.

Lemma chunk_take_fn g : g [] = None -> (forall l n m, g l = Some n -> g (l ++ m) = Some n) ->
  chunk_by true true false true zcln zres (take_fn (by_option g)).
Proof.
  intros G0 G1. constructor; auto.
  - intros f. reflexivity.
  - intros f pos s Hs. split; [reflexivity|exact Hs].
  - intros _ f pos l k s [Hs _]. exact Hs.
  - apply noneoi_no.
  - apply noneoi_no.
  - intros f first pos l k r' s St out Q.
    assert (K : l = [] /\ s = 0) by (destruct first; [destruct St as [K1 [K2 K3]]; auto|exact St]). destruct K as [-> ->].
    change (take_fn_run (by_option g) first (Inp (k ++ r') pos f) 0 = Done out) in Q.
    generalize dependent (k ++ r'). intros r Q. destruct (g r) as [n|] eqn:Hg.
    + rewrite (take_fn_found g r pos f first n Hg), take_eq in Q. destruct (n <=? length r) eqn:Hn.
      * apply Nat.leb_le in Hn. cbn [fst snd] in Q.
        assert (Fin : (exists r1, r = r1 ++ skipn n r /\ Inp (skipn n r) (pos_after pos (firstn n r)) f = Inp (skipn n r) (pos_after (pos_after pos []) r1) f /\
          always_ok f (fresh (take_fn (by_option g))) pos ([] ++ r1) (skipn n r) (firstn n r) /\ (@nil T = [] -> negb (n =? 0) = nonempty r1)) /\
          zcln f 0 /\ (true = true -> f = true -> r <> [])).
        { split; [|split; [reflexivity|intros _ _ ->; congruence]].
          exists (firstn n r). split; [symmetry; apply firstn_skipn|]. split; [reflexivity|]. split; [|intros _; symmetry; apply nonempty_firstn; exact Hn].
          intros m Hm r0 i0 Q2. cbn [app] in Q2. rewrite app_assoc, firstn_skipn, take_fn_fresh, (take_fn_found g (r ++ m) pos false true n (G1 _ _ _ Hg)), take_eq in Q2.
          rewrite le_ext, firstn_ext, skipn_ext in Q2 by exact Hn. inversion Q2; subst. cbn [app]. rewrite nonempty_firstn by exact Hn. auto. }
        inversion Q; subst. destruct (n =? 0); exact Fin.
      * unfold wrap_stream_error in Q. cbn [ipart ipos fst snd] in Q. destruct f; inversion Q; subst.
        -- left. split; [reflexivity|]. split; [rewrite (el_from EL); apply (el_se EL)|]. exists []. cbn. repeat split; auto.
        -- split; [reflexivity|]. split; [discriminate|]. split; [auto|]. split; [intros; reflexivity|].
           intros m [Hm|Hm]; [discriminate|]. subst m. intros r0 i0 Q2. rewrite app_nil_r in Q2. cbn [app] in Q2.
           rewrite take_fn_fresh, (take_fn_found g r pos false true n Hg), take_eq, Hn in Q2. unfold wrap_stream_error in Q2. cbn in Q2. inversion Q2. auto.
    + destruct (take_fn_missed g r pos f first Hg) as [e [He K]]. rewrite K in Q. destruct f; cbn [orb] in Q; [|destruct (nonempty r) eqn:Hr].
      * inversion Q; subst. left. split; [reflexivity|]. split; [exact He|]. exists []. cbn. repeat split; auto.
      * inversion Q; subst. right. split; [discriminate|]. intros m [Hm|Hm]; [discriminate|]. subst m. intros r0 i0 Q2. rewrite app_nil_r in Q2. cbn [app] in Q2.
        destruct (take_fn_missed g r pos false true Hg) as [e2 [_ K2]]. rewrite take_fn_fresh, K2, Hr in Q2. cbn in Q2. inversion Q2. auto.
      * inversion Q; subst. split; [reflexivity|]. split; [discriminate|]. split; [auto|]. split; [intros; reflexivity|].
        intros m [Hm|Hm]; [discriminate|]. subst m. intros r0 i0 Q2. rewrite app_nil_r in Q2. cbn [app] in Q2.
        destruct (take_fn_missed g r pos false true Hg) as [e2 [_ K2]]. rewrite take_fn_fresh, K2, Hr in Q2. cbn in Q2. inversion Q2. auto.
Qed.

(** * take_until_range *)
Lemma tur_absent_some r before e d : forall (l : list T) pre tc, rest before = pre ++ l -> ~ occurs r l ->
  tur_loop r before (Some (e, d)) tc l (pos_after (ipos before) pre) = Done (wrap_stream_error before e, before, d).
Proof.
  induction l as [|t l IH]; intros pre tc Hr Hn; rewrite tur_loop_eq; unfold uncons_range; cbn [rest]; destruct (split_width (range_len r) _) as [[xs b]|e'] eqn:Hs.
  - exfalso. destruct (split_width_ok _ _ _ _ Hs) as [K1 K2]. symmetry in K1. apply app_eq_nil in K1. destruct K1 as [-> ->]. symmetry in K2. apply (range_len_0 L) in K2.
    subst r. apply Hn. exists [], []. reflexivity.
  - reflexivity.
  - destruct (split_width_ok _ _ _ _ Hs) as [K1 K2]. destruct (list_eqb (tok_eqb C) xs r) eqn:He.
    + apply (list_eqb_iff L) in He. subst xs. exfalso. apply Hn. exists [], b. exact K1.
    + change (pos_step C (pos_after (ipos before) pre) t) with (pos_after (pos_after (ipos before) pre) [t]). rewrite <- pos_after_app.
      apply IH; [rewrite <- app_assoc; exact Hr|]. intros [b' [a ->]]. apply Hn. exists (t :: b'), a. reflexivity.
  - cbv zeta. cbn [fst snd]. change (pos_step C (pos_after (ipos before) pre) t) with (pos_after (pos_after (ipos before) pre) [t]). rewrite <- pos_after_app.
      apply IH; [rewrite <- app_assoc; exact Hr|]. intros [b' [a ->]]. apply Hn. exists (t :: b'), a. reflexivity.
Qed.
Lemma tur_absent_none r before : forall (l : list T) pre tc, rest before = pre ++ l -> ~ occurs r l -> exists d,
  tur_loop r before None tc l (pos_after (ipos before) pre) = Done (wrap_stream_error before (se_eoi C), before, d) /\
  d <= length pre + length l /\ length pre <= d /\ forall b a m, l ++ m = b ++ r ++ a -> d <= length pre + length b.
Proof.
  assert (Stop : forall l pre tc, rest before = pre ++ l -> ~ occurs r l -> length l < length r -> exists d,
    tur_loop r before None tc l (pos_after (ipos before) pre) = Done (wrap_stream_error before (se_eoi C), before, d) /\
    d <= length pre + length l /\ length pre <= d /\ forall b a m, l ++ m = b ++ r ++ a -> d <= length pre + length b).
  { intros l pre tc Hr Hn Hl. exists (length pre). split; [|split; [lia|split; [lia|intros; lia]]]. rewrite tur_loop_eq, slice_uncons, slice_len.
    rewrite (proj2 (Nat.leb_gt _ _) Hl). cbv zeta. assert (Hd : distance (Inp l (pos_after (ipos before) pre) (ipart before)) before = length pre).
    { unfold distance. cbn [rest]. rewrite Hr, !slice_len, app_length. lia. }
    rewrite Hd. destruct l as [|t l]; [reflexivity|]. change (pos_step C (pos_after (ipos before) pre) t) with (pos_after (pos_after (ipos before) pre) [t]). rewrite <- pos_after_app.
    apply tur_absent_some; [rewrite <- app_assoc; exact Hr|]. intros [b' [a ->]]. apply Hn. exists (t :: b'), a. reflexivity. }
  induction l as [|t l IH]; intros pre tc Hr Hn.
  - apply Stop; auto. destruct r; [exfalso; apply Hn; exists [], []; reflexivity|cbn; lia].
  - destruct (Nat.le_gt_cases (length r) (length (t :: l))) as [Hl|Hl]; [|apply Stop; auto].
    destruct (IH (pre ++ [t]) tc) as [d [D1 [D2 [D3 D4]]]]; [rewrite <- app_assoc; exact Hr|intros [b' [a ->]]; apply Hn; exists (t :: b'), a; reflexivity|].
    exists d. rewrite app_length in D2, D3, D4. cbn [length] in *. split; [|split; [lia|split; [lia|]]].
    + rewrite tur_loop_eq, slice_uncons, slice_len. cbn [length]. rewrite (proj2 (Nat.leb_le _ _) Hl). destruct (list_eqb (tok_eqb C) (firstn (length r) (t :: l)) r) eqn:He.
      * exfalso. apply (list_eqb_iff L) in He. apply Hn. exists [], (skipn (length r) (t :: l)). cbn [app]. rewrite <- He at 1. symmetry. apply firstn_skipn.
      * rewrite <- D1. rewrite pos_after_app. reflexivity.
    + intros b a m Q. destruct b as [|x b].
      * exfalso. cbn [app] in Q. apply Hn. exists [], (skipn (length r) (t :: l)). cbn [app].
        assert (F : firstn (length r) (t :: l) = r).
        { transitivity (firstn (length r) ((t :: l) ++ m)); [symmetry; apply firstn_ext; cbn [length]; lia|]. cbn [app]. rewrite Q, firstn_app, Nat.sub_diag, firstn_all. apply app_nil_r. }
        rewrite <- F at 1. symmetry. apply firstn_skipn.
      * inversion Q; subst. cbn [length]. specialize (D4 _ _ _ H1). lia.
Qed.

Definition tcln (_ : bool) (d : nat) : Prop := d = 0.
Definition tres (r : list T) (_ : bool) (_ : Pos C) (l k : list T) (d : nat) : Prop :=
  l = [] /\ d <= length k /\ forall b a m, k ++ m = b ++ r ++ a -> d <= length b.

Lemma first_ext (r l b a m : list T) : first_occurrence r l b a -> first_occurrence r (l ++ m) b (a ++ m).
Proof.
  intros [H1 H2]. split; [rewrite H1, <- !app_assoc; reflexivity|]. intros b' a' Q. destruct (Nat.le_gt_cases (length b) (length b')) as [K|K]; [exact K|].
  assert (Hl : length b' + length r <= length l) by (rewrite H1, !app_length; lia).
  apply (H2 b' (skipn (length b' + length r) l)). rewrite app_assoc. rewrite <- (firstn_skipn (length b' + length r) l) at 1. f_equal.
  transitivity (firstn (length b' + length r) (l ++ m)); [symmetry; apply firstn_ext; exact Hl|]. rewrite Q, app_assoc, <- app_length, firstn_app, Nat.sub_diag, firstn_all. apply app_nil_r.
Qed.
Lemma first_skip (r k b a : list T) d : d <= length k -> (forall b a, k = b ++ r ++ a -> d <= length b) -> first_occurrence r (skipn d k) b a ->
  first_occurrence r k (firstn d k ++ b) a.
Proof.
  intros Hd HI [H1 H2]. split; [rewrite <- app_assoc, <- H1; symmetry; apply firstn_skipn|]. intros b' a' Q. pose proof (HI _ _ Q) as Hb.
  rewrite app_length, firstn_length_le by exact Hd. specialize (H2 (skipn d b') a'). rewrite skipn_length in H2. enough (length b <= length b' - d) by lia.
  apply H2. rewrite Q, skipn_app. replace (d - length b') with 0 by lia. reflexivity.
Qed.

Lemma chunk_take_until_range s : s <> [] -> chunk_by false true false true tcln (tres s) (take_until_range s).
Proof.
  intros Hs. constructor; auto.
  - intros f. reflexivity.
  - intros f pos d Hd. unfold tcln in Hd. subst d. split; [reflexivity|]. split; [cbn; lia|intros; lia].
  - intros _ f pos l k d [Hd _]. exact Hd.
  - apply noneoi_no.
  - apply noneoi_no.
  - intros f first pos l k r' d St out Q.
    assert (K : l = [] /\ d <= length (k ++ r') /\ forall b a m, (k ++ r') ++ m = b ++ s ++ a -> d <= length b).
    { destruct first; cbn in St.
      - destruct St as [-> [-> St]]. unfold tcln in St. subst d. split; [reflexivity|]. split; [lia|intros; lia].
      - destruct St as [K1 [K2 K3]]. split; [exact K1|]. split; [rewrite app_length; lia|]. intros b a m Z. rewrite <- app_assoc in Z. apply (K3 _ _ _ Z). }
    clear St. destruct K as [-> [K2 K3]]. change (pos_after pos []) with pos in Q.
    change (take_until_range_run s first (Inp (k ++ r') pos f) d = Done out) in Q. generalize dependent (k ++ r'). intros r Q K2 K3. clear k r'.
    assert (R : take_until_range_run s first (Inp r pos f) d = tur_loop s (Inp r pos f) None d (skipn d r) (pos_after pos (firstn d r))).
    { unfold take_until_range_run. rewrite take_eq, (proj2 (Nat.leb_le _ _) K2). destruct (d =? 0); reflexivity. }
    rewrite R in Q. clear R.
    assert (Hr : rest (Inp r pos f) = firstn d r ++ skipn d r) by (cbn; symmetry; apply firstn_skipn).
    assert (K3' : forall b a, r = b ++ s ++ a -> d <= length b) by (intros b a Z; apply (K3 b a []); rewrite app_nil_r; exact Z).
    destruct (take_until_range_spec L s) as [S1 [S2 S3]]. destruct (occurs_first s (prefix_dec L s) (skipn d r)) as [[b [a H]]|H].
    + pose proof (tur_found L s (Inp r pos f) (skipn d r) (firstn d r) None d b a Hr H) as K. cbn [ipos] in K. rewrite K in Q. clear K.
      pose proof (first_skip s r b a d K2 K3' H) as FO. remember (firstn d r ++ b) as v eqn:Hv.
      assert (Fin : (exists r1, r = r1 ++ s ++ a /\ Inp (s ++ a) (pos_after pos v) f = Inp (s ++ a) (pos_after (pos_after pos []) r1) f /\
        always_ok f (fresh (take_until_range s)) pos ([] ++ r1) (s ++ a) v /\ (@nil T = [] -> nonempty v = nonempty r1)) /\
        tcln f (if nonempty v then 0 else d) /\ (true = true -> f = true -> r <> [])).
      { split; [|split].
        - exists v. split; [apply FO|]. split; [reflexivity|]. split; [|reflexivity]. intros m Hm r0 i0 Z. cbn [app] in Z |- *.
          replace (v ++ (s ++ a) ++ m) with (r ++ m) in Z by (rewrite (proj1 FO) at 1; rewrite <- !app_assoc; reflexivity).
          assert (W : succeeds (fresh (take_until_range s)) (Inp (r ++ m) pos false) (nonempty v) v (Inp ((s ++ a) ++ m) (pos_after pos v) false)).
          { apply S1. split; [|split; [exists (a ++ m); apply first_ext; exact FO|reflexivity]]. split; [|split; reflexivity]. cbn [rest].
            rewrite (proj1 FO), <- !app_assoc. reflexivity. }
          unfold succeeds in W. rewrite W in Z. inversion Z. auto.
        - unfold tcln. destruct v as [|x v]; [|reflexivity]. symmetry in Hv. apply app_eq_nil in Hv. destruct Hv as [Hv _].
          destruct d; [reflexivity|]. destruct r; [cbn in K2; lia|discriminate].
        - intros _ _ ->. destruct FO as [FO _]. symmetry in FO. apply app_eq_nil in FO. destruct FO as [_ FO]. apply app_eq_nil in FO. apply Hs. apply FO. }
      inversion Q; subst out. unfold advance. cbn [ipos ipart rest]. destruct (nonempty v); exact Fin.
    + destruct (tur_absent_none s (Inp r pos f) (skipn d r) (firstn d r) d Hr H) as [d' [D1 [D2 [D3 D4]]]]. cbn [ipos] in D1. rewrite D1 in Q. clear D1.
      rewrite firstn_length_le in D2, D3, D4 by exact K2. rewrite skipn_length in D2.
      assert (Habs : ~ occurs s r). { intros [b [a Z]]. pose proof (K3' _ _ Z) as Hb. apply H. exists (skipn d b), a. rewrite Z, skipn_app. replace (d - length b) with 0 by lia. reflexivity. }
      unfold wrap_stream_error in Q. cbn [ipart ipos] in Q. destruct f; inversion Q; subst.
      * left. split; [reflexivity|]. split; [rewrite (el_from EL); apply (el_se EL)|]. exists []. cbn [app rest]. split; [reflexivity|]. split; [reflexivity|]. split; [auto|].
        intros g. split; [reflexivity|]. split; [lia|]. intros b a m Z. pose proof (K3 _ _ _ Z) as Hb. specialize (D4 (skipn d b) a m). rewrite skipn_length in D4.
        enough (d' <= d + (length b - d)) by lia. apply D4.
        transitivity (skipn d (r ++ m)); [symmetry; apply skipn_ext; exact K2|]. rewrite Z, skipn_app. replace (d - length b) with 0 by lia. reflexivity.
      * split; [reflexivity|]. split; [discriminate|]. split; [auto|]. split; [discriminate|]. intros m [Hm|Hm]; [discriminate|]. subst m. intros r0 i0 Z.
        rewrite app_nil_r in Z. cbn [app] in Z. assert (W : fails (fresh (take_until_range s)) (Inp r pos false) false) by (apply S2; split; [exact Habs|reflexivity]).
        destruct W as [e [r1 [i1 [W1 [W2 W3]]]]]. rewrite W1 in Z. inversion Z; subst. destruct r0; cbn in W2, W3 |- *; try discriminate; auto.
Qed.
End RangeChunk.
