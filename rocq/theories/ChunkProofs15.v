(** Proofs for C29: searching for a sequence of bytes, on slices. *)
From Coq Require Import String List Bool Arith NArith Lia.
Import ListNotations.
From Verif Require Import Base Parser Token Combinator Sequence Choice Repeat RangeP ByteP Spec SeqSpec ChoiceSpec TidySpec RepeatSpec AgreeSpec RangeSpec.
From Verif Require Import ResultProofs SeqProofs CombProofs ChoiceProofs CombProofs2 RepeatProofs RangeProofs RangeProofs2 ChunkSpec ChunkProofs ChunkProofs2 ChunkProofs3 ChunkProofs8.
Unset Implicit Arguments.

Lemma starts_more (s r m : list N) : starts_with N.eqb s r = true -> starts_with N.eqb s (r ++ m) = true.
Proof. revert r. induction s as [|x s IH]; intros [|y r]; cbn; auto; try discriminate. intros H. apply andb_true_iff in H. destruct H as [H1 H2]. rewrite H1, (IH _ H2). reflexivity. Qed.
Lemma starts_short (s r m : list N) : length s <= length r -> starts_with N.eqb s (r ++ m) = starts_with N.eqb s r.
Proof. revert r. induction s as [|x s IH]; intros [|y r]; cbn; auto; try lia. intros H. rewrite IH by lia. reflexivity. Qed.
Lemma go_more p s m : forall h k, memslice_go N.eqb p s h = Some k -> memslice_go N.eqb p s (h ++ m) = Some k.
Proof.
  induction h as [|x h IH]; intros k; cbn; [discriminate|]. destruct (N.eqb x p && starts_with N.eqb s h) eqn:H1.
  - apply andb_true_iff in H1. destruct H1 as [H1 H2]. rewrite H1, (starts_more _ _ _ H2). auto.
  - destruct (memslice_go N.eqb p s h) as [j|] eqn:H2; [|discriminate]. cbn. intros H. inversion H; subst. destruct (N.eqb x p) eqn:H3; cbn [andb] in *.
    + destruct (Nat.le_gt_cases (length s) (length h)) as [H4|H4]; [rewrite (starts_short _ _ _ H4), H1, (IH j eq_refl); reflexivity|]. exfalso.
      assert (K : forall h k, memslice_go N.eqb p s h = Some k -> length s <= length h).
      { clear. induction h as [|y h IH]; intros k; cbn; [discriminate|]. destruct (N.eqb y p && starts_with N.eqb s h) eqn:H1.
        - intros _. apply andb_true_iff in H1. destruct H1 as [_ H1]. clear -H1. enough (length s <= length h) by lia. revert h H1. induction s as [|x s IH]; intros [|z h]; cbn; try discriminate; try lia.
          intros H. apply andb_true_iff in H. destruct H as [_ H]. apply IH in H. lia.
        - destruct (memslice_go N.eqb p s h) as [j|] eqn:H2; [|discriminate]. intros _. specialize (IH _ eq_refl). lia. }
      apply K in H2. lia.
    + rewrite (IH j eq_refl). reflexivity.
Qed.
Lemma go_next p s m : forall h k, memslice_go N.eqb p s h = None -> memslice_go N.eqb p s (h ++ m) = Some k -> length h - length s <= k.
Proof.
  induction h as [|x h IH]; intros k; [cbn; lia|]. cbn [memslice_go app]. destruct (N.eqb x p && starts_with N.eqb s h) eqn:H1; [discriminate|].
  destruct (memslice_go N.eqb p s h) as [j|] eqn:H2; [discriminate|]. intros _. destruct (N.eqb x p && starts_with N.eqb s (h ++ m)) eqn:H3.
  - intros H. inversion H; subst. destruct (Nat.le_gt_cases (length s) (length h)) as [H4|H4]; [rewrite (starts_short _ _ _ H4) in H3; congruence|]. change (length (x :: h)) with (S (length h)). lia.
  - destruct (memslice_go N.eqb p s (h ++ m)) as [j|] eqn:H4; [|discriminate]. cbn [option_map]. intros H. inversion H; subst. specialize (IH j eq_refl eq_refl). change (length (x :: h)) with (S (length h)). lia.
Qed.
Lemma go_skip p s : forall x y, (forall k, memslice_go N.eqb p s (x ++ y) = Some k -> length x <= k) ->
  memslice_go N.eqb p s (x ++ y) = option_map (fun k => length x + k) (memslice_go N.eqb p s y).
Proof.
  induction x as [|a x IH]; intros y H; cbn [app length]; [destruct (memslice_go N.eqb p s y); reflexivity|]. cbn [memslice_go app] in H |- *.
  destruct (N.eqb a p && starts_with N.eqb s (x ++ y)); [specialize (H 0 eq_refl); cbn in H; lia|]. rewrite IH.
  - destruct (memslice_go N.eqb p s y); reflexivity.
  - intros k K. rewrite K in H. specialize (H (S k) eq_refl). cbn in H. lia.
Qed.

Section BytesChunk.
Context {C : Cfg}.
Notation T := (tok C).
Notation E := (Err C).
Notation nonempty := consumed_some.
Variable EL : eoi_laws C.
Variable L : lawful C.
Variable SL : is_slice (C:=C).
Variable code : T -> N.
Variables (p : N) (s : list N).
Hypothesis Hs : 1 <= length s.

(** The offset of [take_until_bytes]: nothing begins before it, and it is not at the end. *)
Definition at_offset (d : nat) (k : list T) : Prop := d = 0 \/ (d < length k /\ forall m j, memslice_go N.eqb p s (List.map code (k ++ m)) = Some j -> d <= j).
Definition bres (_ : bool) (_ : Pos C) (l k : list T) (d : nat) : Prop := l = [] /\ at_offset d k.
Definition tub : parser C nat (list T) := (take_fn (fun haystack : list T => let h := List.map code haystack in
    match memslice N.eqb (p :: s) h with Some i => Found i | None => NotFound (length h - (length (p :: s) - 1)) end)).
Notation go l := (memslice_go N.eqb p s (List.map code l)).

Lemma go_len : forall h k, memslice_go N.eqb p s h = Some k -> k < length h.
Proof.
  induction h as [|x h IH]; intros k; cbn; [discriminate|]. destruct (_ && _); [intros K; inversion K; lia|]. destruct (memslice_go N.eqb p s h) as [j|]; [|discriminate].
  intros K. inversion K; subst. specialize (IH _ eq_refl). lia.
Qed.
Lemma tub_run first (d : nat) r pos f : (first = true -> d = 0) -> d <= length r -> (forall j, go r = Some j -> d <= j) ->
  match go r with
  | Some n => p_run tub first (Inp r pos f) d = Done (okr (negb (n =? 0)) (firstn n r), Inp (skipn n r) (pos_after pos (firstn n r)) f, 0)
  | None => exists e, e_is_eoi C e = true /\ p_run tub first (Inp r pos f) d =
      Done (if f || nonempty (skipn d r) then CommitErr e else PeekErr (to_trk e), Inp r pos f, length r - d - length s)
  end.
Proof.
  intros Hd Hl Hj. unfold tub. cbn [p_run take_fn mk_mode]. unfold take_fn_run. cbv zeta.
  assert (U : (if first then 0 else d) = d) by (destruct first; [symmetry; auto|reflexivity]). rewrite U.
  assert (V : (if first then Inp r pos f else snd (uncons_range d (Inp r pos f))) = Inp (skipn d r) (pos_after pos (firstn d r)) f).
  { destruct first; [rewrite (Hd eq_refl); reflexivity|]. rewrite (slice_uncons SL). apply Nat.leb_le in Hl. rewrite Hl. reflexivity. }
  rewrite V. cbn [rest ipos ipart]. cbn [memslice].
  assert (G : go r = option_map (fun k => d + k) (go (skipn d r))).
  { rewrite <- (firstn_skipn d r) at 1. rewrite map_app, go_skip.
    - rewrite map_length, firstn_length_le by exact Hl. reflexivity.
    - intros k K. rewrite <- map_app, firstn_skipn in K. rewrite map_length, firstn_length_le by exact Hl. auto. }
  rewrite G. destruct (go (skipn d r)) as [j|] eqn:Q; cbn [option_map].
  - pose proof (go_len _ _ Q) as Hq. rewrite map_length, skipn_length in Hq. rewrite (take_eq SL). assert (Z : d + j <=? length r = true) by (apply Nat.leb_le; lia). rewrite Z.
    rewrite okr_is_ok. reflexivity.
  - exists (e_from C (pos_after (pos_after pos (firstn d r)) (skipn d r)) (se_eoi C)). split; [rewrite (el_from EL); apply (el_se EL)|].
    rewrite (slice_len SL), map_length, skipn_length. cbn [length]. rewrite Nat.sub_succ, Nat.sub_0_r.
    assert (B : negb f && (length r - d =? 0) = negb (f || nonempty (skipn d r))).
    { rewrite negb_orb. f_equal. rewrite <- skipn_length. destruct (skipn d r); reflexivity. }
    rewrite B. destruct (f || nonempty (skipn d r)); reflexivity.
Qed.

Lemma tub_fresh r pos : match go r with
  | Some n => fresh tub (Inp r pos false) = Done (okr (negb (n =? 0)) (firstn n r), Inp (skipn n r) (pos_after pos (firstn n r)) false)
  | None => exists e, fresh tub (Inp r pos false) = Done (if nonempty r then CommitErr e else PeekErr (to_trk e), Inp r pos false)
  end.
Proof.
  pose proof (tub_run true 0 r pos false (fun _ => eq_refl) ltac:(lia) ltac:(intros; lia)) as K. 
  assert (U : fresh tub (Inp r pos false) = omap fst (p_run tub true (Inp r pos false) 0)) by reflexivity. rewrite U. clear U.
  destruct (go r) as [n|]; [rewrite K; reflexivity|]. destruct K as [e [_ K]]. exists e. rewrite K. cbn [orb skipn]. destruct (nonempty r); reflexivity.
Qed.
Lemma chunk_tub : chunk_by true true false true zcln bres tub.
Proof.
  constructor; auto.
  - intros f. reflexivity.
  - intros f pos d Hd. split; [reflexivity|left; exact Hd].
  - intros _ f pos l k d [H _]. exact H.
  - apply noneoi_no.
  - apply noneoi_no.
  - intros f first pos l k r' d St out Q.
    assert (K : l = [] /\ (first = true -> d = 0) /\ (d = 0 \/ d < length (k ++ r')) /\ forall m j, go ((k ++ r') ++ m) = Some j -> d <= j).
    { destruct first.
      - destruct St as [K1 [K2 K3]]. unfold zcln in K3. split; [exact K1|]. split; [auto|]. split; [auto|intros; lia].
      - destruct St as [K1 K2]. split; [exact K1|]. split; [discriminate|]. destruct K2 as [->|[K2 K3]]; [split; [auto|intros; lia]|]. split; [right; rewrite app_length; lia|].
        intros m j K. rewrite <- app_assoc in K. eauto. }
    destruct K as [-> [K1 [K2 K3]]]. generalize dependent (k ++ r'). intros r Q K2 K3.
    assert (K4 : d <= length r) by lia. assert (K5 : forall j, go r = Some j -> d <= j) by (intros j K; apply (K3 [] j); rewrite app_nil_r; exact K).
    pose proof (tub_run first d r pos f K1 K4 K5) as R. change (pos_after pos []) with pos in Q. destruct (go r) as [n|] eqn:Hg.
    + rewrite R in Q. pose proof (go_len _ _ Hg) as Hn. rewrite map_length in Hn.
      assert (Fin : (exists r1, r = r1 ++ skipn n r /\ Inp (skipn n r) (pos_after pos (firstn n r)) f = Inp (skipn n r) (pos_after (pos_after pos []) r1) f /\
          always_ok f (fresh tub) pos ([] ++ r1) (skipn n r) (firstn n r) /\ (@nil T = [] -> negb (n =? 0) = nonempty r1)) /\
          zcln f 0 /\ (true = true -> f = true -> r <> [])).
      { split; [|split; [reflexivity|intros _ _ ->; cbn in Hn; lia]].
        exists (firstn n r). split; [symmetry; apply firstn_skipn|]. split; [reflexivity|]. split; [|intros _; symmetry; apply nonempty_firstn; lia].
        intros m Hm r0 i0 Q2. cbn [app] in Q2. rewrite app_assoc, firstn_skipn in Q2. pose proof (tub_fresh (r ++ m) pos) as R2. rewrite map_app, (go_more _ _ _ _ _ Hg) in R2.
        rewrite R2, firstn_ext, skipn_ext in Q2 by lia. inversion Q2; subst. cbn [app]. rewrite nonempty_firstn by lia. auto. }
      inversion Q; subst. destruct (n =? 0); exact Fin.
    + destruct R as [e [He R]]. rewrite R in Q.
      assert (AE : forall c, c = nonempty r -> f = false -> always_err f (fresh tub) pos ([] ++ r) c).
      { intros c -> -> m [Hm|Hm]; [discriminate|]. subst m. intros r0 i0 Q2. rewrite app_nil_r in Q2. cbn [app] in Q2. pose proof (tub_fresh r pos) as R2. rewrite Hg in R2.
        destruct R2 as [e2 R2]. rewrite R2 in Q2. inversion Q2. destruct (nonempty r); auto. }
      assert (NE : nonempty (skipn d r) = nonempty r).
      { destruct K2 as [->|K2]; [reflexivity|]. destruct (skipn d r) eqn:Z; [apply (f_equal (@length T)) in Z; rewrite skipn_length in Z; cbn in Z; lia|]. destruct r; [cbn in K2; lia|reflexivity]. }
      rewrite NE in Q. destruct f; cbn [orb] in Q.
      * inversion Q; subst. left. split; [reflexivity|]. split; [exact He|]. exists []. split; [reflexivity|]. split; [reflexivity|]. split; [reflexivity|]. intros g. split; [reflexivity|].
        cbn [rest]. destruct r as [|t r]; [left; cbn; lia|]. right. split; [cbn [length]; lia|]. intros m j K.
        destruct (Nat.le_gt_cases (length (t :: r) - d - length s) j) as [|Z]; [assumption|]. exfalso. pose proof (K3 _ _ K) as K6.
        rewrite map_app in K. pose proof (go_next _ _ _ _ _ Hg K) as K7. rewrite map_length in K7. lia.
      * destruct (nonempty r) eqn:Hr.
        -- inversion Q; subst. right. split; [discriminate|]. apply AE; auto.
        -- inversion Q; subst. split; [reflexivity|]. split; [discriminate|]. split; [auto|]. split; [intros _; unfold zcln; destruct r; [cbn; lia|discriminate]|]. apply AE; auto.
Qed.
End BytesChunk.

Lemma chunk_take_until_bytes {C : Cfg} (EL : eoi_laws C) (SL : is_slice (C:=C)) (code : tok C -> N) needle : 2 <= length needle ->
  exists Res, chunk_by true true false true zcln Res (take_until_bytes (List.map code) needle).
Proof.
  destruct needle as [|p s]; [cbn; lia|]. intros H. exists (bres code p s). change (take_until_bytes (List.map code) (p :: s)) with (parser_fn (tub code p s)).
  eapply chunk_parser_fn. apply (chunk_tub EL SL). cbn in H. lia.
Qed.
