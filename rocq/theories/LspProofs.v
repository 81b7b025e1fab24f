(** Proofs for C62: the language server decoder. *)
From Coq Require Import String List Bool Arith NArith Lia.
Import ListNotations.
From Verif Require Import Base Parser Errors Token Combinator Sequence Choice Repeat RangeP ByteP DecodeM Instances LspM LspSpec.
From Verif Require Import Spec SeqSpec ChoiceSpec TidySpec RepeatSpec AgreeSpec RangeSpec LibSpec ChunkSpec DecodeSpec.
From Verif Require Import ResultProofs TokenProofs SeqProofs CombProofs ChoiceProofs CombProofs2 RepeatProofs RangeProofs RangeProofs2 RepeatProofs4 ByteProofs TidyProofs ForwardProofs DecodeProofs.
From Verif Require Import ChunkProofs ChunkProofs2 ChunkProofs3 ChunkProofs4 ChunkProofs6 ChunkProofs7 ChunkProofs8.
Unset Implicit Arguments.

Section Decoding.
Context {C : Cfg}.
Notation T := (tok C).
Notation E := (Err C).
Variable EL : eoi_laws C.

(** More can be known about the states in which a parser waits. *)
Lemma chunk_stronger x a n h {S A} Cln Res (W : list T -> S -> Prop) (p : parser C S A) : chunk_by x a n h Cln Res p ->
  (forall f s, Cln f s -> W [] s) ->
  (forall first pos l k r' s e i' s', started Cln Res true first pos l k s ->
     p_run p first (Inp (k ++ r') (pos_after pos l) true) s = Done (CommitErr e, i', s') -> W (rest i') s') ->
  chunk_by x a n h Cln (fun f pos l k s => Res f pos l k s /\ W k s) p.
Proof.
  intros H W0 WR. destruct H. constructor; auto.
  - intros f pos s HC. split; eauto.
  - intros Ha f pos l k s [K _]. eauto.
  - intros f first pos l k r' s St out E0.
    assert (St' : started Cln Res f first pos l k s) by (destruct first; cbn in *; tauto).
    specialize (cb_run _ _ _ _ _ _ _ St' _ E0). destruct out as [[res i'] s']. unfold fits in *. destruct res as [v|v|e|e]; auto.
    destruct cb_run as [[F1 [F2 [r1 [F3 [F4 [F5 F6]]]]]]|F]; [left|right; exact F]. split; [exact F1|]. split; [exact F2|]. exists r1.
    split; [exact F3|]. split; [exact F4|]. split; [exact F5|]. intros g. split; [apply F6|]. subst f. eapply WR; [exact St'|exact E0].
Qed.

(** One call of [decode] on data that may continue. *)
Lemma decode_chunk x a n h {S A} Cln Res (p : parser C S A) : chunk_by x a n h Cln Res p ->
  forall pos l k c st res i' st', Res true pos l k st -> decode p (Inp (k ++ c) (pos_after pos l) true) st = Done (res, i', st') ->
  match res with
  | inl (o, n) => exists r1, k ++ c = r1 ++ rest i' /\ ipos i' = pos_after pos (l ++ r1) /\ n = distance i' (Inp (k ++ c) (pos_after pos l) true) /\
      match o with
      | Some v => always_ok true (fresh p) pos (l ++ r1) (rest i') v /\ forall g, Cln g st'
      | None => (forall g, Res g pos (l ++ r1) (rest i') st') /\ exists e, p_run p false (Inp (k ++ c) (pos_after pos l) true) st = Done (CommitErr e, i', st')
      end
  | inr e => exists c0, always_err true (fresh p) pos (l ++ k ++ c) c0
  end.
Proof.
  intros H pos l k c st res i' st' HR Hd. unfold decode, parse_with_state, parse_stream_partial in Hd.
  destruct (p_run p false (Inp (k ++ c) (pos_after pos l) true) st) as [[[r j] s']| |] eqn:Q; try discriminate.
  pose proof (cb_run H true false pos l k c st HR _ Q) as F. unfold fits in F. cbn [omap] in Hd.
  assert (OK : forall v, ((exists r1, k ++ c = r1 ++ rest j /\ j = Inp (rest j) (pos_after (pos_after pos l) r1) true /\
     always_ok true (fresh p) pos (l ++ r1) (rest j) v /\ (l = [] -> committed r = consumed_some r1)) /\ Cln true s' /\ (h = true -> true = true -> k ++ c <> [])) ->
     res = inl (Some v, distance j (Inp (k ++ c) (pos_after pos l) true)) -> j = i' -> s' = st' ->
     exists r1, k ++ c = r1 ++ rest i' /\ ipos i' = pos_after pos (l ++ r1) /\ 
      always_ok true (fresh p) pos (l ++ r1) (rest i') v /\ forall g, Cln g st').
  { intros v [[r1 [F1 [F2 [F3 F4]]]] [F5 F6]] -> -> ->. exists r1. split; [exact F1|]. split; [rewrite F2, pos_after_app; reflexivity|].
    split; [exact F3|]. intros [|]; auto. apply (cb_cln H). exact F5. }
  destruct r as [v|v|e|e]; cbn [augment3 augment entry_result] in Hd.
  - cbn in Hd. inversion Hd; subst. destruct (OK v F eq_refl eq_refl eq_refl) as [r1 [K1 [K2 K3]]]. exists r1. auto.
  - cbn in Hd. inversion Hd; subst. destruct (OK v F eq_refl eq_refl eq_refl) as [r1 [K1 [K2 K3]]]. exists r1. auto.
  - cbn in Hd. destruct F as [[F1 [F2 [r1 [F3 [F4 [F5 F6]]]]]]|[F1 F2]].
    + rewrite F2 in Hd. rewrite F4 in Hd. cbn in Hd. inversion Hd; subst. rewrite <- F4 in *. exists r1. split; [exact F3|].
      split; [rewrite F4, pos_after_app; reflexivity|]. split; [reflexivity|]. split; [exact F6|]. eauto.
    + destruct (F1 eq_refl) as [K _]. rewrite K in Hd. inversion Hd; subst. exists true. exact F2.
  - destruct F as [F1 [F2 [F3 [F4 F5]]]]. destruct (F2 eq_refl) as [K1 K2]. cbn in Hd.
    match type of Hd with context [e_is_eoi C ?e0] => assert (KE : e_is_eoi C e0 = false) end.
    { apply (augment_eoi EL x a n h Cln Res p H e (k ++ c) (pos_after pos l) K1 K2). }
    rewrite KE in Hd. inversion Hd; subst. eauto.
Qed.
End Decoding.

Section Lsp.
Context {C : Cfg}.
Notation T := (tok C).
Notation E := (Err C).
Variable EL : eoi_laws C.
Variable L : lawful C.
Variable SL : is_slice (C:=C).
Variable code : T -> N.
Variable lit : N -> T.
Hypothesis code_lit : forall n, (n < 256)%N -> code (lit n) = n.

Definition eat {A} (b : @beh C A) (w r : list T) (c : bool) (v : A) : Prop :=
  forall pos, b (Inp (w ++ r) pos false) = Done (okr c v, Inp r (pos_after pos w) false).

Lemma eat_always {A} (b : @beh C A) w r c v f pos w1 w2 v' : eat b w r c v -> always_ok f b pos w1 w2 v' -> w ++ r = w1 ++ w2 ->
  w = w1 /\ r = w2 /\ v = v'.
Proof.
  intros H1 H2 E0. specialize (H2 [] (or_intror eq_refl)). rewrite app_nil_r, <- E0 in H2. destruct (H2 _ _ (H1 pos)) as [K1 K2].
  apply okr_inj in K1. destruct K1 as [_ K1]. inversion K2; subst. apply app_inv_tail in E0. auto.
Qed.
Lemma eat_never {A} (b : @beh C A) w r c v f pos c' : eat b w r c v -> always_err f b pos (w ++ r) c' -> False.
Proof.
  intros H1 H2. specialize (H2 [] (or_intror eq_refl)). rewrite app_nil_r in H2. destruct (H2 _ _ (H1 pos)) as [K1 K2].
  rewrite okr_is_ok in K1. discriminate.
Qed.

Notation crlf := (crlf lit).
Lemma lit_inj a b : (a < 256)%N -> (b < 256)%N -> lit a = lit b -> a = b.
Proof. intros Ha Hb H. rewrite <- (code_lit a), <- (code_lit b), H; auto. Qed.

Lemma adv_app w r pos f : advanced_by (C:=C) (Inp (w ++ r) pos f) w (Inp r (pos_after pos w) f).
Proof. repeat split. Qed.

Lemma eat_range s r : eat (fresh (range s)) s r true s.
Proof. intros pos. apply (range_spec L s). split; [reflexivity|]. split; [reflexivity|]. apply adv_app. Qed.
Lemma eat_take m r : eat (fresh (take (length m))) m r (negb (length m =? 0)) m.
Proof. intros pos. apply (take_spec L). split; [apply adv_app|]. split; [|reflexivity]. apply (slice_units SL). Qed.
Lemma eat_map {S A B} (p : parser C S A) (g : A -> B) w r c v : eat (fresh p) w r c v -> eat (fresh (map p g)) w r c (g v).
Proof. intros H pos. apply (maps_to_succeeds _ _ _ _ _ _ _ (map_maps p g)). exists v. split; [apply H|reflexivity]. Qed.

Lemma range_fresh_hf s : history_free false (range (C:=C) s).
Proof. apply tidy_history_free. apply td_unit. Qed.

(** * Each part of the parser on the text it is meant for *)
Definition not_crlf (r : list T) : Prop := forall s, r <> crlf ++ s.
Lemma hf_crlf : history_free false (range (C:=C) crlf).
Proof. apply range_fresh_hf. Qed.

Lemma eols_crlf k : eols lit (Datatypes.S k) = crlf ++ eols lit k.
Proof. reflexivity. Qed.

Lemma reps_eols r : forall k pos, exists l, length l = k /\
  reps (succeeds (fresh (range crlf))) (Inp (eols lit k ++ r) pos false) (negb (k =? 0)) l (Inp r (pos_after pos (eols lit k)) false).
Proof.
  induction k as [|k IH]; intros pos.
  - exists []. split; [reflexivity|]. constructor.
  - destruct (IH (pos_after pos crlf)) as [l [H1 H2]]. exists (crlf :: l). split; [simpl; congruence|].
    rewrite eols_crlf, <- app_assoc, pos_after_app. change (negb (Datatypes.S k =? 0)) with (true || negb (k =? 0)). econstructor; [|exact H2].
    apply (eat_range crlf).
Qed.

Lemma eat_blank k r : not_crlf r -> k < fuel C -> eat (fresh (skip_many (range crlf))) (eols lit k) r (negb (k =? 0)) tt.
Proof.
  intros Hr Hk pos. apply (skip_many_ok _ hf_crlf). destruct (reps_eols r k pos) as [l [H1 H2]]. exists l. apply (many_ok _ hf_crlf).
  split; [exact H2|]. split; [|lia]. apply (range_spec L). split; [exact Hr|reflexivity].
Qed.

(** Decimal numerals. *)
Lemma numeral_digits ds n : numeral ds n -> Forall (fun c => is_ascii_digit c = true /\ (c < 256)%N) ds /\ ds <> [] /\ digits_value ds = n.
Proof.
  intros H. assert (D : forall d, (d < 10)%N -> is_ascii_digit (48 + d) = true /\ (48 + d < 256)%N).
  { intros d Hd. split; [|lia]. unfold is_ascii_digit. apply andb_true_iff. rewrite !N.leb_le. lia. }
  induction H as [d Hd|ds n d H [IH1 [IH2 IH3]] Hd].
  - split; [constructor; [auto|constructor]|]. split; [discriminate|]. unfold digits_value. cbn [fold_left]. lia.
  - split; [apply Forall_app; split; [exact IH1|constructor; [auto|constructor]]|]. split; [destruct ds; discriminate|].
    unfold digits_value in *. rewrite fold_left_app. cbn [fold_left]. rewrite IH3. lia.
Qed.

Lemma code_lits ds : Forall (fun c => is_ascii_digit c = true /\ (c < 256)%N) ds -> List.map code (List.map lit ds) = ds.
Proof. induction 1 as [|c ds [H1 H2] H IH]; simpl; [reflexivity|]. rewrite code_lit, IH; auto. Qed.

Lemma parse_numeral ds n : numeral ds n -> (n < 2 ^ 64)%N -> parse_usize code (List.map lit ds) = Some (inl n).
Proof.
  intros H Hn. destruct (numeral_digits ds n H) as [H1 [H2 H3]]. unfold parse_usize. rewrite (code_lits ds H1).
  destruct ds as [|c ds]; [congruence|]. assert (K : (c =? 43)%N = false).
  { inversion H1 as [|? ? [K _] _]; subst. unfold is_ascii_digit in K. apply andb_true_iff in K. rewrite !N.leb_le in K. apply N.eqb_neq. lia. }
  rewrite K. assert (F : forallb is_ascii_digit (c :: ds) = true). { apply forallb_forall. intros x Hx. rewrite Forall_forall in H1. apply (H1 x Hx). }
  rewrite F, H3. apply N.ltb_lt in Hn. rewrite Hn. reflexivity.
Qed.

Lemma hf_digit : history_free false (b_digit code).
Proof. apply tidy_history_free. apply td_expected, td_unit. Qed.
Lemma eat_digit t r : is_ascii_digit (code t) = true -> eat (fresh (b_digit code)) [t] r true t.
Proof. intros H pos. apply (byte_class_succeeds code). split; [apply adv_app|]. auto. Qed.
Lemma digit_fails t r pos : is_ascii_digit (code t) = false -> fails (fresh (b_digit code)) (Inp (t :: r) pos false) false.
Proof.
  intros H. destruct (byte_class_single code is_ascii_digit "digit" true (Inp (t :: r) pos false) tt) as [_ [K _]].
  destruct (K t r eq_refl) as [i' K']; [intros x [_ Hx]; congruence|]. exists (e_empty C pos).
  exists (PeekErr (to_trk (e_empty C pos))), i'. split; [|split; reflexivity]. unfold b_digit, fresh. change (p_init (byte_class code is_ascii_digit "digit")) with tt.
  rewrite K'. reflexivity.
Qed.

Lemma reps_digits r : forall w pos, Forall (fun t => is_ascii_digit (code t) = true) w ->
  reps (succeeds (fresh (b_digit code))) (Inp (w ++ r) pos false) (negb (length w =? 0)) w (Inp r (pos_after pos w) false).
Proof.
  induction w as [|t w IH]; intros pos H; [constructor|]. inversion H; subst. change (negb (length (t :: w) =? 0)) with (true || negb (length w =? 0)).
  econstructor; [apply (eat_digit t); auto|]. apply (IH (pos_after pos [t])). auto.
Qed.

Lemma eat_number ds n r : numeral ds n -> (n < 2 ^ 64)%N -> length ds <= fuel C ->
  match r with [] => True | t :: _ => is_ascii_digit (code t) = false end -> r <> [] ->
  eat (fresh (ls_number code)) (List.map lit ds) r true n.
Proof.
  intros H Hn Hf Hr Hr' pos. destruct (numeral_digits ds n H) as [H1 [H2 H3]].
  assert (Q : succeeds (fresh (recognize_range (skip_many1 (b_digit code)))) (Inp (List.map lit ds ++ r) pos false) true (List.map lit ds)
     (Inp r (pos_after pos (List.map lit ds)) false)).
  { apply (recognize_range_spec L); [apply fwd_run, fwd_skip_many1, fwd_byte_class|]. split.
    - exists true, tt. apply (skip_many1_ok _ hf_digit). exists (List.map lit ds). apply (many1_ok _ hf_digit).
      split; [destruct ds; [congruence|discriminate]|]. split; [|split].
      + replace true with (negb (length (List.map lit ds) =? 0)) by (destruct ds; [congruence|reflexivity]). apply reps_digits.
        rewrite Forall_forall in *. intros t Ht. apply in_map_iff in Ht. destruct Ht as [d [<- Hd]]. rewrite code_lit; apply (H1 d Hd).
      + destruct r as [|t r]; [congruence|]. apply digit_fails. exact Hr.
      + rewrite map_length. exact Hf.
    - split; [apply adv_app|]. destruct ds; [congruence|reflexivity]. }
  unfold ls_number, from_str. unfold fresh at 1. cbn [p_run p_init mk_mode].
  assert (Q2 : succeeds (fresh (and_then (recognize_range (skip_many1 (b_digit code))) (fun r => match parse_usize code r with
                                | None => inr (se_expected C (IStatic "UTF-8"))
                                | Some (inl b) => inl b
                                | Some (inr msg) => inr (se_message C (IFormat msg))
                                end))) (Inp (List.map lit ds ++ r) pos false) true n (Inp r (pos_after pos (List.map lit ds)) false)).
  { apply (and_then_spec L). exists (List.map lit ds). split; [exact Q|]. rewrite (parse_numeral ds n H Hn). reflexivity. }
  exact Q2.
Qed.

Definition hdr : list T := lits lit "Content-Length: ".
Lemma hdr_eq : hdr = ascii lit "Content-Length: ".
Proof. reflexivity. Qed.

Lemma eat_length ds n r : numeral ds n -> (n < 2 ^ 64)%N -> length ds <= fuel C ->
  match r with [] => True | t :: _ => is_ascii_digit (code t) = false end -> r <> [] ->
  eat (fresh (ls_content_length code lit)) (hdr ++ List.map lit ds) r true n.
Proof.
  intros H Hn Hf Hr Hr'. unfold ls_content_length. apply eat_map with (g := fun x => x). intros pos. apply (with_runs _ _). 
  exists true, hdr, (Inp (List.map lit ds ++ r) (pos_after pos hdr) false), true, n. rewrite <- app_assoc.
  split; [apply eat_range|]. split; [rewrite pos_after_app; apply (eat_number ds n r); auto|]. split; reflexivity.
Qed.

Lemma cr_not_digit : is_ascii_digit (code (lit 13)) = false.
Proof. rewrite code_lit by lia. reflexivity. Qed.
Lemma hdr_not_crlf r : not_crlf (hdr ++ r).
Proof. intros s H. assert (K : lit 67 = lit 13) by (cbn in H; congruence). apply lit_inj in K; lia. Qed.

Lemma eat_header k ds n r : numeral ds n -> (n < 2 ^ 64)%N -> length ds <= fuel C -> k < fuel C ->
  eat (fresh (ls_header code lit)) (eols lit k ++ hdr ++ List.map lit ds ++ crlf ++ crlf) r true (tt, (n, tt)).
Proof.
  intros H Hn Hf Hk pos. unfold ls_header. apply tuple_succeeds. cbn [seq_ok fst snd].
  set (d := List.map lit ds).
  exists (negb (k =? 0)), (Inp (hdr ++ d ++ crlf ++ crlf ++ r) (pos_after pos (eols lit k)) false), true.
  rewrite <- !app_assoc. split; [|split; [|destruct (negb (k =? 0)); reflexivity]].
  - apply (eat_blank k); auto. apply hdr_not_crlf.
  - exists true, (Inp (crlf ++ crlf ++ r) (pos_after (pos_after pos (eols lit k)) (hdr ++ d)) false), true. split; [|split; [|reflexivity]].
    + pose proof (eat_length ds n (crlf ++ crlf ++ r) H Hn Hf cr_not_digit ltac:(discriminate) (pos_after pos (eols lit k))) as K.
      rewrite <- app_assoc in K. exact K.
    + pose proof (eat_map (range (crlf ++ crlf)) (fun _ => tt) _ r _ _ (eat_range (crlf ++ crlf) r) (pos_after (pos_after pos (eols lit k)) (hdr ++ d))) as K.
      rewrite <- app_assoc in K. rewrite !pos_after_app in *. exact K.
Qed.

Notation P := (decode_parser code lit).
Lemma take_cmode n : cmode_agrees (map (@take C n) (fun bytes => bytes)).
Proof. apply (chunk_cmode_agrees true true false (negb (n =? 0)) ucln ures). apply chunk_map. apply (chunk_take EL SL). Qed.

Lemma eat_frame k ds m r : numeral ds (N.of_nat (length m)) -> (N.of_nat (length m) < 2 ^ 64)%N -> length ds <= fuel C -> k < fuel C ->
  eat (fresh P) (eols lit k ++ hdr ++ List.map lit ds ++ crlf ++ crlf ++ m) r true m.
Proof.
  intros H Hn Hf Hk pos. unfold decode_parser, then_partial. rewrite any_partial_fresh.
  apply (then_runs (ls_header code lit) tt (fun x => map (take (N.to_nat (fst (snd x)))) (fun bytes => bytes)) (fun _ => eq_refl) (fun a => take_cmode _)).
  set (h := eols lit k ++ hdr ++ List.map lit ds ++ crlf ++ crlf).
  assert (Eh : eols lit k ++ hdr ++ List.map lit ds ++ crlf ++ crlf ++ m = h ++ m) by (unfold h; rewrite <- !app_assoc; reflexivity). rewrite Eh.
  exists true, (tt, (N.of_nat (length m), tt)), (Inp (m ++ r) (pos_after pos h) false), (negb (length m =? 0)), m.
  rewrite <- app_assoc. split; [apply (eat_header k ds); auto|]. split; [|split; [reflexivity|reflexivity]]. cbn [fst snd].
  rewrite Nat2N.id, pos_after_app. apply (eat_map _ (fun bytes => bytes)). apply eat_take.
Qed.

(** * Where the parser waits *)
Definition short (n : nat) (k : list T) (_ : unit) : Prop := length k < n.

Lemma strong_range s : s <> [] -> chunk_by true true false true ucln (fun f pos l k st => ures f pos l k st /\ short (length s) k st) (@range C s).
Proof.
  intros Hs. apply chunk_stronger; [apply (chunk_range EL SL); exact Hs|intros; unfold short; destruct s; [congruence|cbn; lia]|].
  intros first pos l k r' [] e i' s' _ Q. unfold range, mk_lazy in Q. cbn [p_run] in Q. unfold lazy_run in Q.
  rewrite (slice_uncons SL), (slice_len SL) in Q. unfold short. destruct (length s <=? length (k ++ r')) eqn:Hn.
  - destruct (list_eqb _ _ _); inversion Q.
  - unfold wrap_stream_error in Q. cbn [ipart] in Q. inversion Q; subst. apply Nat.leb_gt in Hn. exact Hn.
Qed.

Lemma strong_digit : chunk_by true true false true ucln (fun f pos l k st => ures f pos l k st /\ short 1 k st) (b_digit code).
Proof.
  apply chunk_stronger; [apply (chunk_expected EL); apply (chunk_satisfy EL)|intros; unfold short; cbn; lia|].
  intros first pos l k r' [] e i' s' _ Q. unfold short.
  change (lazy_run (satisfy_impl (fun c : T => if is_ascii_digit (code c) then Some c else None)) first (Inp (k ++ r') (pos_after pos l) true) tt = Done (CommitErr e, i', s')) in Q.
  unfold lazy_run, satisfy_impl, s_uncons, uncons in Q. cbn [rest ipos ipart] in Q.
  destruct (k ++ r') as [|t w]; [unfold wrap_stream_error in Q; cbn in Q; inversion Q; subst; cbn; lia|].
  destruct (is_ascii_digit (code t)); inversion Q.
Qed.

Lemma take_wait n i first st e i' s' : ipart i = true -> p_cmode (map (@take C n) (fun bytes => bytes)) first i st = Done (CommitErr e, i', s') -> length (rest i') < n.
Proof.
  intros Hi Q. destruct i as [w pos f]. cbn in Hi. subst f. destruct st.
  assert (Q' : p_run (@take C n) first (Inp w pos true) tt = Done (CommitErr e, i', s')).
  { revert Q. cbn [p_cmode map mk_mode]. unfold default_cmode. cbn [p_run]. destruct (p_run (@take C n) first (Inp w pos true) tt) as [[[r j] s]| |]; cbn; try discriminate.
    destruct r; cbn; intros Q; inversion Q; subst; reflexivity. }
  clear Q. unfold take, mk_lazy in Q'. cbn [p_run] in Q'. unfold lazy_run, take_lazy in Q'. rewrite (take_eq SL) in Q'. destruct (n <=? length w) eqn:Hn.
  - destruct (n =? 0); inversion Q'.
  - unfold wrap_stream_error in Q'. cbn [ipart] in Q'. inversion Q'; subst. apply Nat.leb_gt in Hn. exact Hn.
Qed.

(** A chain of line ends, a chain of digits. *)
Lemma always_run {A} f (b : @beh C A) pos a r v : always_ok f b pos a r v -> (exists x, b (Inp (a ++ r) pos false) = Done x) ->
  succeeds b (Inp (a ++ r) pos false) (consumed_some a) v (Inp r (pos_after pos a) false).
Proof.
  intros H [[x i'] Q]. specialize (H [] (or_intror eq_refl)). rewrite app_nil_r in H. destruct (H _ _ Q) as [-> ->]. exact Q.
Qed.
Lemma ignore_total {S A} (p : parser C S A) i : (exists x, fresh p i = Done x) -> exists x, fresh (ignore p) i = Done x.
Proof. intros [x Q]. rewrite (ignore_maps p i), Q. simpl. eauto. Qed.
Lemma range_total s r pos f : exists x, fresh (@range C s) (Inp r pos f) = Done x.
Proof.
  unfold range. rewrite fresh_mk_lazy, (slice_uncons SL). destruct (_ <=? _); [|eauto]. destruct (list_eqb _ _ _); eauto.
Qed.
Lemma digit_total i : exists x, fresh (b_digit code) i = Done x.
Proof.
  change (fresh (b_digit code) i) with (fresh (satisfy (fun t => is_ascii_digit (code t))) i). unfold satisfy. rewrite fresh_mk_lazy. unfold satisfy_impl.
  destruct (s_uncons i) as [r j]. destruct r as [t|t|e|e]; eauto; destruct (is_ascii_digit (code t)); eauto.
Qed.

Lemma chain_eols f pos w tail vs : chain f (fresh (ignore (range crlf))) pos w tail vs -> exists k, w = eols lit k.
Proof.
  induction 1 as [pos tail|pos a w tail v vs H1 H2 [k IH]]; [exists 0; reflexivity|]. exists (Datatypes.S k). rewrite eols_crlf, IH. f_equal.
  apply always_run in H1; [|apply ignore_total, range_total]. apply (maps_to_succeeds _ _ _ _ _ _ _ (ignore_maps _)) in H1. destruct H1 as [u [H1 _]].
  apply (range_spec L) in H1. destruct H1 as [_ [_ [K _]]]. cbn [rest] in K. apply app_inv_tail in K. exact K.
Qed.
Lemma chain_digits f pos w tail vs : chain f (fresh (ignore (b_digit code))) pos w tail vs -> Forall (fun t => is_ascii_digit (code t) = true) w.
Proof.
  induction 1 as [pos tail|pos a w tail v vs H1 H2 IH]; [constructor|]. apply Forall_app. split; [|exact IH].
  apply always_run in H1; [|apply ignore_total, digit_total]. apply (maps_to_succeeds _ _ _ _ _ _ _ (ignore_maps _)) in H1. destruct H1 as [u [H1 _]].
  apply (byte_class_succeeds code) in H1. destruct H1 as [[K _] [Hu _]]. cbn [rest] in K. change (u :: w ++ tail) with ([u] ++ w ++ tail) in K. apply app_inv_tail in K. subst a. repeat constructor. exact Hu.
Qed.

Lemma hf_ignore_crlf : history_free false (ignore (range (C:=C) crlf)).
Proof. apply tidy_history_free, td_ignore, td_unit. Qed.
Lemma hf_ignore_digit : history_free false (ignore (b_digit code)).
Proof. apply tidy_history_free, td_ignore, td_expected, td_unit. Qed.

(** Line ends first: no more of them than there are. *)
Lemma eols_le : forall j k x r tail, eols lit j ++ x = eols lit k ++ r ++ tail -> not_crlf (r ++ tail) -> j <= k.
Proof.
  induction j as [|j IH]; intros k x r tail H Hr; [lia|]. destruct k as [|k]; [exfalso; apply (Hr (eols lit j ++ x)); cbn in *; congruence|].
  rewrite !eols_crlf, <- !app_assoc in H. apply app_inv_head in H. apply IH in H; [lia|exact Hr].
Qed.
Lemma eols_len k : length (eols lit k) = 2 * k.
Proof. induction k; cbn; lia. Qed.

Lemma then_wait x a n h {S1 A S2 B} Cln1 Res1 Cln2 Res2 (p : parser C S1 A) (s0 : S2) (q : A -> parser C S2 B) (W : A -> list T -> Prop) :
  chunk_by x a n h (thcln Cln1 Cln2 s0) (thres Cln1 Res1 Cln2 Res2 p s0) (then_ p s0 q) ->
  (forall v i first st e i' s', ipart i = true -> p_cmode (q v) first i st = Done (CommitErr e, i', s') -> W v (rest i')) ->
  (forall first i st r i' s', p_run p first i st = Done (r, i', s') -> ipart i' = ipart i) ->
  chunk_by x a n h (thcln Cln1 Cln2 s0) (fun f pos l k st => thres Cln1 Res1 Cln2 Res2 p s0 f pos l k st /\
    match st with (_, Some (_, v), _) => W v k | _ => True end) (then_ p s0 q).
Proof.
  intros H HW HP. apply chunk_stronger; [exact H| |].
  - intros f [[sp cache] sn] [-> _]. exact I.
  - intros first pos l k r' [[sp cache] sn] e i' [[sp' cache'] sn'] St Q.
    cbn [p_run then_ mk_mode] in Q. unfold then_run in Q. destruct (first || is_none cache) eqn:F.
    + assert (Hc : cache = None). { destruct first; [destruct St as [_ [_ [K _]]]; exact K|]. cbn in F. destruct cache; [discriminate|reflexivity]. }
      subst cache. cbn [is_none negb] in Q. rewrite andb_false_r in Q. cbn [obind] in Q.
      destruct (p_run p first (Inp (k ++ r') (pos_after pos l) true) sp) as [[[r j] s]| |] eqn:Hp; try discriminate. cbn [obind] in Q.
      pose proof (HP _ _ _ _ _ _ Hp) as Hj. cbn [ipart] in Hj.
      destruct r as [v|v|e0|e0]; try (inversion Q; subst; exact I).
      * destruct (p_cmode (q v) true j sn) as [[[r2 j2] s2]| |] eqn:Hq; try discriminate. cbn in Q. destruct r2; cbn in Q; inversion Q; subst; try exact I. eapply HW; eauto.
      * destruct (p_cmode (q v) true j sn) as [[[r2 j2] s2]| |] eqn:Hq; try discriminate. cbn in Q. destruct r2; cbn in Q; inversion Q; subst; try exact I. eapply HW; eauto.
    + destruct cache as [[c v]|]; [|discriminate]. destruct (p_cmode (q v) first (Inp (k ++ r') (pos_after pos l) true) sn) as [[[r2 j2] s2]| |] eqn:Hq; try discriminate.
      cbn in Q. destruct r2; cbn in Q; inversion Q; subst; try exact I; try (destruct c; inversion Q; subst; exact I). eapply HW; [|eauto]. reflexivity.
Qed.

Lemma any_wait x a n h {S A} Cln Res (p : parser C S A) : chunk_by x a n h (oCln _ Cln) (oRes _ Res) (any_partial_state p) ->
  chunk_by x a n h (oCln _ Cln) (fun f pos l k st => oRes _ Res f pos l k st /\ (st = None -> k = [])) (any_partial_state p).
Proof.
  intros H. apply (chunk_stronger _ _ _ _ _ _ (fun k st => st = None -> k = [])); [exact H|reflexivity|].
  intros first pos l k r' s e i' s' _ Q -> . cbn [p_run any_partial_state mk_both any_partial_run] in Q. exfalso. destruct s as [s|].
  - unfold any_partial_run in Q. destruct (p_run p first _ s) as [[[r j] s2]| |]; try discriminate.
  - unfold any_partial_run in Q. destruct (p_run p first _ (p_init p)) as [[[r j] s2]| |]; try discriminate. destruct r; discriminate.
Qed.

(** No wait on a full frame. *)
Lemma blank_wait f pos l kk st k r : mres (fun f pos l k st => ures f pos l k st /\ short (length crlf) k st) (ignore (range crlf)) f pos l kk st ->
  l ++ kk = eols lit k ++ hdr ++ r -> False.
Proof.
  intros [w1 [l2 [-> [K1 [K2 K3]]]]] E0. unfold ures in K2. subst l2. destruct (chain_eols _ _ _ _ _ K1) as [j ->]. rewrite app_nil_r in E0.
  assert (j <= k) by (eapply eols_le; [exact E0|apply hdr_not_crlf]). apply (f_equal (@length _)) in E0. rewrite !app_length, !eols_len in E0. unfold short in K3. cbn in E0, K3. lia.
Qed.
Lemma number_wait f pos l kk st ds r : rres (m1res (fun f pos l k st => ures f pos l k st /\ short 1 k st) (ignore (b_digit code))) f pos l kk st ->
  ds <> [] -> l ++ kk = ds ++ crlf ++ r -> False.
Proof.
  intros [-> [lc [kc [-> [_ K]]]]] Hd E0. cbn [app] in E0. destruct st as [d [[[one cst] els] s]]. cbn [snd] in K. destruct K as [[_ [_ [K1 K2]]]|[_ [_ [w1 [l2 [-> [_ [K1 [K2 K3]]]]]]]]].
  - unfold ures in K1. subst lc. unfold short in K2. destruct kc; [|cbn in K2; lia]. destruct ds; [congruence|discriminate].
  - unfold ures in K2. subst l2. unfold short in K3. destruct kc; [|cbn in K3; lia]. rewrite !app_nil_r in E0. apply chain_digits in K1. rewrite E0 in K1.
    apply Forall_app in K1. destruct K1 as [_ K1]. inversion K1 as [|? ? K _]; subst. rewrite cr_not_digit in K. discriminate.
Qed.

Lemma header_fwd : fwd (ls_header code lit).
Proof.
  apply fwd_tuple. cbn [tup_fwd]. split; [apply fwd_skip_many, fwd_range|]. split; [|apply fwd_map, fwd_range].
  apply fwd_map, fwd_with; [apply fwd_range|]. apply fwd_from_str, fwd_recognize_range, fwd_skip_many1, fwd_byte_class.
Qed.

Lemma P_chunk : exists x a n h Cln Res, chunk_by x a n h Cln Res P /\
  forall f pos l kk st, Res f pos l kk st -> forall k ds m tail, numeral ds (N.of_nat (length m)) -> (N.of_nat (length m) < 2 ^ 64)%N -> length ds <= fuel C -> k < fuel C ->
    l ++ kk <> eols lit k ++ hdr ++ List.map lit ds ++ crlf ++ crlf ++ m ++ tail.
Proof.
  pose proof (strong_range crlf ltac:(discriminate)) as B1.
  pose proof (chunk_parser_fn _ _ _ _ _ _ _ _ _ (chunk_ignore _ _ _ _ _ _ _ _ _ (chunk_many _ _ _ _ _ _ (chunk_ignore _ _ _ _ _ _ _ _ _ B1) hf_ignore_crlf))) as B2.
  pose proof (chunk_parser_fn _ _ _ _ _ _ _ _ _ (chunk_ignore _ _ _ _ _ _ _ _ _ (chunk_many1 _ _ _ _ _ _ (chunk_ignore _ _ _ _ _ _ _ _ _ strong_digit) hf_ignore_digit))) as N1.
  pose proof (chunk_recognize_with_value L _ _ _ _ _ N1 (fwd_run _ (fwd_skip_many1 _ (fwd_byte_class code is_ascii_digit "digit")))) as N2.
  pose proof (chunk_from_str EL _ _ _ _ _ _ (parse_usize code) (chunk_parser_fn _ _ _ _ _ _ _ _ _ (chunk_map _ _ _ _ _ _ _ _ _ N2 fst))) as N3.
  pose proof (strong_range hdr ltac:(discriminate)) as H1.
  pose proof (chunk_map _ _ _ _ _ _ _ _ _ (chunk_with EL _ _ _ _ _ _ _ _ _ _ _ _ _ _ H1 N3) (fun x => x)) as H2.
  pose proof (strong_range (crlf ++ crlf) ltac:(discriminate)) as H3.
  pose proof (chunk_map _ _ _ _ _ _ _ _ _ H3 (fun _ => tt)) as H4.
  pose proof (chunk_tuple EL _ _ _ _ _ _ (tail_cons _ _ _ _ _ _ _ _ _ _ _ _ _ B2 (tail_cons _ _ _ _ _ _ _ _ _ _ _ _ _ H2 (tail_one _ _ _ _ _ _ _ H4)))) as H5.
  assert (TK : forall v : unit * (N * unit), chunk_by true true false false ucln ures (map (@take C (N.to_nat (fst (snd v)))) (fun bytes => bytes))).
  { intros v. apply chunk_map. eapply chunk_weak; [| | | |apply (chunk_take EL SL)]; auto; discriminate. }
  pose proof (chunk_then EL _ _ _ _ _ _ _ _ _ _ _ (fun _ => ures) _ tt _ H5 TK (fun _ => eq_refl)) as H6.
  apply (then_wait _ _ _ _ _ _ _ _ _ _ _ (fun v k => length k < N.to_nat (fst (snd v)))) in H6;
    [|intros v i first st e i' s' Hi Q; apply (take_wait _ _ _ _ _ _ _ Hi Q)|].
  2: { intros first i st r i' s' Q. assert (FW : forward (ls_header code lit)) by (apply fwd_run, header_fwd). destruct (FW _ _ _ _ _ _ Q) as [w [_ [_ K]]]. exact K. }
  pose proof (any_wait _ _ _ _ _ _ _ (chunk_any_partial_state _ _ _ _ _ _ _ _ _ H6)) as H7.
  do 6 eexists. split; [exact H7|]. clear H7. intros f pos l kk st [HR Hnone] k ds m tail Nm Nl Nf Nk E0.
  set (d := List.map lit ds) in *. assert (Hd : d <> []). { destruct (numeral_digits _ _ Nm) as [_ [K _]]. unfold d. destruct ds; [congruence|discriminate]. }
  destruct st as [[[sp cache] sn]|].
  2: { cbn in HR. subst l. rewrite (Hnone eq_refl) in E0. destruct (eols lit k); discriminate. }
  destruct HR as [[[-> [HR _]]|[c [v [w1 [l2 [-> [_ [-> [_ [HA HR]]]]]]]]]] HW].
  - destruct HR as [[_ [HR _]]|[v [w1 [l2 [_ [_ [-> [HA HR]]]]]]]].
    + eapply blank_wait; eauto.
    + rewrite <- app_assoc in E0. destruct (eat_always _ _ _ _ _ _ _ _ _ _ (eat_blank k _ (hdr_not_crlf _) Nk) HA (eq_sym E0)) as [<- [K _]]. clear HA E0.
      symmetry in K. destruct HR as [[_ [HR _]]|[v2 [w1 [l3 [_ [_ [-> [HA HR]]]]]]]].
      * destruct HR as [[_ [[HR1 HR2] _]]|[v2 [w1 [l3 [_ [_ [-> [HA HR]]]]]]]].
        -- unfold ures in HR1. subst l2. apply (f_equal (@length _)) in K. rewrite !app_length in K. unfold short in HR2. cbn in K, HR2. lia.
        -- rewrite <- app_assoc in K.
           assert (EI : eat (fresh (ignore (range hdr))) hdr (d ++ crlf ++ crlf ++ m ++ tail) true tt).
           { intros pos0. apply (maps_to_succeeds _ _ _ _ _ _ _ (ignore_maps _)). exists hdr. split; [apply eat_range|reflexivity]. }
           destruct (eat_always _ _ _ _ _ _ _ _ _ _ EI HA (eq_sym K)) as [<- [K2 _]]. destruct HR as [_ HR]. eapply number_wait; [exact HR|exact Hd|]. symmetry. exact K2.
      * rewrite <- app_assoc in K. assert (K' : (hdr ++ d) ++ crlf ++ crlf ++ m ++ tail = w1 ++ l3 ++ kk) by (rewrite <- app_assoc; symmetry; exact K).
        destruct (eat_always _ _ _ _ _ _ _ _ _ _ (eat_length ds _ (crlf ++ crlf ++ m ++ tail) Nm Nl Nf cr_not_digit ltac:(discriminate)) HA K') as [<- [K2 _]].
        destruct HR as [_ [HR1 HR2]]. unfold ures in HR1. subst l3. apply (f_equal (@length _)) in K2. rewrite !app_length in K2. unfold short in HR2. cbn in K2, HR2. lia.
  - rewrite <- app_assoc in E0. assert (E1 : (eols lit k ++ hdr ++ d ++ crlf ++ crlf) ++ m ++ tail = w1 ++ l2 ++ kk) by (rewrite <- !app_assoc; symmetry; exact E0).
    destruct (eat_always _ _ _ _ _ _ _ _ _ _ (eat_header k ds _ (m ++ tail) Nm Nl Nf Nk) HA E1) as [_ [K <-]]. unfold ures in HR. subst l2. cbn [fst snd app] in *.
    apply (f_equal (@length _)) in K. rewrite app_length in K. rewrite Nat2N.id in HW. lia.
Qed.

(** * The decoder *)
Variable utf8 : list T -> bool.
Definition frame (k : nat) (ds : list N) (m : list T) : list T := eols lit k ++ hdr ++ List.map lit ds ++ crlf ++ crlf ++ m.
Definition good (k : nat) (ds : list N) (m : list T) : Prop :=
  numeral ds (N.of_nat (length m)) /\ (N.of_nat (length m) < 2 ^ 64)%N /\ length ds <= fuel C /\ k < fuel C.

Notation St := (option ((option unit * (list unit * unit) * (option N * ((option unit * unit) *
   (option N * (nat * (bool * bool * list unit * unit))) * N) * (option unit * unit)) * N) * option (bool * (unit * (N * unit))) * unit)).
Definition ls_add (c : list T) (d : lsd St) : lsd St := Lsd (ls_state d) (ls_src d ++ c) (ls_pos d).

Lemma frame_len k ds m : length (frame k ds m) = 2 * k + 20 + length ds + length m.
Proof. unfold frame. rewrite !app_length, eols_len, map_length. cbn. lia. Qed.

(** Every text of messages starts with a frame, or can be completed to one. *)
Lemma framed_cases text ms : framed lit text ms -> length text < fuel C ->
  match ms with
  | [] => exists k, text = eols lit k /\ good k [48%N] [] /\ frame k [48%N] [] = text ++ hdr ++ [lit 48] ++ crlf ++ crlf
  | m :: ms' => exists k ds text', good k ds m /\ text = frame k ds m ++ text' /\ framed lit text' ms' /\ length text' < fuel C
  end.
Proof.
  intros H HF. destruct H as [k|k ds m text ms H1 H2 H3].
  - exists k. rewrite eols_len in HF. split; [reflexivity|]. split; [|reflexivity]. split; [apply (@num_one 0%N); lia|]. split; [cbn; lia|]. cbn. lia.
  - exists k, ds, text. assert (E0 : eols lit k ++ ascii lit "Content-Length: " ++ List.map lit ds ++ eol lit ++ eol lit ++ m ++ text = frame k ds m ++ text).
    { unfold frame. rewrite <- !app_assoc. reflexivity. }
    rewrite E0 in *. rewrite app_length, frame_len in HF. split; [|split; [reflexivity|split; [exact H3|lia]]]. repeat split; auto; lia.
Qed.

Lemma framed_app text ms text2 ms2 : framed lit text ms -> framed lit text2 ms2 -> framed lit (text ++ text2) (ms ++ ms2).
Proof.
  assert (EA : forall k j, eols lit k ++ eols lit j = eols lit (k + j)).
  { induction k; intros j; [reflexivity|]. cbn [Nat.add]. rewrite !eols_crlf, <- app_assoc, IHk. reflexivity. }
  induction 1 as [k|k ds m text ms H1 H2 H3 IH]; intros H.
  - cbn [app]. destruct H as [j|j ds m text ms H1 H2 H3]; [rewrite EA; constructor|]. rewrite app_assoc, EA. constructor; auto.
  - specialize (IH H). cbn [app]. rewrite <- !app_assoc. constructor; auto.
Qed.

Section Run.
Context (x a n h : bool) (Cln : bool -> St -> Prop) (Res : bool -> Pos C -> list T -> list T -> St -> Prop).
Hypothesis HP : chunk_by x a n h Cln Res P.
Hypothesis HQ : forall f pos l kk st, Res f pos l kk st -> forall k ds m tail, good k ds m -> l ++ kk <> frame k ds m ++ tail.

Definition ls_inv (cur more : list T) (d : lsd St) : Prop := exists pos l k c, ls_src d = k ++ c /\ ls_pos d = pos_after pos l /\
  cur = l ++ (k ++ c) ++ more /\ Res true pos l k (ls_state d).

Lemma ls_step cur more d res d' ext k ds m tail : ls_inv cur more d -> good k ds m ->
  ls_decode utf8 P d = Done (res, d') -> cur ++ ext = frame k ds m ++ tail ->
  (exists cur', res = (if utf8 m then inl (Some m) else inr LsUtf8) /\ cur = frame k ds m ++ cur' /\ tail = cur' ++ ext /\ ls_inv cur' more d') \/
  (res = inl None /\ (forall c more', more = c ++ more' -> ls_inv cur more' (ls_add c d')) /\
   forall k' ds' m' tail', good k' ds' m' -> cur <> frame k' ds' m' ++ tail' ++ more).
Proof.
  intros [pos [l [k0 [c [S1 [S2 [S3 S4]]]]]]] HG Q E0. unfold ls_decode in Q. rewrite S1, S2 in Q.
  destruct (decode P (Inp (k0 ++ c) (pos_after pos l) true) (ls_state d)) as [[[r i'] st']| |] eqn:Hd; try discriminate. cbn [obind] in Q.
  pose proof (decode_chunk EL _ _ _ _ _ _ _ HP _ _ _ _ _ _ _ _ S4 Hd) as F.
  assert (HE : eat (fresh P) (frame k ds m) tail true m) by (destruct HG as [G1 [G2 [G3 G4]]]; apply eat_frame; auto).
  destruct r as [[o n0]|e].
  - destruct F as [r1 [F1 [F2 [F3 F4]]]].
    assert (Hn : n0 = length r1).
    { rewrite F3, <- (slice_len SL). unfold distance. cbn [rest]. rewrite F1, range_len_app. lia. }
    assert (Hb : b_advance n0 (Buf (k0 ++ c) 0) = Done (Buf (rest i') 0)).
    { unfold b_advance. cbn [bbytes bcap]. rewrite F1, Hn, le_ext by lia. rewrite skipn_app, skipn_all, Nat.sub_diag. reflexivity. }
    rewrite Hb in Q. cbn [omap bbytes] in Q. destruct o as [v|].
    + left. destruct F4 as [F4 F5]. apply (always_ok_ext true _ _ _ _ _ (more ++ ext)) in F4.
      assert (E1 : frame k ds m ++ tail = (l ++ r1) ++ rest i' ++ more ++ ext). { rewrite <- E0, S3, F1. rewrite <- !app_assoc. reflexivity. }
      destruct (eat_always _ _ _ _ _ _ _ _ _ _ HE F4 E1) as [K1 [K2 <-]]. exists (rest i' ++ more).
      split; [destruct (utf8 m); inversion Q; reflexivity|]. split; [rewrite K1, S3, F1, <- !app_assoc; reflexivity|]. split; [rewrite K2, app_assoc; reflexivity|].
      assert (D : d' = Lsd st' (rest i') (ipos i')) by (destruct (utf8 m); inversion Q; reflexivity). subst d'.
      exists (ipos i'), [], [], (rest i'). cbn. repeat split. apply (cb_res HP). apply F5.
    + right. inversion Q; subst res d'. destruct F4 as [F4 _]. split; [reflexivity|].
      assert (E1 : cur = (l ++ r1) ++ rest i' ++ more) by (rewrite S3, F1, <- !app_assoc; reflexivity). split.
      * intros c1 more' ->. exists pos, (l ++ r1), (rest i'), c1. cbn. split; [reflexivity|]. split; [exact F2|]. split; [rewrite E1, <- !app_assoc; reflexivity|apply F4].
      * intros k' ds' m' tail' HG' E2. rewrite E1 in E2. rewrite !app_assoc in E2. apply app_inv_tail in E2. revert E2. apply (HQ true pos _ _ st'); auto.
  - destruct F as [c0 F]. exfalso. apply (always_err_ext true _ _ _ _ (more ++ ext)) in F.
    assert (E1 : (l ++ k0 ++ c) ++ more ++ ext = frame k ds m ++ tail) by (rewrite <- E0, S3, <- !app_assoc; reflexivity).
    rewrite E1 in F. eapply eat_never; eauto.
Qed.

Lemma fed_inv text1 ms1 text2 ms2 d0 cs out d : framed lit text1 ms1 -> framed lit text2 ms2 -> length (text1 ++ text2) < fuel C ->
  (forall m, In m (ms1 ++ ms2) -> utf8 m = true) -> (exists pos, d0 = Lsd (p_init P) [] pos) ->
  fed (ls_decode utf8 P) ls_add d0 cs out d -> forall more, concat cs ++ more = text1 ++ text2 -> length out <= length ms1 \/ text2 = [] ->
  exists cur ms', ms1 = out ++ ms' /\ framed lit cur ms' /\ ls_inv (cur ++ text2) more d /\ length (cur ++ text2) < fuel C.
Proof.
  intros HF1 HF2 HL HU HI HD. induction HD as [d|d0 cs out d1 m d2 HD IH Hq|d0 cs out d1 c d2 HD IH Hq]; intros more E0 HO.
  - exists text1, ms1. cbn in E0. subst more. split; [reflexivity|]. split; [exact HF1|]. split; [|exact HL]. destruct HI as [pos ->].
    exists pos, [], [], []. cbn. repeat split. apply (cb_res HP). apply (cb_init HP).
  - destruct (IH HI more E0) as [cur [ms' [K1 [K2 [K3 K4]]]]]; [rewrite app_length in HO; cbn in HO; destruct HO; [left; lia|right; assumption]|].
    assert (K5 : length cur < fuel C) by (rewrite app_length in K4; lia). pose proof (framed_cases _ _ K2 K5) as FC. destruct ms' as [|m0 ms'].
    + exfalso. destruct HO as [HO|HO]; [subst ms1; rewrite !app_length in HO; cbn in HO; lia|]. subst text2. rewrite app_nil_r in K3. destruct FC as [k [_ [G FE]]].
      destruct (ls_step _ _ _ _ _ (hdr ++ [lit 48] ++ crlf ++ crlf) k [48%N] [] [] K3 G Hq) as [[cur' [_ [_ [K _]]]]|[K _]];
        [rewrite app_nil_r; symmetry; exact FE| |discriminate]. destruct cur'; discriminate.
    + destruct FC as [k [ds [text' [G [FE [FF FL]]]]]]. subst cur. rewrite <- app_assoc in *.
      destruct (ls_step _ _ _ _ _ [] k ds m0 (text' ++ text2) K3 G Hq) as [[cur' [R1 [_ [R2 R3]]]]|[K _]]; [rewrite app_nil_r; reflexivity| |discriminate].
      rewrite app_nil_r in R2. subst cur'. rewrite HU in R1 by (rewrite K1, <- app_assoc; apply in_or_app; right; left; reflexivity). inversion R1; subst m0.
      exists text', ms'. split; [rewrite K1, <- app_assoc; reflexivity|]. split; [exact FF|]. split; [exact R3|]. rewrite app_length in K4. lia.
  - destruct (IH HI (c ++ more)) as [cur [ms' [K1 [K2 [K3 K4]]]]]; [rewrite concat_app in E0; cbn in E0; rewrite app_nil_r, <- app_assoc in E0; exact E0|exact HO|].
    exists cur, ms'. split; [exact K1|]. split; [exact K2|]. split; [|exact K4]. pose proof (framed_cases _ _ (framed_app _ _ _ _ K2 HF2) K4) as FC.
    destruct (ms' ++ ms2) as [|m0 ms0].
    + destruct FC as [k [_ [G FE]]].
      destruct (ls_step _ _ _ _ _ (hdr ++ [lit 48] ++ crlf ++ crlf) k [48%N] [] [] K3 G Hq) as [[cur' [K _]]|[_ [K _]]];
        [rewrite app_nil_r; symmetry; exact FE|destruct (utf8 []); discriminate|]. apply K. reflexivity.
    + destruct FC as [k [ds [text' [G [FE [FF FL]]]]]].
      destruct (ls_step _ _ _ _ _ [] k ds m0 text' K3 G Hq) as [[cur' [K _]]|[_ [K _]]]; [rewrite app_nil_r; exact FE|destruct (utf8 m0); discriminate|]. apply K. reflexivity.
Qed.
End Run.

(** What comes out is what was sent, in order, and the next call does not fail. *)
Theorem lsp_messages text ms pos cs out d more res d' : framed lit text ms -> length text < fuel C -> (forall m, In m ms -> utf8 m = true) ->
  fed (ls_decode utf8 P) ls_add (Lsd (p_init P) [] pos) cs out d -> concat cs ++ more = text -> ls_decode utf8 P d = Done (res, d') ->
  exists ms', ms = out ++ ms' /\ (res = inl None \/ exists m ms'', ms' = m :: ms'' /\ res = inl (Some m)).
Proof.
  intros HF HL HU HD E0 Hq. destruct P_chunk as [x [a [n [h [Cln [Res [HP HQ]]]]]]].
  assert (HQ' : forall f pos l kk st, Res f pos l kk st -> forall k ds m tail, good k ds m -> l ++ kk <> frame k ds m ++ tail).
  { intros f p0 l kk st HR k ds m tail [G1 [G2 [G3 G4]]]. unfold frame. rewrite <- !app_assoc. apply (HQ _ _ _ _ _ HR); auto. }
  destruct (fed_inv _ _ _ _ _ _ HP HQ' text ms [] [] (Lsd (p_init P) [] pos) cs out d HF (framed_end lit 0)) with (more := more) as [cur [ms' [K1 [K2 [K3 K4]]]]];
    [rewrite app_nil_r; exact HL|rewrite app_nil_r; exact HU|eauto|exact HD|rewrite app_nil_r; exact E0|right; reflexivity|]. rewrite app_nil_r in *.
  exists ms'. split; [exact K1|]. pose proof (framed_cases _ _ K2 K4) as FC. destruct ms' as [|m ms''].
  - left. destruct FC as [k [_ [G FE]]].
    destruct (ls_step _ _ _ _ _ _ HP HQ' _ _ _ _ _ (hdr ++ [lit 48] ++ crlf ++ crlf) k [48%N] [] [] K3 G Hq) as [[cur' [_ [_ [K _]]]]|[K _]];
      [rewrite app_nil_r; symmetry; exact FE| |exact K]. destruct cur'; discriminate.
  - destruct FC as [k [ds [text' [G [FE [FF FL]]]]]].
    destruct (ls_step _ _ _ _ _ _ HP HQ' _ _ _ _ _ [] k ds m text' K3 G Hq) as [[cur' [K _]]|[K _]]; [rewrite app_nil_r; exact FE| |left; exact K].
    right. exists m, ms''. split; [reflexivity|]. rewrite HU in K by (rewrite K1; apply in_or_app; right; left; reflexivity). exact K.
Qed.

(** A message comes out as soon as its last byte is in. *)
Theorem lsp_prompt text ms tail ms2 pos cs out d more res d' : framed lit text ms -> framed lit (tail ++ more) ms2 -> length (text ++ tail ++ more) < fuel C ->
  (forall m, In m (ms ++ ms2) -> utf8 m = true) ->
  fed (ls_decode utf8 P) ls_add (Lsd (p_init P) [] pos) cs out d -> concat cs = text ++ tail -> ls_decode utf8 P d = Done (res, d') ->
  length out < length ms -> exists m ms', ms = out ++ m :: ms' /\ res = inl (Some m).
Proof.
  intros HF HF2 HL HU HD E0 Hq HO. destruct P_chunk as [x [a [n [h [Cln [Res [HP HQ]]]]]]].
  assert (HQ' : forall f pos l kk st, Res f pos l kk st -> forall k ds m tail, good k ds m -> l ++ kk <> frame k ds m ++ tail).
  { intros f p0 l kk st HR k ds m tail0 [G1 [G2 [G3 G4]]]. unfold frame. rewrite <- !app_assoc. apply (HQ _ _ _ _ _ HR); auto. }
  destruct (fed_inv _ _ _ _ _ _ HP HQ' text ms (tail ++ more) ms2 (Lsd (p_init P) [] pos) cs out d HF HF2 HL HU) with (more := more) as [cur [ms' [K1 [K2 [K3 K4]]]]];
    [eauto|exact HD|rewrite E0, <- app_assoc; reflexivity|left; lia|].
  assert (K5 : length cur < fuel C) by (rewrite app_length in K4; lia). pose proof (framed_cases _ _ K2 K5) as FC. destruct ms' as [|m ms'].
  - subst ms. rewrite app_nil_r in HO. lia.
  - exists m, ms'. split; [exact K1|]. destruct FC as [k [ds [text' [G [FE [FF FL]]]]]]. subst cur.
    destruct (ls_step _ _ _ _ _ _ HP HQ' _ _ _ _ _ [] k ds m (text' ++ tail ++ more) K3 G Hq) as [[cur' [K _]]|[_ [_ K]]]; [rewrite app_nil_r, <- app_assoc; reflexivity| |].
    + rewrite HU in K by (rewrite K1, <- app_assoc; apply in_or_app; right; left; reflexivity). exact K.
    + exfalso. apply (K k ds m (text' ++ tail) G). rewrite <- !app_assoc. reflexivity.
Qed.
End Lsp.

(** Running a decoder on given chunks. *)
Section Drive.
Context {T D M X : Type} (dec : D -> outcome ((option M + X) * D)) (add : list T -> D -> D).
Fixpoint drive (n : nat) (cs done : list (list T)) (out : list M) (d : D) : option (list (list T) * list M * D) :=
  match n with
  | 0 => Some (done, out, d)
  | Datatypes.S n =>
      match dec d with
      | Done (inl (Some m), d') => drive n cs done (out ++ [m]) d'
      | Done (inl None, d') => match cs with [] => Some (done, out, d) | c :: cs => drive n cs (done ++ [c]) out (add c d') end
      | _ => None
      end
  end.
Lemma drive_fed d0 : forall n cs done out d done' out' d', fed dec add d0 done out d -> drive n cs done out d = Some (done', out', d') ->
  fed dec add d0 done' out' d'.
Proof.
  induction n as [|n IH]; intros cs done out d done' out' d' H Q; cbn in Q; [inversion Q; subst; exact H|].
  destruct (dec d) as [[[[m|]|e] d1]| |] eqn:E; try discriminate.
  - eapply IH; [|exact Q]. eapply fed_out; eauto.
  - destruct cs as [|c cs]; [inversion Q; subst; exact H|]. eapply IH; [|exact Q]. eapply fed_more; eauto.
Qed.
End Drive.
