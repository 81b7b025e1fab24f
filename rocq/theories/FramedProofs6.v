(** Proofs for C80 and C82: [take_until_bytes] by lines; decoders on a stream that is always partial. *)
From Coq Require Import String List Bool Arith NArith Lia.
Import ListNotations.
From Verif Require Import Base Errors Instances Parser Sequence Repeat Choice Combinator Token RangeP ByteP Spec SeqSpec ChoiceSpec RepeatSpec RangeSpec TidySpec LibSpec AgreeSpec ChunkSpec TotalSpec SteadySpec DecodeM DecodeSpec DecodeProofs FramedM FramedM2 LspM LspSpec FramedSpec FramedSpec2.
From Verif Require Import TokenProofs ResultProofs SeqProofs CombProofs CombProofs2 ChoiceProofs RepeatProofs RepeatProofs2 RepeatProofs4 TidyProofs ForwardProofs RangeProofs RangeProofs2 ByteProofs ChunkProofs SteadyProofs SteadyProofs2 SteadyProofs3 SteadyProofs4 LspProofs FramedProofs FramedProofs2 FramedProofs3 FramedProofs5 ChunkProofs8.
Unset Implicit Arguments.

Section UntilBytes.
Context {C : Cfg} (EL : eoi_laws C) (L : lawful C) (D : pos_distinct C) (SL : is_slice (C:=C)) (SK : set_keeps C).
Notation T := (tok C).
Notation E := (Err C).
Variable code : T -> N.
Variable lit : N -> T.
Hypothesis code_lit : forall n, (n < 256)%N -> code (lit n) = n.
Context {B : Type} (number : list T -> B).

Lemma until_bytes_steady z : steady z false false false true (fun _ : unit => until_bytes_parser code number).
Proof.
  apply (sd_skip (x1 := true) (a1 := true) (n1 := false) (h1 := true) (x2 := true) (a2 := true) (n2 := false) (h2 := true)).
  - refine (sd_map (fun _ => _) _). apply (sd_take_until_bytes z (fun _ : unit => code) (fun _ => [13; 10]%N)); [exact SL|intros; cbn; lia].
  - apply (sd_take_some z (fun _ : unit => 2)); [exact SL|discriminate].
Qed.
Lemma first_line (w r b a : list N) : (forall b a, w ++ [13%N] <> b ++ [13; 10]%N ++ a) -> w ++ [13; 10]%N ++ r = b ++ [13; 10]%N ++ a -> length w <= length b.
Proof.
  intros H E0. destruct (Nat.le_gt_cases (length w) (length b)) as [K|K]; auto. exfalso.
  assert (Q : firstn (length w + 1) (w ++ [13; 10]%N ++ r) = w ++ [13%N]).
  { rewrite firstn_app. replace (length w + 1 - length w) with 1 by lia. rewrite firstn_all2 by lia. reflexivity. }
  rewrite E0, app_assoc, firstn_app in Q. rewrite (firstn_all2 (b ++ [13; 10]%N)) in Q by (rewrite app_length; cbn; lia).
  eapply H. rewrite <- Q, <- app_assoc. reflexivity.
Qed.
Lemma until_bytes_eats w r : line_bytes code w -> length (with_crlf lit w) < fuel C -> exists c, eats (fresh (until_bytes_parser code number)) (with_crlf lit w) r c (number w).
Proof.
  intros H _. exists (consumed_some w || negb (2 =? 0)). apply (eats_skip _ _ w (f_crlf lit) r _ _ (number w) (f_crlf lit)).
  - apply eats_map. intros pos. apply (take_fn_spec L SL _ _ (bytes_searches code [13; 10]%N)). split; [apply adv|]. split; [|reflexivity].
    exists (List.map code r). cbn [rest]. unfold f_crlf. rewrite !map_app. cbn [List.map]. rewrite !code_lit by reflexivity. split; [reflexivity|]. intros b a K. rewrite map_length.
    rewrite <- (map_length code w). exact (first_line _ (List.map code r) b a H K).
  - intros pos. apply (take_spec L). split; [apply adv|]. split; [|reflexivity]. rewrite (slice_units SL). reflexivity.
Qed.
Lemma until_bytes_stops : stops (fresh (until_bytes_parser code number)) [].
Proof.
  apply stops_skip, stops_map. intros pos. apply (take_fn_spec L SL _ _ (bytes_searches code [13; 10]%N)). split; [|reflexivity]. cbn [rest].
  intros b a K [a' [K2 _]]. rewrite <- K in K2. destruct (List.map code b); discriminate.
Qed.
End UntilBytes.

Section Bytes.
Context {C : Cfg}.
Notation T := (tok C).
Notation E := (Err C).
Variable z : nat.
Notation few := (TotalSpec.fits z).
Variable EL : eoi_laws C.
Variable W : forall t, width C t = 1.
Variable L : lawful C.
Variable D : pos_distinct C.

Lemma parse_part {S A} (p : parser C S A) : forward p -> forall l pos f st r i' st', parse_with_state p (Inp l pos f) st = Done (r, i', st') -> ipart i' = f.
Proof.
  intros FW l pos f st r i' st'. unfold parse_with_state, parse_stream_partial. destruct (p_run p false (Inp l pos f) st) as [[[r0 i0] s0]| |] eqn:Q; try discriminate.
  destruct (FW _ _ _ _ _ _ Q) as [u [_ [_ U]]]. cbn [ipart] in U. cbn [omap augment3 augment]. destruct r0 as [v|v|e|e]; cbn; intros K; inversion K; subst; auto.
Qed.
Lemma byte_decode_eq {S A} (p : parser C S A) : forward p -> forall d, byte_decode p d = decode_stream p false d.
Proof.
  intros FW d. unfold byte_decode, decode_stream, decode, decode_tokio. cbn [negb].
  destruct (parse_with_state p _ _) as [[[r i'] st]| |] eqn:Q; try reflexivity. apply parse_part in Q; [|exact FW]. cbn [omap obind]. rewrite Q. reflexivity.
Qed.
Lemma byte_err {S A} (p : parser C S A) : forward p -> forall d e d', byte_decode p d = Done (inr e, d') -> e_is_eoi C e = false.
Proof.
  intros FW d e d'. unfold byte_decode, decode.
  destruct (parse_with_state p _ _) as [[[r i'] st]| |] eqn:Q; try discriminate. apply parse_part in Q; [|exact FW]. cbn [omap obind]. rewrite Q.
  assert (K : forall (o : option A) n, omap (fun b => (@inl (option A) E o, Fd st (bbytes b) (ipos i'))) (b_advance n (Buf (fd_src d) 0)) <> Done (inr e, d')).
  { intros o n. destruct (b_advance n _); cbn; congruence. }
  destruct r as [v|e0]; [intros R; apply K in R; contradiction|]. destruct (e_is_eoi C e0) eqn:Q1; [intros R; apply K in R; contradiction|congruence].
Qed.

Definition byte_result {S A} (p : parser C S A) (a : bool) (pos : Pos C) (text : list T) (out : list A + option E) : Prop := exists vs tail, begins p pos text vs tail /\
  match out with
  | inl vs' => vs' = vs /\ (a = true -> tail = [])
  | inr None => tail <> []
  | inr (Some e) => e_is_eoi C e = false /\ reads p pos text vs tail
  end.

Section Run.
Context {S A : Type} (x a n h : bool) (Cln : bool -> S -> Prop) (Res : bool -> Pos C -> list T -> list T -> S -> Prop) (p : parser C S A).
Hypothesis H : chunk_by x a n h Cln Res p.
Hypothesis HR : ret_by z Cln Res p.
Hypothesis FW : forward p.

Lemma fd_add_nil (d : fdec (C:=C) S) : fd_add [] d = d.
Proof. destruct d. unfold fd_add. cbn. rewrite app_nil_r. reflexivity. Qed.

Lemma begins_items m : forall cs eof d pos0 text out, ginv Res false d pos0 text (concat cs) -> few (Inp text pos0 false) -> (eof = true -> cs = []) ->
  byte_items m p eof d cs = Done out -> byte_result p a pos0 text out.
Proof.
  induction m as [|m IH]; intros cs eof d pos0 text out HI Hf He; [discriminate|]. cbn [byte_items].
  destruct (any_step z EL W _ _ _ _ _ _ _ H HR FW _ _ _ _ _ HI Hf) as [res [d' [Q K]]]. rewrite <- (byte_decode_eq p FW) in Q. rewrite Q. cbn [obind]. destruct res as [[v|]|e].
  - destruct K as [w [text' [c [-> [K1 [K2 _]]]]]]. intros R. destruct (byte_items m p eof d' cs) as [o| |] eqn:Q2; try discriminate.
    destruct (IH cs eof d' (pos_after pos0 w) text' o K2) as [vs [tail [R1 R2]]]; [apply (few_len _ _ _ Hf); cbn [rest]; rewrite app_length; lia|exact He|exact Q2|].
    exists (v :: vs), tail. split; [eapply begins_msg; eauto|]. cbn [omap] in R. destruct o as [l|[e|]]; inversion R; subst; [|destruct R2 as [R2 R3]; split; [exact R2|eapply reads_msg; eauto]|exact R2].
    destruct R2 as [-> R2]. auto.
  - destruct K as [_ K]. specialize (K eq_refl). destruct eof.
    + rewrite (He eq_refl) in K. specialize (K [] [] false eq_refl ltac:(discriminate)). rewrite fd_add_nil in K. intros R. inversion R; subst. exists [], text. split; [apply begins_stop|].
      destruct K as [l [k [c [_ [E2 [K [E3 _]]]]]]]. rewrite E2, app_nil_r in *. destruct (k ++ c) as [|t r] eqn:Ekc.
      * split; [reflexivity|]. intros Ha. rewrite (cb_atomic H Ha _ _ _ _ _ (K false ltac:(auto))) in E3. rewrite E3. reflexivity.
      * rewrite E3. destruct l; discriminate.
    + destruct cs as [|c cs].
      * rewrite <- (fd_add_nil d'). apply IH; [apply (K [] [] false); auto; discriminate|exact Hf|reflexivity].
      * apply IH; [apply (K c (concat cs) false); [reflexivity|discriminate]|exact Hf|discriminate].
  - apply byte_err in Q; [|exact FW]. destruct K as [[c Kc] _]. intros R. inversion R; subst. exists [], text. split; [apply begins_stop|]. split; [exact Q|econstructor; exact Kc].
Qed.
Lemma byte_items_end m : productive (fresh p) -> forall cs eof d pos0 text, ginv Res false d pos0 text (concat cs) -> few (Inp text pos0 false) -> (eof = true -> cs = []) ->
  length text + length cs + (if eof then 0 else 1) < m -> returns (byte_items m p eof d cs).
Proof.
  intros TS. induction m as [|m IH]; intros cs eof d pos0 text HI Hf He Hm; [lia|]. cbn [byte_items].
  destruct (any_step z EL W _ _ _ _ _ _ _ H HR FW _ _ _ _ _ HI Hf) as [res [d' [Q K]]]. rewrite <- (byte_decode_eq p FW) in Q. rewrite Q. cbn [obind]. destruct res as [[v|]|e].
  - destruct K as [w [text' [c [-> [K1 [K2 _]]]]]]. rewrite app_length in Hm. assert (Hw : length w <> 0).
    { intros Hw. apply length_zero_iff_nil in Hw. subst w. pose proof (TS _ _ _ K1 ltac:(destruct c; reflexivity)) as K3. unfold shorter in K3. cbn in K3. lia. }
    destruct (IH cs eof d' (pos_after pos0 w) text' K2) as [o Qo]; [apply (few_len _ _ _ Hf); cbn [rest]; rewrite app_length; lia|exact He|lia|]. rewrite Qo. cbn. eexists. reflexivity.
  - destruct eof; [eexists; reflexivity|]. destruct K as [_ K]. specialize (K eq_refl). destruct cs as [|c cs].
    + rewrite <- (fd_add_nil d'). eapply IH; [apply (K [] [] false); auto; discriminate|exact Hf|reflexivity|cbn [length] in *; lia].
    + eapply IH; [apply (K c (concat cs) false); [reflexivity|discriminate]|exact Hf|discriminate|cbn [length] in *; lia].
  - eexists. reflexivity.
Qed.
End Run.

Lemma begins_any_partial {S A} (p : parser C S A) pos text vs tail : begins (any_partial_state p) pos text vs tail -> begins p pos text vs tail.
Proof.
  induction 1 as [pos text|pos w text c v vs tail H _ IH]; [apply begins_stop|].
  econstructor; [|exact IH]. unfold succeeds in *. rewrite fresh_any_partial in H. exact H.
Qed.
Lemma begins_prefix {S A} (p : parser C S A) pos text vs tail : begins p pos text vs tail -> forall vs' tail', begins p pos text vs' tail' -> exists more, vs' = vs ++ more \/ vs = vs' ++ more.
Proof.
  induction 1 as [pos text|pos w text c v vs tail H _ IH]; intros vs' tail' R; [exists vs'; auto|].
  remember (w ++ text) as t eqn:Et. destruct R as [pos t|pos w' text' c' v' vs' tail' K R]; [eexists; right; reflexivity|].
  unfold succeeds in *. rewrite K in H. injection H as H1 H2 H3. apply okr_inj in H1. destruct H1 as [_ ->]. subst text'. apply app_inv_tail in Et. subst w'.
  destruct (IH _ _ R) as [more [-> | ->]]; exists more; auto.
Qed.
Lemma begins_reads {S A} (p : parser C S A) pos text vs tail : begins p pos text vs tail -> forall vs' tail', reads p pos text vs' tail' -> exists more, vs' = vs ++ more.
Proof.
  induction 1 as [pos text|pos w text c v vs tail H _ IH]; intros vs' tail' R; [exists vs'; auto|].
  remember (w ++ text) as t eqn:Et. destruct R as [pos t c' K|pos w' text' c' v' vs' tail' K R].
  - exfalso. destruct K as [e [r [i' [H1 [H2 H3]]]]]. unfold succeeds in H. rewrite H in H1. inversion H1; subst. destruct c; discriminate.
  - unfold succeeds in *. rewrite K in H. injection H as H1 H2 H3. apply okr_inj in H1. destruct H1 as [_ ->]. subst text'. apply app_inv_tail in Et. subst w'.
    destruct (IH _ _ R) as [more ->]; exists more; auto.
Qed.

Lemma begins_all {S A} (p : parser C S A) pos text vs tail : begins p pos text vs tail -> (forall pos', exists c, fails (fresh p) (Inp tail pos' false) c) -> reads p pos text vs tail.
Proof. induction 1 as [pos text|pos w text c v vs tail H _ IH]; intros K; [destruct (K pos) as [c Kc]; econstructor; exact Kc|econstructor; eauto]. Qed.

Lemma run_byte_begins x a n h {S A} (p : parser C S A) : steady z x a n h (fun _ : unit => p) -> lib p ->
  forall pos cs m out, few (Inp (concat cs) pos false) -> run_byte_decoder m p pos cs = Done out -> byte_result p a pos (concat cs) out.
Proof.
  intros HS HL pos cs m out Hf Q. apply sd_any_partial_state in HS. destruct (proj1 (steady_sound z EL L D) _ _ _ _ _ _ _ _ HS) as [Cln HC]. destruct (HC tt) as [Res [H HR]].
  assert (FW : forward (any_partial_state p)) by (apply fwd_run, fwd_any_partial_state, lib_fwd, HL).
  assert (INV : forall b more, b ++ more = concat cs -> ginv Res false (Fd None b pos) pos (concat cs) more).
  { intros b more EB. exists [], [], b. cbn. split; [reflexivity|]. split; [reflexivity|]. split; [intros g _; apply (cb_res H); apply (cb_init H)|]. split; [auto|discriminate]. }
  assert (G : byte_result (any_partial_state p) a pos (concat cs) out).
  { unfold run_byte_decoder in Q. destruct cs as [|c cs].
    - eapply (begins_items _ _ _ _ _ _ _ H HR FW); [|exact Hf| |exact Q]; [apply INV; auto|reflexivity].
    - eapply (begins_items _ _ _ _ _ _ _ H HR FW); [|exact Hf| |exact Q]; [apply INV; reflexivity|discriminate]. }
  destruct G as [vs [tail [G1 G2]]]. exists vs, tail. split; [apply begins_any_partial; exact G1|]. destruct out as [vs'|[e|]]; [exact G2| |exact G2].
  destruct G2 as [G2 G3]. split; [exact G2|apply reads_any_partial; exact G3].
Qed.
Lemma run_byte_ends x a n h {S A} (p : parser C S A) : steady z x a n h (fun _ : unit => p) -> lib p -> productive (fresh p) ->
  forall pos cs m, few (Inp (concat cs) pos false) -> length (concat cs) + length cs + 1 < m -> returns (run_byte_decoder m p pos cs).
Proof.
  intros HS HL TS pos cs m Hf Hm. apply sd_any_partial_state in HS. destruct (proj1 (steady_sound z EL L D) _ _ _ _ _ _ _ _ HS) as [Cln HC]. destruct (HC tt) as [Res [H HR]].
  assert (FW : forward (any_partial_state p)) by (apply fwd_run, fwd_any_partial_state, lib_fwd, HL).
  assert (TS' : productive (fresh (any_partial_state p))) by (intros i r i' K; rewrite fresh_any_partial in K; eapply TS; exact K).
  assert (INV : forall b more, b ++ more = concat cs -> ginv Res false (Fd None b pos) pos (concat cs) more).
  { intros b more EB. exists [], [], b. cbn. split; [reflexivity|]. split; [reflexivity|]. split; [intros g _; apply (cb_res H); apply (cb_init H)|]. split; [auto|discriminate]. }
  unfold run_byte_decoder. destruct cs as [|c cs].
  - eapply (byte_items_end _ _ _ _ _ _ _ H HR FW _ TS'); [apply INV; auto|exact Hf|reflexivity|cbn in *; lia].
  - eapply (byte_items_end _ _ _ _ _ _ _ H HR FW _ TS'); [apply INV; reflexivity|exact Hf|discriminate|cbn [length] in *; lia].
Qed.
End Bytes.

(** Messages of a fixed length: what is left at the end is less than one message. *)
Section Fixed.
Context {C : Cfg}.
Notation T := (tok C).
Notation E := (Err C).
Variable z : nat.
Notation few := (TotalSpec.fits z).
Variable EL : eoi_laws C.
Variable W : forall t, width C t = 1.
Variable L : lawful C.
Variable D : pos_distinct C.

Definition counted {S A} (n : nat) (R : nat -> S -> Prop) (p : parser C S A) : Prop := forall j st l pos r i' st', R j st -> p_run p false (Inp l pos true) st = Done (r, i', st') ->
  match r with
  | CommitOk _ | PeekOk _ => R 0 st'
  | CommitErr e => e_is_eoi C e = true /\ R (j + (length l - length (rest i'))) st' /\ j + length l < n
  | PeekErr _ => False
  end.

Lemma counted_step {S A} n R (p : parser C S A) : counted n R p -> forward p -> forall j d res d', R j (fd_state d) -> byte_decode p d = Done (res, d') ->
  match res with
  | inl (Some _) => R 0 (fd_state d')
  | inl None => R (j + (length (fd_src d) - length (fd_src d'))) (fd_state d') /\ j + length (fd_src d) < n
  | inr _ => False
  end.
Proof.
  intros HC FW j [st src pos] res d' HR. unfold byte_decode, decode, parse_with_state, parse_stream_partial. cbn [fd_src fd_pos fd_state] in *.
  destruct (p_run p false (Inp src pos true) st) as [[[r i'] st']| |] eqn:Q; try discriminate. specialize (HC _ _ _ _ _ _ _ HR Q).
  destruct (FW _ _ _ _ _ _ Q) as [u [U1 [U2 U3]]]. cbn [rest ipos ipart] in U1, U2, U3.
  assert (A1 : b_advance (distance i' (Inp src pos true)) (Buf src 0) = Done (Buf (rest i') 0)) by (apply (advance_to W u); auto).
  cbn [omap augment3 augment]. destruct r as [v|v|e|e]; cbn [entry_result obind omap]; [| | |contradiction].
  - rewrite A1. cbn. intros K. inversion K; subst. exact HC.
  - rewrite A1. cbn. intros K. inversion K; subst. exact HC.
  - destruct HC as [H1 [H2 H3]]. rewrite H1, U3, A1. cbn. intros K. inversion K; subst. cbn [fd_src fd_state]. auto.
Qed.

Section Run.
Context {S A : Type} (x a n h : bool) (Cln : bool -> S -> Prop) (Res : bool -> Pos C -> list T -> list T -> S -> Prop) (p : parser C S A) (size : nat) (R : nat -> S -> Prop).
Hypothesis H : chunk_by x a n h Cln Res p.
Hypothesis HR : ret_by z Cln Res p.
Hypothesis FW : forward p.
Hypothesis HC : counted size R p.
Definition behind (d : fdec (C:=C) S) (text more : list T) : nat := length text - (length (fd_src d) + length more).

Lemma ginv_len eof d pos0 text more : ginv Res eof d pos0 text more -> length (fd_src d) + length more <= length text.
Proof. intros [l [k [c [_ [E2 [_ [-> _]]]]]]]. rewrite E2, !app_length. lia. Qed.
Lemma counted_items m : forall cs eof d pos0 text out, ginv Res false d pos0 text (concat cs) -> few (Inp text pos0 false) -> R (behind d text (concat cs)) (fd_state d) -> (eof = true -> cs = []) ->
  byte_items m p eof d cs = Done out -> exists vs tail, begins p pos0 text vs tail /\ length tail < size /\ (out = inl vs \/ out = inr None /\ tail <> []).
Proof.
  induction m as [|m IH]; intros cs eof d pos0 text out HI Hf HB He; [discriminate|]. cbn [byte_items].
  destruct (any_step z EL W _ _ _ _ _ _ _ H HR FW _ _ _ _ _ HI Hf) as [res [d' [Q K]]]. rewrite <- (byte_decode_eq p FW) in Q. rewrite Q. cbn [obind].
  pose proof (counted_step size R p HC FW _ _ _ _ HB Q) as KC. pose proof (ginv_len _ _ _ _ _ HI) as HL. destruct res as [[v|]|e].
  - destruct K as [w [text' [c [-> [K1 [K2 K3]]]]]]. intros R1. destruct (byte_items m p eof d' cs) as [o| |] eqn:Q2; try discriminate.
    destruct (IH cs eof d' (pos_after pos0 w) text' o K2) as [vs [tail [R2 [R3 R4]]]]; [apply (few_len _ _ _ Hf); cbn [rest]; rewrite app_length; lia| |exact He|exact Q2|].
    { unfold behind. rewrite K3, app_length, Nat.sub_diag. exact KC. }
    exists (v :: vs), tail. split; [eapply begins_msg; eauto|]. split; [exact R3|]. cbn [omap] in R1. inversion R1; subst. destruct R4 as [->|[-> R4]]; auto.
  - destruct K as [_ K]. specialize (K eq_refl). destruct KC as [KC1 KC2].
    assert (NX : forall c more, concat cs = c ++ more -> ginv Res false (fd_add c d') pos0 text more /\ R (behind (fd_add c d') text more) (fd_state (fd_add c d'))).
    { intros c more Ec. specialize (K c more false Ec ltac:(discriminate)). split; [exact K|]. apply ginv_len in K. unfold fd_add, behind in *. cbn [fd_src fd_state] in *. rewrite app_length in *.
      replace (length text - (length (fd_src d') + length c + length more)) with (length text - (length (fd_src d) + length (concat cs)) + (length (fd_src d) - length (fd_src d'))); [exact KC1|].
      assert (LS : length (fd_src d') <= length (fd_src d)).
      { unfold byte_decode in Q. destruct (decode p _ _) as [[[[[o rl]|e0] i'] st']| |]; try discriminate. cbn [obind] in Q. unfold b_advance in Q. cbn [bbytes] in Q.
        destruct (rl <=? length (fd_src d)) eqn:Ql; [|discriminate]. cbn in Q. inversion Q; subst. cbn [fd_src]. rewrite skipn_length. lia. }
      rewrite Ec, app_length in *. lia. }
    destruct eof.
    + rewrite (He eq_refl) in *. destruct (NX [] [] eq_refl) as [NX1 _]. rewrite fd_add_nil in NX1. intros R1. inversion R1; subst. exists [], text. split; [apply begins_stop|].
      assert (LT : length text < size) by (unfold behind in KC2; cbn [concat length] in *; lia). split; [exact LT|].
      destruct (fd_src d') as [|t r] eqn:Es; [auto|]. right. split; [reflexivity|]. intros ->. apply ginv_len in NX1. rewrite Es in NX1. cbn in NX1. lia.
    + destruct cs as [|c cs].
      * rewrite <- (fd_add_nil d'). destruct (NX [] [] eq_refl) as [N1 N2]. apply IH; [exact N1|exact Hf|exact N2|reflexivity].
      * destruct (NX c (concat cs) eq_refl) as [N1 N2]. apply IH; [exact N1|exact Hf|exact N2|discriminate].
  - contradiction.
Qed.
End Run.

(** [skip] of two parsers without state which read a fixed number of tokens. *)
Definition needs {A} (k : nat) (p : parser C unit A) : Prop := forall first l pos st r i' st', p_run p first (Inp l pos true) st = Done (r, i', st') ->
  match r with
  | CommitOk _ | PeekOk _ => length l = k + length (rest i')
  | CommitErr e => rest i' = l /\ length l < k /\ e_is_eoi C e = true
  | PeekErr _ => False
  end.
Lemma needs_num {A} (code : T -> N) k (dec : list N -> A) : needs k (num_parser code k dec).
Proof.
  intros first l pos [] r i' [] Q. destruct (num_parser_spec code k dec) as [H1 [H2 H3]]. assert (F : fresh (num_parser code k dec) (Inp l pos true) = Done (r, i')).
  { unfold fresh. change (p_run (num_parser code k dec) true (Inp l pos true) (p_init (num_parser code k dec))) with (p_run (num_parser code k dec) first (Inp l pos true) tt). rewrite Q. reflexivity. }
  assert (OKS : forall c v, r = okr c v -> length l = k + length (rest i')).
  { intros c v ->. apply H1 in F. destruct F as [w [F1 [[F2 _] _]]]. cbn [rest] in F2. rewrite F2, app_length. lia. }
  destruct r as [v|v|e|e]; [exact (OKS true v eq_refl)|exact (OKS false v eq_refl)| |].
  - assert (K : fails_with (fresh (num_parser code k dec)) (Inp l pos true) true e) by (exists (CommitErr e), i'; auto).
    apply H2 in K. destruct K as [K1 [_ ->]]. rewrite (H3 _ _ _ F eq_refl). cbn [rest]. split; [reflexivity|]. split; [exact K1|rewrite (el_from EL); apply (el_se EL)].
  - assert (K : fails_with (fresh (num_parser code k dec)) (Inp l pos true) false (terr e)) by (exists (PeekErr e), i'; auto).
    apply H2 in K. destruct K as [_ [K _]]. discriminate K.
Qed.
Lemma needs_take k : needs k (take k).
Proof.
  intros first l pos [] r i' [] Q. change (Done (fst (s_uncons_range (Inp l pos true) k), snd (s_uncons_range (Inp l pos true) k), tt) = Done (r, i', tt)) in Q || idtac. unfold s_uncons_range, uncons_range in Q. cbn [rest] in Q. rewrite (slice_split W) in Q.
  destruct (k <=? length l) eqn:Hk.
  - apply Nat.leb_le in Hk. assert (K : i' = advance (Inp l pos true) (firstn k l) (skipn k l) /\ r = (if k =? 0 then PeekOk (firstn k l) else CommitOk (firstn k l))) by (destruct (k =? 0); inversion Q; auto).
    destruct K as [-> ->]. unfold advance. cbn [rest]. rewrite skipn_length. destruct (k =? 0); lia.
  - apply Nat.leb_gt in Hk. cbn in Q. inversion Q; subst. cbn [rest]. split; [reflexivity|]. split; [exact Hk|]. rewrite (el_from EL). apply (el_se EL).
Qed.
Lemma needs_ignore {A} k (p : parser C unit A) : needs k p -> needs k (ignore p).
Proof.
  intros H first l pos st r i' st' Q. cbn [p_run ignore mk_both] in Q. destruct (p_run p first (Inp l pos true) st) as [[[r0 i0] s0]| |] eqn:Q0; try discriminate.
  specialize (H _ _ _ _ _ _ _ Q0). cbn in Q. inversion Q; subst. destruct r0; exact H.
Qed.
Definition two_state {A B} (k : nat) (j : nat) (st : option (((option A * unit) * (option B * unit)) * N)) : Prop :=
  match st with
  | None => j = 0
  | Some (((v1, _), (v2, _)), _) => v2 = None /\ j = match v1 with Some _ => k | None => 0 end
  end.
Lemma counted_skip {A B} k1 k2 (p : parser C unit A) (q : parser C unit B) : forward p -> needs k1 p -> needs k2 q -> counted (k1 + k2) (two_state (A:=A) (B:=unit) k1) (any_partial_state (skip p q)).
Proof.
  intros FW H1 H2'. pose proof (needs_ignore _ _ H2') as H2. clear H2'. set (q' := ignore q) in *.
  assert (G : forall j v1 off l pos r i' st', j = match v1 with Some _ => k1 | None => 0 end -> tuple_run (TC p (T1 q')) false (Inp l pos true) ((v1, tt, (None, tt)), off) = Done (r, i', st') ->
    match r with
    | CommitOk _ | PeekOk _ => two_state (A:=A) (B:=unit) k1 0 (Some st')
    | CommitErr e => e_is_eoi C e = true /\ two_state (A:=A) (B:=unit) k1 (j + (length l - length (rest i'))) (Some st') /\ j + length l < k1 + k2
    | PeekErr _ => False
    end).
  { intros j v1 off l pos r i' st' Hj. unfold tuple_run. cbn [seq_all seq_rest fst snd]. unfold seq_head.
    assert (SECOND : forall a f fep (l2 : list T) pos2 off2 s2, s2 = tt ->
      obind (omap (fun y => match y with (k2', i2, s2', off2') => (k2', i2, ((Some a, s2), s2'), off2') end) (seq_elem q' f 0 fep (Inp l2 pos2 true) (None, tt) off2))
        (fun x => match x with (k, i'0, s', off') => match k with
          | KCommit e => Done (CommitErr e, i'0, (s', off'))
          | KHead e => Done (PeekErr e, i'0, (s', off'))
          | KPeek e fep0 => let (r0, i2) := add_errors i'0 e fep0 off' (tup_errfns (TC p (T1 q'))) in Done (r0, i2, (s', off'))
          | KOk _ _ fep0 => match tup_take (TC p (T1 q')) s' with Some (b, s3) => Done (if fep0 =? 0 then PeekOk b else CommitOk b, i'0, (s3, off')) | None => Panic end
          end end) = Done (r, i', st') ->
      match r with
      | CommitOk _ | PeekOk _ => two_state (A:=A) (B:=unit) k1 0 (Some st')
      | CommitErr e => e_is_eoi C e = true /\ two_state (A:=A) (B:=unit) k1 k1 (Some st') /\ rest i' = l2 /\ length l2 < k2
      | PeekErr _ => False
      end).
    { intros a f fep l2 pos2 off2 s2 ->. unfold seq_elem. cbn [is_none]. rewrite orb_true_r. destruct (p_run q' f (Inp l2 pos2 true) tt) as [[[r2 i2] []]| |] eqn:Q2; try discriminate.
      specialize (H2 _ _ _ _ _ _ _ Q2). cbn [omap]. destruct r2 as [b|b|e|e]; cbn [omap obind tup_take fst snd]; [| | |contradiction].
      - intros K. destruct (_ =? 0) in K; inversion K; subst; cbn; auto.
      - intros K. destruct (_ =? 0) in K; inversion K; subst; cbn; auto.
      - intros K. inversion K; subst. destruct H2 as [K1 [K2 K3]]. cbn. auto. }
    destruct v1 as [a|]; cbn [is_none orb].
    - cbn [obind]. intros K. apply SECOND in K; [|reflexivity]. subst j. destruct r as [v|v|e|e]; auto. destruct K as [K1 [K2 [K3 K4]]]. split; [exact K1|]. rewrite K3, Nat.sub_diag, Nat.add_0_r. split; [exact K2|lia].
    - destruct (p_run p false (Inp l pos true) tt) as [[[r1 i1] []]| |] eqn:Q1; try discriminate. specialize (H1 _ _ _ _ _ _ _ Q1).
      pose proof Q1 as Q1'. cbn [omap]. destruct r1 as [a|a|e|e]; cbn [obind]; [| | |contradiction].
      + cbn [omap]. destruct (FW _ _ _ _ _ _ Q1) as [u [U1 [_ U3]]]. cbn [rest ipart] in U1, U3. destruct i1 as [l2 pos2 f2]. cbn [rest ipart] in *. subst f2 j. intros K. apply SECOND in K; [|reflexivity].
        destruct r as [v|v|e|e]; auto. destruct K as [K1 [K2 [K3 K4]]]. split; [exact K1|]. rewrite K3. replace (0 + (length l - length l2)) with k1 by lia. split; [exact K2|lia].
      + cbn [omap]. destruct (FW _ _ _ _ _ _ Q1) as [u [U1 [_ U3]]]. cbn [rest ipart] in U1, U3. destruct i1 as [l2 pos2 f2]. cbn [rest ipart] in *. subst f2 j. intros K. apply SECOND in K; [|reflexivity].
        destruct r as [v|v|e|e]; auto. destruct K as [K1 [K2 [K3 K4]]]. split; [exact K1|]. rewrite K3. replace (0 + (length l - length l2)) with k1 by lia. split; [exact K2|lia].
      + intros K. inversion K; subst. destruct H1 as [K1 [K2 K3]]. rewrite K1. split; [exact K3|]. cbn. split; [split; [reflexivity|lia]|lia]. }
  assert (MP : forall (r : PR (A * unit) E) X (P : E -> Prop), match r with CommitOk _ | PeekOk _ => X | CommitErr e => P e | PeekErr _ => False end ->
    match pr_map fst r with CommitOk _ | PeekOk _ => X | CommitErr e => P e | PeekErr _ => False end) by (intros [v|v|e|e] X P K; exact K).
  intros j [[[[v1 []] [v2 []]] off]|] l pos r i' st' HR Q; cbn [p_run any_partial_state mk_both any_partial_run skip mk_mode] in Q; fold q' in Q.
  - destruct HR as [-> Hj]. cbn [p_run pair2 tuple mk_mode] in Q. destruct (tuple_run (TC p (T1 q')) false (Inp l pos true) _) as [[[r0 i0] s0]| |] eqn:Q0; try discriminate.
    apply (G j) in Q0; [|exact Hj]. cbn in Q. inversion Q; subst. apply MP in Q0. exact Q0.
  - cbn in HR. subst j. assert (EI : p_init (skip p q) = ((None, tt, (None, tt)), 0%N)) by (change (p_init (skip p q)) with ((@None A, p_init p, (@None unit, p_init q)), 0%N); destruct (p_init p), (p_init q); reflexivity).
    rewrite EI in Q. cbn [p_run pair2 tuple mk_mode] in Q. destruct (tuple_run (TC p (T1 q')) false (Inp l pos true) _) as [[[r0 i0] s0]| |] eqn:Q0; try discriminate.
    apply (G 0) in Q0; [|reflexivity]. cbn in Q. inversion Q; subst. destruct r0 as [v|v|e|e]; cbn [pr_map]; try reflexivity; exact Q0.
Qed.

Lemma run_byte_fixed {A B} x a n h k1 k2 (p : parser C unit A) (q : parser C unit B) : steady z x a n h (fun _ : unit => skip p q) -> lib p -> lib q -> needs k1 p -> needs k2 q ->
  forall pos cs m out, few (Inp (concat cs) pos false) -> run_byte_decoder m (skip p q) pos cs = Done out ->
  exists vs tail, begins (skip p q) pos (concat cs) vs tail /\ length tail < k1 + k2 /\ (out = inl vs \/ out = inr None /\ tail <> []).
Proof.
  intros HS HLp HLq N1 N2 pos cs m out Hf Q. apply sd_any_partial_state in HS. destruct (proj1 (steady_sound z EL L D) _ _ _ _ _ _ _ _ HS) as [Cln HC]. destruct (HC tt) as [Res [H HR]].
  assert (FW : forward (any_partial_state (skip p q))) by (apply fwd_run, fwd_any_partial_state, lib_fwd, lib_skip; assumption).
  assert (CT : counted (k1 + k2) (two_state (A:=A) (B:=unit) k1) (any_partial_state (skip p q))) by (apply counted_skip; auto; apply fwd_run, lib_fwd, HLp).
  assert (INV : forall b more, b ++ more = concat cs -> ginv Res false (Fd None b pos) pos (concat cs) more /\ two_state (A:=A) (B:=unit) k1 (behind (Fd (@None ((option A * unit) * (option unit * unit) * N)) b pos) (concat cs) more) None).
  { intros b more EB. split; [|unfold two_state, behind; cbn [fd_src]; rewrite <- EB, app_length; lia].
    exists [], [], b. cbn. split; [reflexivity|]. split; [reflexivity|]. split; [intros g _; apply (cb_res H); apply (cb_init H)|]. split; [auto|discriminate]. }
  assert (G : exists vs tail, begins (any_partial_state (skip p q)) pos (concat cs) vs tail /\ length tail < k1 + k2 /\ (out = inl vs \/ out = inr None /\ tail <> [])).
  { unfold run_byte_decoder in Q. destruct cs as [|c cs].
    - destruct (INV [] [] eq_refl) as [I1 I2]. exact (counted_items _ _ _ _ _ _ _ _ _ H HR FW CT m [] true _ pos _ out I1 Hf I2 (fun _ => eq_refl) Q).
    - destruct (INV c (concat cs) eq_refl) as [I1 I2]. exact (counted_items _ _ _ _ _ _ _ _ _ H HR FW CT m cs false _ pos _ out I1 Hf I2 ltac:(discriminate) Q). }
  destruct G as [vs [tail [G1 G2]]]. exists vs, tail. split; [apply begins_any_partial; exact G1|exact G2].
Qed.
Lemma begins_whole {X S A} (p : parser C S A) (ok : X -> Prop) (enc : X -> list T) (out : X -> A) size : size <> 0 ->
  (forall x r, ok x -> exists c, eats (fresh p) (enc x) r c (out x)) -> (forall x, ok x -> length (enc x) = size) -> stops (fresh p) [] ->
  forall pos text vs tail, begins p pos text vs tail -> length tail < size -> forall ms, Forall ok ms -> text = concat (List.map enc ms) -> vs = List.map out ms /\ tail = [].
Proof.
  intros Hz He Hl Hs pos text vs tail B Ht. induction B as [pos text|pos w text c v vs tail K B IH]; intros ms Hms E0.
  - subst text. destruct Hms as [|m ms Hm Hms]; [auto|]. exfalso. cbn [List.map concat] in Ht. rewrite app_length, (Hl m Hm) in Ht. lia.
  - destruct Hms as [|m ms Hm Hms].
    + exfalso. cbn in E0. rewrite E0 in K. destruct (Hs pos) as [e [r [i' [K1 [K2 _]]]]]. unfold succeeds in K. rewrite K in K1. inversion K1; subst. destruct c; discriminate.
    + cbn [List.map concat] in E0. destruct (He m (concat (List.map enc ms)) Hm) as [c' Hc]. specialize (Hc pos). rewrite E0 in K. unfold succeeds in *. rewrite K in Hc. injection Hc as H1 H2 H3.
      apply okr_inj in H1. destruct H1 as [_ ->]. destruct (IH Ht ms Hms H2) as [-> ->]. auto.
Qed.
End Fixed.

Section Num.
Context {C : Cfg} (EL : eoi_laws C) (L : lawful C) (D : pos_distinct C) (SL : is_slice (C:=C)).
Notation T := (tok C).
Variable code : T -> N.
Variable lit : N -> T.
Hypothesis code_lit : forall n, (n < 256)%N -> code (lit n) = n.
Lemma fixed_steady {A} k l (dec : list N -> A) : k <> 0 -> l <> 0 -> forall z, steady z false false false true (fun _ : unit => skip (num_parser code k dec) (take l)).
Proof.
  intros Hk Hl z. apply (sd_skip (x1 := true) (a1 := true) (n1 := false) (h1 := true) (x2 := true) (a2 := true) (n2 := false) (h2 := true)).
  - apply (sd_num_parser z (fun _ : unit => code) (fun _ => k) (fun _ => dec)). intros _. exact Hk.
  - apply (sd_take_some z (fun _ : unit => l)); [exact SL|intros _; exact Hl].
Qed.
Lemma num_steady z : steady z false false false true (fun _ : unit => num_test_parser code).
Proof. apply fixed_steady; discriminate. Qed.
Lemma num_eats n r : (n < 65536)%N -> exists c, eats (fresh (num_test_parser code)) (num_text lit n) r c n.
Proof.
  intros Hn. assert (H1 : (n / 256 < 256)%N) by (apply N.div_lt_upper_bound; [discriminate|exact Hn]). assert (H2 : (n mod 256 < 256)%N) by (apply N.mod_lt; discriminate).
  exists (true || negb (2 =? 0)). apply (eats_skip _ _ [lit (n / 256)%N; lit (n mod 256)%N] (f_crlf lit) r _ _ n (f_crlf lit)).
  - intros pos. apply (proj1 (num_parser_spec code 2 be_value)). exists [lit (n / 256)%N; lit (n mod 256)%N]. split; [reflexivity|]. split; [apply adv|]. split; [|reflexivity].
    cbn [List.map]. rewrite !code_lit by assumption. pose proof (N.div_mod n 256 ltac:(discriminate)) as Q. unfold be_value. cbn [fold_left]. lia.
  - intros pos. apply (take_spec L). split; [apply adv|]. split; [|reflexivity]. rewrite (slice_units SL). reflexivity.
Qed.
Lemma num_stops : stops (fresh (num_test_parser code)) [].
Proof.
  apply stops_skip. intros pos. eexists. apply (proj1 (proj2 (num_parser_spec code 2 be_value))). cbn [rest length]. split; [lia|]. split; [reflexivity|reflexivity].
Qed.
Lemma num_productive : productive (fresh (num_test_parser code)).
Proof.
  intros i r i' Q Hr. assert (K : exists c v, succeeds (fresh (num_test_parser code)) i c v i') by (destruct r as [v|v|e|e]; try discriminate Hr; [exists true, v|exists false, v]; exact Q).
  destruct K as [c [v K]]. apply (proj1 (skip_runs (be_u code 2) (take 2))) in K. destruct K as [a [b [c1 [c2 [i1 [K1 [K2 _]]]]]]].
  apply (proj1 (num_parser_spec code 2 be_value)) in K1. destruct K1 as [l [Hl [[K1 _] _]]]. apply (take_spec L) in K2. destruct K2 as [[K2 _] _]. unfold shorter. rewrite K1, K2, !app_length. lia.
Qed.
Lemma num_gives : forall pos cs ms m, Forall (fun n => (n < 65536)%N) ms -> concat cs = concat (List.map (num_text lit) ms) -> 2 * length (concat cs) + 1 < fuel C -> length (concat cs) + length cs + 1 < m ->
  run_byte_decoder m (num_test_parser code) pos cs = Done (inl ms).
Proof.
  intros pos cs ms m Hms Hc Hf Hm. set (z := Datatypes.S (length (concat cs))). assert (Hz : TotalSpec.fits z (Inp (concat cs) pos false)) by (split; cbn [rest]; unfold z; lia).
  assert (HL : lib (num_test_parser code)) by (apply lib_skip; [apply lib_num_parser|apply lib_take]).
  destruct (run_byte_ends z EL SL L D _ _ _ _ _ (num_steady z) HL num_productive pos cs m Hz Hm) as [out Q]. rewrite Q.
  destruct (run_byte_fixed z EL SL L D _ _ _ _ 2 2 (be_u code 2) (take 2) (num_steady z) (lib_num_parser _ _ _) (lib_take _) (needs_num EL code 2 be_value) (needs_take EL SL 2) pos cs m out Hz Q) as [vs [tail [B [Ht HO]]]].
  destruct (begins_whole _ (fun n => (n < 65536)%N) (num_text lit) (fun n => n) 4 ltac:(lia) (fun n r Hn => num_eats n r Hn) (fun _ _ => eq_refl) num_stops _ _ _ _ B Ht ms Hms Hc) as [-> ->].
  rewrite map_id in HO. destruct HO as [->|[_ HO]]; [reflexivity|contradiction].
Qed.
End Num.
