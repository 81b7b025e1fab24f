(** Proofs for C80: parsers whose second part depends on a number read by the first. *)
From Coq Require Import String List Bool Arith NArith Lia.
Import ListNotations.
From Verif Require Import Base Errors Instances Parser Sequence Repeat Choice Combinator Token RangeP ByteP Spec SeqSpec ChoiceSpec RepeatSpec RangeSpec TidySpec LibSpec AgreeSpec ChunkSpec TotalSpec SteadySpec FramedM FramedM2 LspM LspSpec FramedSpec FramedSpec2.
From Verif Require Import TokenProofs ResultProofs SeqProofs CombProofs CombProofs2 ChoiceProofs RepeatProofs RepeatProofs2 RepeatProofs4 TidyProofs ForwardProofs RangeProofs RangeProofs2 ByteProofs LspProofs FramedProofs FramedProofs2 FramedProofs3.
Unset Implicit Arguments.

Section Sized.
Context {C : Cfg} (EL : eoi_laws C) (L : lawful C) (D : pos_distinct C) (SL : is_slice (C:=C)) (SK : set_keeps C).
Notation T := (tok C).
Notation E := (Err C).
Variable code : T -> N.
Variable lit : N -> T.
Hypothesis code_lit : forall n, (n < 256)%N -> code (lit n) = n.
Notation at_ l pos := (@Inp C l pos false).
Notation dig := (c_digit code).

(** Messages one after the other, where what follows a message is the start of another. *)
Lemma frames_when {X S A} (p : parser C S A) (ok : X -> Prop) (enc : X -> list T) (out : X -> A) (R : list T -> Prop) N :
  (forall x r, ok x -> R r -> length (enc x) <= N -> exists c, eats (fresh p) (enc x) r c (out x)) -> R [] -> (forall x r, ok x -> R (enc x ++ r)) -> stops (fresh p) [] ->
  forall ms, Forall ok ms -> length (concat (List.map enc ms)) <= N -> forall pos, frames p pos (concat (List.map enc ms)) (List.map out ms).
Proof.
  intros Hp R0 RE Hs. induction 1 as [|m ms Hm Hms IH]; intros Hl pos; [constructor; apply Hs|]. cbn [List.map concat] in *. rewrite app_length in Hl.
  assert (HR : R (concat (List.map enc ms))) by (destruct Hms as [|m' ms' H1 H2]; [exact R0|cbn [List.map concat]; apply RE; exact H1]).
  destruct (Hp m (concat (List.map enc ms)) Hm HR ltac:(lia)) as [c Hc]. econstructor; [apply Hc|]. apply IH. lia.
Qed.
Lemma decodes_when {X S A} (p : parser C S A) (ok : X -> Prop) (enc : X -> list T) (out : X -> A) (R : list T -> Prop) x a n h :
  (forall z, steady z x a n h (fun _ : unit => p)) ->
  (forall m r, ok m -> R r -> length (enc m) < fuel C -> exists c, eats (fresh p) (enc m) r c (out m)) -> R [] -> (forall m r, ok m -> R (enc m ++ r)) -> (0 < fuel C -> stops (fresh p) []) ->
  forall pos cs ms m, Forall ok ms -> concat cs = concat (List.map enc ms) -> 2 * length (concat cs) + 1 < fuel C -> length ms + length cs + 1 < m ->
  run_decoder m p pos cs = Done (inl (List.map out ms)).
Proof.
  intros Hst Hp R0 RE Hs pos cs ms m Hms Hc Hf Hm.
  assert (W : forall t, width C t = 1) by exact SL.
  apply (run_decoder_gives (Datatypes.S (length (concat cs))) EL W L D x a n h p (Hst _)).
  - exact (proj1 (steady_keeps EL SK (Datatypes.S (length (concat cs)))) _ _ _ _ _ _ _ _ (Hst _) tt).
  - rewrite Hc. apply (frames_when p ok enc out R (length (concat cs))); auto; [|apply Hs; lia|rewrite Hc; lia]. intros y r Hy HR Hl. apply Hp; auto. lia.
  - split; cbn [rest]; lia.
  - rewrite map_length. exact Hm.
Qed.

Lemma eats_triple {S1 S2 S3 A B B3} (p : parser C S1 A) (q : parser C S2 B) (s : parser C S3 B3) w u y r c1 c2 c3 v x o : eats (fresh p) w (u ++ y ++ r) c1 v ->
  eats (fresh q) u (y ++ r) c2 x -> eats (fresh s) y r c3 o ->
  eats (fresh (tuple (TC p (TC q (T1 s))))) (w ++ u ++ y) r (c1 || (c2 || c3)) (v, (x, o)).
Proof.
  intros H1 H2 H3 pos. apply tuple_succeeds. cbn. exists c1. eexists. exists (c2 || c3). rewrite !pos_app, <- !app_assoc. split; [apply H1|].
  split; [|reflexivity]. exists c2. eexists. exists c3. split; [apply H2|]. split; [apply H3|reflexivity].
Qed.
Lemma eats_then {S1 A S2 B} (p : parser C S1 A) (s0 : S2) (f : A -> parser C S2 B) w u r c1 c2 v x : (forall a, p_init (f a) = s0) -> (forall a, cmode_agrees (f a)) ->
  eats (fresh p) w (u ++ r) c1 v -> eats (fresh (f v)) u r c2 x -> eats (fresh (then_ p s0 f)) (w ++ u) r (c1 || c2) x.
Proof.
  intros Hi Hc H1 H2 pos. apply (then_runs p s0 f Hi Hc). exists c1, v, (at_ (u ++ r) (pos_after pos w)), c2, x. rewrite pos_app, <- app_assoc.
  split; [apply H1|]. split; [apply H2|]. auto.
Qed.
Lemma stops_then {S1 A S2 B} (p : parser C S1 A) (s0 : S2) (f : A -> parser C S2 B) r : (forall a, p_init (f a) = s0) -> (forall a, cmode_agrees (f a)) ->
  stops (fresh p) r -> stops (fresh (then_ p s0 f)) r.
Proof. intros Hi Hc H pos. apply (then_runs p s0 f Hi Hc). left. apply H. Qed.
Lemma eats_from_str {S A B} (p : parser C S A) (g : A -> option (B + string)) w r c v x : eats (fresh p) w r c v -> g v = Some (inl x) -> eats (fresh (from_str p g)) w r c x.
Proof.
  intros H Hg. unfold from_str. intros pos.
  match goal with |- succeeds (fresh (mk_mode (p_init ?q) _ _ _ _)) ?i ?c ?a ?j => change (succeeds (fresh q) i c a j) end.
  apply (and_then_spec L). exists v. split; [apply H|]. rewrite Hg. reflexivity.
Qed.

Lemma numeral_text ds n : numeral ds n -> number_text code (List.map lit ds).
Proof.
  intros H. destruct (numeral_digits code lit code_lit ds n H) as [H1 [H2 _]]. split; [destruct ds; [congruence|discriminate]|].
  rewrite Forall_forall in *. intros t Ht. apply in_map_iff in Ht. destruct Ht as [d [<- Hd]]. destruct (H1 d Hd) as [K1 K2].
  unfold is_digit. rewrite code_lit by exact K2. unfold is_ascii_digit in K1. apply andb_true_iff in K1. rewrite !N.leb_le in K1. exact K1.
Qed.
Lemma gap_eats k r : not_at (eq (lit 32)) r -> k < fuel C -> eats (fresh (skip_many (f_tk lit 32))) (repeat (lit 32) k) r (consumed_some (repeat (lit 32) k)) tt.
Proof.
  intros Hr Hk. apply eats_skip_many. apply (eats_many (f_tk lit 32) (eq (lit 32))); [| |apply (stops_token L); exact Hr|rewrite repeat_length; exact Hk].
  - intros t r' <-. apply (eats_token L).
  - apply Forall_forall. intros t Ht. apply repeat_spec in Ht. auto.
Qed.
Lemma eats_any t r : eats (fresh (@any C)) [t] r true t.
Proof.
  intros pos. apply (single_succeeds _ _ any_single).
  - intros u x y -> ->. reflexivity.
  - intros u. left. exists u. reflexivity.
  - exists t. split; [apply adv|auto].
Qed.
Lemma eats_count w r : eats (fresh (count_min_max (length w) (length w) (@any C))) w r (consumed_some w) w.
Proof.
  intros pos. apply (cmm_ok _ (hf_u _)); [lia|]. split; [|split; [lia|auto]]. apply (eats_reps (@any C) (fun _ => True)); [intros; apply eats_any|].
  apply Forall_forall. auto.
Qed.

(** [prefix_many_then_parser] *)
Notation PM := (prefix_many_then_parser code lit).
Lemma prefix_steady z : steady z false false false false (fun _ : unit => PM).
Proof.
  apply sd_any_partial_state. unfold then_partial.
  apply (sd_then (z := z) (x1 := false) (a1 := false) (n1 := false) (h1 := true) (x2 := false) (a2 := false) (n2 := false) (h2 := false) (p := fun _ : unit => prefix_head code lit)
    (s0 := (0, [], tt)) (q := fun jt : unit * (T * (unit * N)) => count_min_max (N.to_nat (snd (snd (snd jt)))) (N.to_nat (snd (snd (snd jt)))) (@any C))).
  - apply sd_tuple. apply (sd_TC (x := true) (a := true) (n := false) (h := true) (x2 := false) (n2 := false) (h2 := true)).
    + apply (sd_token z (fun _ : unit => _)).
    + apply (sd_TC (x := true) (a := false) (n := true) (h := true) (x2 := false) (n2 := false) (h2 := true)).
      * apply st_skip_many; [apply (sd_token z (fun _ : unit => _))|apply sol_token].
      * apply (sd_T1 (a := false)). apply (sd_from_str (x := true) (a := false) (n := false) (z := z) (f := fun _ : unit => many1 dig) (fun _ : unit => parse_usize code)).
        apply st_many1; [apply st_dig|apply so_dig].
  - refine (sd_count_by (z := z) (a := true) (n := false) (h := true) (f := fun _ : unit * (T * (unit * N)) => @any C) (fun jt => N.to_nat (snd (snd (snd jt)))) (fun jt => N.to_nat (snd (snd (snd jt)))) _ _ _).
    + apply sd_any.
    + intros. apply hf_u.
    + intros. lia.
  - reflexivity.
Qed.
Lemma hash_eats m r : sized_ok m -> told_apart code m -> not_at (is_digit code) r -> length (hash_text lit m) < fuel C -> exists c, eats (fresh PM) (hash_text lit m) r c (sz_body m).
Proof.
  intros [H1 H2] H3 Hr Hf. unfold hash_text in *. destruct m as [k ds w]. unfold told_apart in H3. cbn [sz_gap sz_digits sz_body] in *. rewrite !app_length in Hf. cbn in Hf. rewrite repeat_length, map_length in Hf.
  destruct (numeral_text ds _ H1) as [N1 N2]. eexists.
  apply (fresh_eq_succeeds (fresh (then_ (prefix_head code lit) (0, [], tt) (fun t => count_min_max (N.to_nat (snd (snd t))) (N.to_nat (snd (snd t))) any)))); [intros i; symmetry; apply fresh_any_partial|].
  replace ([lit 35] ++ repeat (lit 32) k ++ List.map lit ds ++ w) with (([lit 35] ++ repeat (lit 32) k ++ List.map lit ds) ++ w) by (rewrite <- !app_assoc; reflexivity).
  apply (eats_then _ _ _ _ w r (true || (consumed_some (repeat (lit 32) k) || true)) (consumed_some w) (lit 35, (tt, N.of_nat (length w)))); [reflexivity|intros; apply default_cmode_agrees; reflexivity| |].
  - apply eats_triple; [apply (eats_token L)| |].
    + apply gap_eats; [|lia]. destruct (List.map lit ds) as [|t d]; [congruence|]. cbn. intros K. inversion N2; subst. unfold is_digit in *. rewrite code_lit in *; lia.
    + eapply eats_from_str; [|apply (parse_numeral code lit code_lit ds _ H1 H2)].
      apply (eats_many1 dig (is_digit code)); auto; [apply (eats_dig code lit code_lit)| |rewrite map_length; lia]. apply (stops_dig code lit code_lit). destruct w as [|t w]; [exact Hr|exact H3].
  - cbn [snd]. rewrite Nat2N.id. apply eats_count.
Qed.
Lemma prefix_stops : stops (fresh PM) [].
Proof.
  apply (fresh_eq_succeeds (fresh (then_ (prefix_head code lit) (0, [], tt) (fun t => count_min_max (N.to_nat (snd (snd t))) (N.to_nat (snd (snd t))) any)))); [intros i; symmetry; apply fresh_any_partial|].
  apply stops_then; [reflexivity|intros; apply default_cmode_agrees; reflexivity|]. apply stops_tuple. apply (stops_token L). exact I.
Qed.
Lemma prefix_decodes pos cs ms n : Forall (fun m => sized_ok m /\ told_apart code m) ms -> concat cs = concat (List.map (hash_text lit) ms) ->
  2 * length (concat cs) + 1 < fuel C -> length ms + length cs + 1 < n -> run_decoder n PM pos cs = Done (inl (List.map (@sz_body C) ms)).
Proof.
  apply (decodes_when PM (fun m => sized_ok m /\ told_apart code m) (hash_text lit) (@sz_body C) (not_at (is_digit code)) false false false false).
  - apply prefix_steady.
  - intros m r [H1 H2] HR Hl. apply hash_eats; auto.
  - exact I.
  - intros m r _. unfold hash_text. cbn. unfold is_digit. rewrite code_lit by lia. lia.
  - intros _. apply prefix_stops.
Qed.

(** [content_length] *)
Notation CL := (content_length code lit).
Notation hdr := (lits lit "Content-Length: ").
Lemma so_crlf z b : solid z b true (range (f_crlf lit)).
Proof. pose proof (sol_range z b (f_crlf lit)) as K. unfold range_len, f_crlf in K. cbn [fold_right] in K. rewrite !SL in K. exact K. Qed.
Lemma digits_forward : forward (skip_many1 dig).
Proof. apply fwd_run, fwd_skip_many1, fwd_parser_fn0, fwd_byte_class. Qed.
Lemma content_steady z : steady z false false false false (fun _ : unit => CL).
Proof.
  apply sd_any_partial_state. unfold then_partial.
  apply (sd_then (z := z) (x1 := false) (a1 := false) (n1 := false) (h1 := true) (x2 := true) (a2 := true) (n2 := false) (h2 := false) (p := fun _ : unit => cl_header code lit)
    (s0 := tt) (q := fun jt : unit * (unit * (N * unit)) => map (take (N.to_nat (fst (snd (snd jt))))) (fun bytes : list T => bytes))).
  - apply sd_tuple. apply (sd_TC (x := true) (a := false) (n := true) (h := true) (x2 := false) (n2 := false) (h2 := true)).
    + apply st_skip_many; [apply (st_crlf SL)|apply so_crlf].
    + apply (sd_TC (x := false) (a := false) (n := false) (h := true) (x2 := true) (n2 := false) (h2 := true)).
      * apply (sd_with (x1 := true) (a1 := true) (n1 := false) (h1 := true) (x2 := true) (a2 := true) (n2 := false) (h2 := true)).
        -- apply (sd_range z (fun _ : unit => _)); [exact SL|discriminate].
        -- apply (sd_and_then (x := true) (a := true) (n := false) (z := z) (f := fun _ : unit => recognize_range (skip_many1 dig))
             (fun (_ : unit) digits => match parse_usize code digits with Some (inl n) => inl n | Some (inr msg) => inr (se_message C (IFormat msg)) | None => inr (se_message C (IFormat "invalid utf-8")) end)).
           ++ apply sd_parser_fn. refine (sd_map (fun _ => _) _). apply sd_recognize_with_value; [|intros; apply digits_forward]. apply st_skip_many1; [apply st_dig|apply so_dig].
           ++ intros j o e. destruct (parse_usize code o) as [[n|msg]|]; intros K; inversion K; apply (el_message EL).
      * apply (sd_T1 (a := true)). refine (sd_map (fun _ => _) _). apply (sd_range z (fun _ : unit => _)); [exact SL|discriminate].
  - refine (sd_map (fun _ => _) _). apply (sd_take z (fun jt : unit * (unit * (N * unit)) => N.to_nat (fst (snd (snd jt))))). exact SL.
  - reflexivity.
Qed.
Lemma cl_number_eats ds n r : numeral ds n -> (n < 2 ^ 64)%N -> length ds < fuel C -> not_at (is_digit code) r -> eats (fresh (cl_number code)) (List.map lit ds) r true n.
Proof.
  intros H Hn Hf Hr pos. destruct (numeral_text ds n H) as [N1 N2]. apply (and_then_spec L). exists (List.map lit ds). split; [|rewrite (parse_numeral code lit code_lit ds n H Hn); reflexivity].
  apply (recognize_range_spec L _ digits_forward). split.
  - exists true, tt. apply eats_skip_many1. apply (eats_many1 dig (is_digit code)); auto; [apply (eats_dig code lit code_lit)|apply (stops_dig code lit code_lit); exact Hr|rewrite map_length; lia].
  - split; [apply adv|]. destruct ds; [|reflexivity]. cbn in N1. congruence.
Qed.
Lemma length_eats m r : sized_ok m -> length (length_text lit m) < fuel C -> exists c, eats (fresh CL) (length_text lit m) r c (sz_body m).
Proof.
  intros [H1 H2] Hf. unfold length_text in *. destruct m as [k ds w]. cbn [sz_gap sz_digits sz_body] in *. rewrite !app_length, map_length in Hf.
  assert (Hk : k < fuel C).
  { assert (K : forall k, k <= length (eols lit k)) by (induction k0 as [|k0 IH]; cbn; lia). specialize (K k). lia. }
  set (d := List.map lit ds) in *. eexists.
  apply (fresh_eq_succeeds (fresh (then_ (cl_header code lit) tt (fun t => map (take (N.to_nat (fst (snd t)))) (fun bytes : list T => bytes))))); [intros i; symmetry; apply fresh_any_partial|].
  replace (eols lit k ++ ascii lit "Content-Length: " ++ d ++ eol lit ++ eol lit ++ w) with ((eols lit k ++ (hdr ++ d) ++ f_crlf lit ++ f_crlf lit) ++ w) by (rewrite <- !app_assoc; reflexivity).
  apply (eats_then _ _ _ _ w r (negb (k =? 0) || (true || true)) (negb (length w =? 0)) (tt, (N.of_nat (length w), tt))); [reflexivity|intros; apply (take_cmode EL SL)| |].
  - apply eats_triple.
    + intros pos. apply (eat_blank L lit k); [|exact Hk]. rewrite <- app_assoc. apply (hdr_not_crlf code lit code_lit).
    + intros pos. apply (with_runs _ _). exists true, hdr, (at_ (d ++ (f_crlf lit ++ f_crlf lit) ++ w ++ r) (pos_after pos hdr)), true, (N.of_nat (length w)). rewrite <- app_assoc, pos_app.
      split; [apply (eats_range L)|]. split; [|split; reflexivity]. apply cl_number_eats; [exact H1|exact H2|lia|]. apply (crlf_not_digit code lit code_lit).
    + apply (eats_map (range (f_crlf lit ++ f_crlf lit)) (fun _ => tt) _ (w ++ r) true (f_crlf lit ++ f_crlf lit)). apply (eats_range L).
  - cbn [fst snd]. rewrite Nat2N.id. apply eats_map with (g := fun bytes : list T => bytes). intros pos. apply (take_spec L). split; [apply adv|]. split; [|reflexivity]. apply (slice_units SL).
Qed.
Lemma content_stops : 0 < fuel C -> stops (fresh CL) [].
Proof.
  intros Hf. apply (fresh_eq_succeeds (fresh (then_ (cl_header code lit) tt (fun t => map (take (N.to_nat (fst (snd t)))) (fun bytes : list T => bytes))))); [intros i; symmetry; apply fresh_any_partial|].
  apply stops_then; [reflexivity|intros; apply (take_cmode EL SL)|]. intros pos. apply tuple_fails.
  assert (B : fresh (skip_many (range (f_crlf lit))) (at_ [] pos) = Done (okr false tt, at_ [] pos)) by (apply (eat_blank L lit 0 []); [intros s; discriminate|exact Hf]).
  assert (N0 : stops (fresh (with_ (range hdr) (cl_number code))) []).
  { intros pos0. apply (with_runs _ _). left. apply (stops_range L); discriminate. }
  destruct (fails_backtracks _ _ (N0 pos)) as [r0 [i0 [K1 K2]]]. destruct r0 as [?|?|?|e]; try discriminate.
  exists 1, false, (inr e), (at_ [] pos), i0. split; [|reflexivity]. right. exists false, tt, (at_ [] pos), 0, false. split; [exact B|].
  split; [|split; reflexivity]. left. auto.
Qed.
Lemma content_decodes pos cs ms n : Forall (@sized_ok C) ms -> concat cs = concat (List.map (length_text lit) ms) ->
  2 * length (concat cs) + 1 < fuel C -> length ms + length cs + 1 < n -> run_decoder n CL pos cs = Done (inl (List.map (@sz_body C) ms)).
Proof.
  apply (decodes_when CL (@sized_ok C) (length_text lit) (@sz_body C) (fun _ => True) false false false false); auto.
  - apply content_steady.
  - intros m r H1 _ Hl. apply length_eats; auto.
  - apply content_stops.
Qed.
End Sized.
