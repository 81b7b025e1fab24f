(** Proofs for C80: the parsers of tests/async.rs. *)
From Coq Require Import String List Bool Arith NArith Lia.
Import ListNotations.
From Verif Require Import Base Errors Instances Parser Sequence Repeat Choice Combinator Token RangeP ByteP Spec SeqSpec ChoiceSpec RepeatSpec RangeSpec TidySpec LibSpec AgreeSpec ChunkSpec TotalSpec SteadySpec FramedM FramedSpec.
From Verif Require Import TokenProofs ResultProofs CombProofs CombProofs2 ChoiceProofs RepeatProofs RepeatProofs2 RepeatProofs4 TidyProofs ForwardProofs RangeProofs RangeProofs2 ByteProofs FramedProofs FramedProofs2.
Unset Implicit Arguments.

Section Texts.
Context {C : Cfg} (EL : eoi_laws C) (L : lawful C) (D : pos_distinct C) (SL : is_slice (C:=C)) (SK : set_keeps C).
Notation T := (tok C).
Notation E := (Err C).
Variable code : T -> N.
Variable lit : N -> T.
Hypothesis code_lit : forall n, (n < 256)%N -> code (lit n) = n.
Notation at_ l pos := (@Inp C l pos false).

(** [p] takes [w] off the front of [w ++ r], and gives [v]. *)
Definition eats {A} (b : @beh C A) (w r : list T) (c : bool) (v : A) : Prop :=
  forall pos, succeeds b (at_ (w ++ r) pos) c v (at_ r (pos_after pos w)).
Definition stops {A} (b : @beh C A) (r : list T) : Prop := forall pos, fails b (at_ r pos) false.

Lemma adv w r pos : advanced_by (C:=C) (at_ (w ++ r) pos) w (at_ r (pos_after pos w)).
Proof. split; [reflexivity|split; reflexivity]. Qed.
Lemma pos_app pos (a b : list T) : pos_after pos (a ++ b) = pos_after (pos_after pos a) b.
Proof. unfold pos_after. apply fold_left_app. Qed.

Lemma eats_skip {S1 A S2 B} (p : parser C S1 A) (q : parser C S2 B) w u r c1 c2 v x : eats (fresh p) w (u ++ r) c1 v -> eats (fresh q) u r c2 x ->
  eats (fresh (skip p q)) (w ++ u) r (c1 || c2) v.
Proof.
  intros H1 H2 pos. apply (proj1 (skip_runs p q)). rewrite pos_app, <- app_assoc. exists c1, v. eexists. exists c2, x. split; [apply H1|]. split; [apply H2|]. auto.
Qed.
Lemma stops_skip {S1 A S2 B} (p : parser C S1 A) (q : parser C S2 B) r : stops (fresh p) r -> stops (fresh (skip p q)) r.
Proof. intros H pos. apply (proj2 (skip_runs p q)). left. apply H. Qed.
Lemma stops_skip2 {S1 A S2 B} (p : parser C S1 A) (q : parser C S2 B) r v : eats (fresh p) [] r false v -> stops (fresh q) r -> stops (fresh (skip p q)) r.
Proof. intros H H2 pos. apply (proj2 (skip_runs p q)). right. exists false, v. eexists. exists false. split; [apply H|]. split; [apply H2|reflexivity]. Qed.
Lemma eats_map {S A B} (p : parser C S A) (g : A -> B) w r c v : eats (fresh p) w r c v -> eats (fresh (map p g)) w r c (g v).
Proof. intros H pos. apply (maps_to_succeeds _ _ _ _ _ _ _ (map_maps p g)). exists v. split; [apply H|reflexivity]. Qed.
Lemma stops_map {S A B} (p : parser C S A) (g : A -> B) r : stops (fresh p) r -> stops (fresh (map p g)) r.
Proof. intros H pos. apply (fails_maps _ _ _ _ _ (map_maps p g)). apply H. Qed.
Lemma eats_range s r : eats (fresh (range s)) s r true s.
Proof. intros pos. apply (range_spec L). split; auto. split; auto. apply adv. Qed.
Lemma stops_range s : s <> [] -> stops (fresh (range s)) [].
Proof. intros H pos. apply (range_spec L). split; [|reflexivity]. cbn. intros x K. destruct s; [congruence|discriminate]. Qed.

(** One token. *)
Lemma eats_class f name t r : f (code t) = true -> eats (fresh (byte_class code f name)) [t] r true t.
Proof. intros H pos. apply byte_class_succeeds. split; [apply adv|]. auto. Qed.
Lemma stops_class f name r : match r with [] => True | t :: _ => f (code t) = false end -> stops (fresh (byte_class code f name)) r.
Proof.
  intros H pos. destruct (byte_class_single code f name true (at_ r pos) tt) as [_ [K2 [K3 _]]]. unfold fails, fails_with, fresh.
  change (p_init (byte_class code f name)) with tt. destruct r as [|t r].
  - rewrite K3 by reflexivity. do 3 eexists. split; [reflexivity|split; reflexivity].
  - destruct (K2 t r eq_refl) as [j K]; [intros v [_ K]; congruence|]. rewrite K. do 3 eexists. split; [reflexivity|split; reflexivity].
Qed.
Lemma fresh_eq_succeeds {A} (b b' : @beh C A) : (forall i, b i = b' i) -> (forall w r c v, eats b w r c v -> eats b' w r c v) /\ (forall r, stops b r -> stops b' r).
Proof.
  intros H. split; [intros w r c v K pos; unfold succeeds; rewrite <- H; apply K|].
  intros r K pos. destruct (K pos) as [e [r0 [i' K1]]]. exists e, r0, i'. rewrite <- H. exact K1.
Qed.
Lemma digit_iff n : char_is_digit 10 n = true <-> (48 <= n <= 57)%N.
Proof.
  unfold char_is_digit, char_to_digit, in_range. destruct (N.leb_spec 48 n); destruct (N.leb_spec n 57); cbn [andb]; split; intros K; try lia.
  { apply N.ltb_lt. lia. }
  all: exfalso; destruct (N.leb_spec 97 n); destruct (N.leb_spec n 102); cbn [andb] in K; try (apply N.ltb_lt in K; lia);
    destruct (N.leb_spec 65 n); destruct (N.leb_spec n 70); cbn [andb] in K; try (apply N.ltb_lt in K; lia); discriminate.
Qed.
Lemma letter_iff n : is_ascii_alphabetic n = true <-> (65 <= n <= 90)%N \/ (97 <= n <= 122)%N.
Proof. unfold is_ascii_alphabetic, is_ascii_uppercase, is_ascii_lowercase, in_range. rewrite orb_true_iff, !andb_true_iff, !N.leb_le. reflexivity. Qed.
Lemma hf_u {A} (p : parser C unit A) : history_free false p.
Proof. apply tidy_history_free, td_unit. Qed.
Notation dig := (c_digit code).
Definition not_at (P : T -> Prop) (r : list T) : Prop := match r with [] => True | t :: _ => ~ P t end.
Lemma dig_fresh : (forall w r c v, eats (fresh (byte_class code (char_is_digit 10) "digit")) w r c v -> eats (fresh dig) w r c v) /\
  (forall r, stops (fresh (byte_class code (char_is_digit 10) "digit")) r -> stops (fresh dig) r).
Proof. apply fresh_eq_succeeds. intros i. symmetry. apply fresh_parser_fn0. Qed.
Lemma eats_dig t r : is_digit code t -> eats (fresh dig) [t] r true t.
Proof. intros H. apply dig_fresh. apply eats_class. apply digit_iff. exact H. Qed.
Lemma stops_dig r : not_at (is_digit code) r -> stops (fresh dig) r.
Proof. intros H. apply dig_fresh. apply stops_class. destruct r as [|t r]; auto. apply not_true_iff_false. rewrite digit_iff. exact H. Qed.
Lemma eats_letter t r : is_letter code t -> eats (fresh (b_letter code)) [t] r true t.
Proof. intros H. apply eats_class. apply letter_iff. exact H. Qed.
Lemma stops_letter r : not_at (is_letter code) r -> stops (fresh (b_letter code)) r.
Proof. intros H. apply stops_class. destruct r as [|t r]; auto. apply not_true_iff_false. rewrite letter_iff. exact H. Qed.

Lemma eats_reps {S} (p : parser C S T) (P : T -> Prop) : (forall t r, P t -> eats (fresh p) [t] r true t) ->
  forall w r pos, Forall P w -> reps (succeeds (fresh p)) (at_ (w ++ r) pos) (consumed_some w) w (at_ r (pos_after pos w)).
Proof.
  intros Hp. induction w as [|t w IH]; intros r pos H; [constructor|]. inversion H; subst. change (consumed_some (t :: w)) with (true || consumed_some w).
  econstructor; [apply (Hp t (w ++ r)); auto|]. apply (IH r (pos_after pos [t])). auto.
Qed.
Lemma eats_many1 (p : parser C unit T) (P : T -> Prop) : (forall t r, P t -> eats (fresh p) [t] r true t) ->
  forall w r, w <> [] -> Forall P w -> stops (fresh p) r -> length w <= fuel C -> eats (fresh (many1 p)) w r true w.
Proof.
  intros Hp w r Hn Hw Hr Hf pos. apply (many1_ok _ (hf_u p)). split; auto. split; [|split; [apply Hr|exact Hf]].
  replace true with (consumed_some w) by (destruct w; [congruence|reflexivity]). apply (eats_reps p P); auto.
Qed.
Lemma eats_many (p : parser C unit T) (P : T -> Prop) : (forall t r, P t -> eats (fresh p) [t] r true t) ->
  forall w r, Forall P w -> stops (fresh p) r -> length w < fuel C -> eats (fresh (many p)) w r (consumed_some w) w.
Proof. intros Hp w r Hw Hr Hf pos. apply (many_ok _ (hf_u p)). split; [|split; [apply Hr|exact Hf]]. apply (eats_reps p P); auto. Qed.
Lemma stops_many1 {S A} (p : parser C S A) r : history_free false p -> stops (fresh p) r -> stops (fresh (many1 p)) r.
Proof. intros Hp H pos. destruct (H pos) as [e He]. exists e. apply (many1_fails p Hp). left. exact He. Qed.

(** Messages one after the other. *)
Lemma frames_all {X S A} (p : parser C S A) (ok : X -> Prop) (enc : X -> list T) (out : X -> A) N :
  (forall x r, ok x -> length (enc x) <= N -> exists c, eats (fresh p) (enc x) r c (out x)) -> stops (fresh p) [] ->
  forall ms, Forall ok ms -> length (concat (List.map enc ms)) <= N -> forall pos, frames p pos (concat (List.map enc ms)) (List.map out ms).
Proof.
  intros Hp Hs. induction 1 as [|m ms Hm Hms IH]; intros Hl pos; [constructor; apply Hs|]. cbn [List.map concat] in *. rewrite app_length in Hl.
  destruct (Hp m (concat (List.map enc ms)) Hm ltac:(lia)) as [c Hc]. econstructor; [apply Hc|]. apply IH. lia.
Qed.
Lemma decodes {X S A} (p : parser C S A) (ok : X -> Prop) (enc : X -> list T) (out : X -> A) x a n h :
  (forall z, steady z x a n h (fun _ : unit => p)) ->
  (forall m r, ok m -> length (enc m) < fuel C -> exists c, eats (fresh p) (enc m) r c (out m)) -> stops (fresh p) [] ->
  forall pos cs ms m, Forall ok ms -> concat cs = concat (List.map enc ms) -> 2 * length (concat cs) + 1 < fuel C -> length ms + length cs + 1 < m ->
  run_decoder m p pos cs = Done (inl (List.map out ms)).
Proof.
  intros Hst Hp Hs pos cs ms m Hms Hc Hf Hm.
  assert (W : forall t, width C t = 1) by exact SL.
  apply (run_decoder_gives (Datatypes.S (length (concat cs))) EL W L D x a n h p (Hst _)).
  - exact (proj1 (steady_keeps EL SK (Datatypes.S (length (concat cs)))) _ _ _ _ _ _ _ _ (Hst _) tt).
  - rewrite Hc. apply (frames_all p ok enc out (length (concat cs))); auto; [|rewrite Hc; lia]. intros y r Hy Hl. apply Hp; auto. lia.
  - split; cbn [rest]; lia.
  - rewrite map_length. exact Hm.
Qed.

Lemma crlf_not_digit r : not_at (is_digit code) (lit 13 :: r).
Proof. cbn. unfold is_digit. rewrite code_lit by lia. lia. Qed.
Lemma crlf_not_letter r : not_at (is_letter code) (lit 13 :: r).
Proof. cbn. unfold is_letter. rewrite code_lit by lia. lia. Qed.
Lemma st_dig z J : steady z true true false true (fun _ : J => dig).
Proof. apply sd_parser_fn0. refine (sd_expected (fun _ => _) (sd_satisfy z (fun _ : J => _))). Qed.
Lemma so_dig z b : solid z b true dig.
Proof. apply sol_parser_fn0, sol_expected, sol_satisfy. Qed.
Lemma st_letter z J : steady z true true false true (fun _ : J => b_letter code).
Proof. refine (sd_expected (fun _ => _) (sd_satisfy z (fun _ : J => _))). Qed.
Lemma so_letter z b : solid z b true (b_letter code).
Proof. apply sol_expected, sol_satisfy. Qed.
Lemma st_many1 z J {A} (p : parser C unit A) : steady z true true false true (fun _ : J => p) -> solid z true true p -> steady z true false false true (fun _ : J => many1 p).
Proof. intros H1 H2. apply (sd_many1 (a := true) (c := true)); [exact H1| |]; intros; [apply hf_u|exact H2]. Qed.
Lemma st_crlf z J : steady z true true false true (fun _ : J => range (f_crlf lit)).
Proof. apply (sd_range z (fun _ : J => _)); auto. discriminate. Qed.

Lemma basic_steady z : steady z false false false true (fun _ : unit => basic_parser code lit).
Proof.
  apply sd_any_partial_state. apply (sd_skip (x1 := true) (a1 := false) (n1 := false) (h1 := true) (x2 := true) (a2 := true) (n2 := false) (h2 := true)).
  - apply st_many1; [apply st_dig|apply so_dig].
  - apply st_crlf.
Qed.
Lemma basic_eats w r : number_text code w -> length (with_crlf lit w) < fuel C -> exists c, eats (fresh (basic_parser code lit)) (with_crlf lit w) r c w.
Proof.
  intros [H1 H2] Hf. unfold with_crlf in *. rewrite app_length in Hf. exists (true || true).
  apply (fresh_eq_succeeds (fresh (skip (many1 dig) (range (f_crlf lit))))); [intros i; symmetry; apply fresh_any_partial|].
  apply (eats_skip _ _ w (f_crlf lit) r true true w (f_crlf lit)); [|apply eats_range].
  apply (eats_many1 dig (is_digit code)); auto; [apply eats_dig|apply stops_dig, crlf_not_digit|lia].
Qed.
Lemma basic_stops : stops (fresh (basic_parser code lit)) [].
Proof.
  apply (fresh_eq_succeeds (fresh (skip (many1 dig) (range (f_crlf lit))))); [intros i; symmetry; apply fresh_any_partial|].
  apply stops_skip. apply stops_many1; [apply hf_u|]. apply stops_dig. exact I.
Qed.

Lemma okr_backtracks {A} (c : bool) (v : A) : backtracks (C:=C) (okr c v) = false.
Proof. destruct c; reflexivity. Qed.
Lemma eats_or1 {S1 S2 A} (p : parser C S1 A) (q : parser C S2 A) w r c v : eats (fresh p) w r c v -> eats (fresh (or_ p q)) w r c v.
Proof. intros H pos. apply (proj1 (or_ordered p q)). apply chosen_here; [apply H|apply okr_backtracks]. Qed.
Lemma fails_backtracks {A} (b : @beh C A) i : fails b i false -> exists r i', b i = Done (r, i') /\ backtracks r = true.
Proof. intros [e [r [i' [H1 [H2 H3]]]]]. exists r, i'. split; auto. destruct r; cbn in *; congruence. Qed.
Lemma eats_or2 {S1 S2 A} (p : parser C S1 A) (q : parser C S2 A) w r c v : stops (fresh p) (w ++ r) -> eats (fresh q) w r c v -> eats (fresh (or_ p q)) w r c v.
Proof.
  intros H1 H2 pos. apply (proj1 (or_ordered p q)). destruct (fails_backtracks _ _ (H1 pos)) as [r0 [i0 [K1 K2]]].
  eapply chosen_later; eauto. apply chosen_here; [apply H2|apply okr_backtracks].
Qed.
Lemma stops_or {S1 S2 A} (p : parser C S1 A) (q : parser C S2 A) r : stops (fresh p) r -> stops (fresh q) r -> stops (fresh (or_ p q)) r.
Proof. intros H1 H2 pos. apply (proj2 (or_ordered p q)). repeat constructor; auto. Qed.

(** [choice_parser] *)
Lemma choice_steady z : steady z false false false true (fun _ : unit => choice_parser code lit).
Proof.
  apply sd_any_partial_state. apply (sd_skip (x1 := true) (a1 := false) (n1 := false) (h1 := true) (x2 := true) (a2 := true) (n2 := false) (h2 := true)).
  - apply (sd_or (x1 := true) (a1 := false) (n1 := false) (h1 := true) (x2 := true) (a2 := false) (n2 := false) (h2 := true)); apply st_many1; [apply st_dig|apply so_dig|apply st_letter|apply so_letter].
  - apply st_crlf.
Qed.
Lemma letters_no_digit w r : w <> [] -> Forall (is_letter code) w -> not_at (is_digit code) (w ++ r).
Proof. intros H1 H2. destruct w as [|t w]; [congruence|]. inversion H2; subst. cbn. unfold is_letter, is_digit in *. lia. Qed.
Lemma choice_eats w r : number_text code w \/ word_text code w -> length (with_crlf lit w) < fuel C -> exists c, eats (fresh (choice_parser code lit)) (with_crlf lit w) r c w.
Proof.
  intros H Hf. unfold with_crlf in *. rewrite app_length in Hf. exists (true || true).
  apply (fresh_eq_succeeds (fresh (skip (or_ (many1 dig) (many1 (b_letter code))) (range (f_crlf lit))))); [intros i; symmetry; apply fresh_any_partial|].
  apply (eats_skip _ _ w (f_crlf lit) r true true w (f_crlf lit)); [|apply eats_range].
  destruct H as [[H1 H2]|[H1 H2]].
  - apply eats_or1. apply (eats_many1 dig (is_digit code)); auto; [apply eats_dig|apply stops_dig, crlf_not_digit|lia].
  - apply eats_or2. { apply stops_many1; [apply hf_u|]. apply stops_dig. apply letters_no_digit; auto. }
    apply (eats_many1 (b_letter code) (is_letter code)); auto; [apply eats_letter|apply stops_letter, crlf_not_letter|lia].
Qed.
Lemma choice_stops : stops (fresh (choice_parser code lit)) [].
Proof.
  apply (fresh_eq_succeeds (fresh (skip (or_ (many1 dig) (many1 (b_letter code))) (range (f_crlf lit))))); [intros i; symmetry; apply fresh_any_partial|].
  apply stops_skip. apply stops_or; apply stops_many1; try apply hf_u; [apply stops_dig; exact I|apply stops_letter; exact I].
Qed.

(** [decimal] *)
Lemma eats_token t r : eats (fresh (token t)) [t] r true t.
Proof.
  intros pos. apply (single_succeeds _ _ (token_single L t)).
  - intros u x y [-> _] [-> _]. reflexivity.
  - intros u. destruct (tok_eqb C u t) eqn:Hq; [left; exists t; apply (law_tok L) in Hq; auto|right; intros x [_ K]; apply (law_tok L) in K; congruence].
  - exists t. split; [apply adv|]. auto.
Qed.
Lemma stops_token t r : not_at (eq t) r -> stops (fresh (token t)) r.
Proof.
  intros H pos. destruct (token_single L t true (at_ r pos) tt) as [_ [K2 [K3 _]]]. unfold fails, fails_with, fresh.
  change (p_init (token t)) with tt. destruct r as [|u r].
  - rewrite K3 by reflexivity. do 3 eexists. split; [reflexivity|split; reflexivity].
  - destruct (K2 u r eq_refl) as [j K]; [intros v [_ K]; cbn in H; congruence|]. rewrite K. do 3 eexists. split; [reflexivity|split; reflexivity].
Qed.
Lemma eats_pair {S1 S2 A B} (p : parser C S1 A) (q : parser C S2 B) w u r c1 c2 v x : eats (fresh p) w (u ++ r) c1 v -> eats (fresh q) u r c2 x ->
  eats (fresh (tuple (TC p (T1 q)))) (w ++ u) r (c1 || c2) (v, x).
Proof. intros H1 H2 pos. apply tuple_succeeds. cbn. exists c1. eexists. exists c2. rewrite pos_app, <- app_assoc. split; [apply H1|]. split; [apply H2|reflexivity]. Qed.
Lemma stops_tuple {S SS A B} (p : parser C S A) (t : tup (C:=C) SS B) r : stops (fresh p) r -> stops (fresh (tuple (TC p t))) r.
Proof.
  intros H pos. apply tuple_fails. destruct (fails_backtracks _ _ (H pos)) as [r0 [i0 [K1 K2]]]. destruct r0 as [?|?|?|e]; try discriminate.
  exists 0, false, (inr e), (at_ r pos), i0. split; [|reflexivity]. left. auto.
Qed.
Lemma eats_optional {S A} (p : parser C S A) w r c v : eats (fresh p) w r c v -> eats (fresh (optional p)) w r c (Some v).
Proof. intros H pos. apply (optional_spec p). apply H. Qed.
Lemma eats_optional_none {S A} (p : parser C S A) r : stops (fresh p) r -> eats (fresh (optional p)) [] r false None.
Proof. intros H pos. apply (optional_spec p). apply H. Qed.
Lemma eats_skip_many1 (p : parser C unit T) w r : eats (fresh (many1 p)) w r true w -> eats (fresh (skip_many1 p)) w r true tt.
Proof. intros H pos. apply (skip_many1_ok _ (hf_u p)). exists w. apply H. Qed.
Lemma eats_skip_many (p : parser C unit T) w r c : eats (fresh (many p)) w r c w -> eats (fresh (skip_many p)) w r c tt.
Proof. intros H pos. apply (skip_many_ok _ (hf_u p)). exists w. apply H. Qed.
Lemma st_skip_many1 z J {A} (p : parser C unit A) : steady z true true false true (fun _ : J => p) -> solid z true true p -> steady z true false false true (fun _ : J => skip_many1 p).
Proof. intros H1 H2. apply sd_parser_fn, sd_ignore, st_many1; [apply sd_ignore; exact H1|apply sol_ignore; exact H2]. Qed.
Lemma st_skip_many z J {A} (p : parser C unit A) : steady z true true false true (fun _ : J => p) -> solid z true true p -> steady z true false true true (fun _ : J => skip_many p).
Proof.
  intros H1 H2. apply sd_parser_fn, sd_ignore. apply (sd_many (a := true) (n := false) (c := true)); [apply sd_ignore; exact H1| |]; intros; [apply hf_u|apply sol_ignore; exact H2].
Qed.
Lemma decimal_steady z J : steady z true false false true (fun _ : J => decimal code lit).
Proof.
  apply sd_tuple. apply (sd_TC (x := true) (a := false) (n := false) (h := true) (x2 := true) (n2 := true) (h2 := true)).
  - apply st_skip_many1; [apply st_dig|apply so_dig].
  - apply (sd_T1 (a := false)). apply (sd_optional (a := false) (n := false)).
    apply sd_tuple. apply (sd_TC (x := true) (a := true) (n := false) (h := true) (x2 := true) (n2 := true) (h2 := true)).
    + apply (sd_token z (fun _ : J => _)).
    + apply (sd_T1 (a := false)). apply st_skip_many; [apply st_dig|apply so_dig].
Qed.
Lemma decimal_forward : forward (decimal code lit).
Proof.
  apply fwd_run. apply fwd_tuple. cbn. split; [apply fwd_skip_many1, fwd_parser_fn0, fwd_byte_class|]. apply fwd_optional, fwd_tuple. cbn.
  split; [apply fwd_token|]. apply fwd_skip_many, fwd_parser_fn0, fwd_byte_class.
Qed.
Lemma decimal_eats w r : decimal_text code lit w -> length w < fuel C -> exists v, eats (fresh (decimal code lit)) w (f_crlf lit ++ r) true v.
Proof.
  intros [a [b [[H1 H2] [-> H3]]]] Hf. rewrite app_length in Hf.
  assert (Q : exists c v, eats (fresh (optional (tuple (TC (f_tk lit 46) (T1 (skip_many dig)))))) b (f_crlf lit ++ r) c v).
  { destruct H3 as [->|[c [-> H3]]].
    - exists false, None. apply eats_optional_none. apply stops_tuple. apply stops_token. cbn. intros K. apply (f_equal code) in K. rewrite !code_lit in K; lia.
    - eexists. eexists. apply eats_optional. change (lit 46 :: c) with ([lit 46] ++ c). eapply eats_pair; [apply eats_token|]. apply eats_skip_many.
      eapply (eats_many dig (is_digit code)); auto; [apply eats_dig|apply stops_dig, crlf_not_digit|cbn [length] in Hf; lia]. }
  destruct Q as [c [v Q]]. exists (tt, v). change true with (true || c). eapply eats_pair; [|exact Q]. apply eats_skip_many1.
  apply (eats_many1 dig (is_digit code)); auto; [apply eats_dig| |lia]. apply stops_dig. destruct H3 as [->|[e [-> H3]]]; [apply crlf_not_digit|].
  cbn. unfold is_digit. rewrite code_lit by lia. lia.
Qed.
Lemma decimal_stops : stops (fresh (decimal code lit)) [].
Proof.
  apply stops_tuple. intros pos. destruct (stops_many1 dig [] (hf_u _) (stops_dig [] I) pos) as [e He]. exists e. apply (skip_many1_fails dig (hf_u dig)). exact He.
Qed.
Lemma recognize_steady z : steady z false false false true (fun _ : unit => recognize_parser code lit).
Proof.
  apply (sd_skip (x1 := true) (a1 := false) (n1 := false) (h1 := true) (x2 := true) (a2 := true) (n2 := false) (h2 := true)); [|apply st_crlf].
  apply sd_recognize; [apply decimal_steady|intros; apply decimal_forward].
Qed.
Lemma recognize_eats w r : decimal_text code lit w -> length (with_crlf lit w) < fuel C -> exists c, eats (fresh (recognize_parser code lit)) (with_crlf lit w) r c w.
Proof.
  intros H Hf. unfold with_crlf in *. rewrite app_length in Hf. exists (true || true). apply (eats_skip _ _ w (f_crlf lit) r true true w (f_crlf lit)); [|apply eats_range].
  intros pos. apply (recognize_spec L D _ decimal_forward). destruct (decimal_eats w r H) as [v Hv]; [lia|]. exists v. split; [apply Hv|apply adv].
Qed.
Lemma recognize_stops : stops (fresh (recognize_parser code lit)) [].
Proof. apply stops_skip. intros pos. destruct (decimal_stops pos) as [e He]. exists e. apply (recognize_spec L D _ decimal_forward). exact He. Qed.
Lemma recognize_range_steady z : steady z false false false true (fun _ : unit => recognize_range_parser code lit).
Proof.
  apply (sd_skip (x1 := true) (a1 := true) (n1 := false) (h1 := true) (x2 := true) (a2 := true) (n2 := false) (h2 := true)); [|apply st_crlf].
  refine (sd_map (fun _ => _) _). apply sd_recognize_with_value; [apply decimal_steady|intros; apply decimal_forward].
Qed.
Lemma recognize_range_eats w r : decimal_text code lit w -> length (with_crlf lit w) < fuel C -> exists c, eats (fresh (recognize_range_parser code lit)) (with_crlf lit w) r c w.
Proof.
  intros H Hf. unfold with_crlf in *. rewrite app_length in Hf. exists (consumed_some w || true). apply (eats_skip _ _ w (f_crlf lit) r _ true w (f_crlf lit)); [|apply eats_range].
  destruct (decimal_eats w r H) as [v Hv]; [lia|]. apply (eats_map (recognize_with_value (decimal code lit)) fst w (f_crlf lit ++ r) (consumed_some w) (w, v)).
  intros pos. apply (recognize_with_value_spec L _ decimal_forward). split; [exists true; apply Hv|]. split; [apply adv|reflexivity].
Qed.
Lemma recognize_range_stops : stops (fresh (recognize_range_parser code lit)) [].
Proof.
  apply stops_skip. apply stops_map. intros pos. destruct (decimal_stops pos) as [e He]. exists e. apply (recognize_with_value_spec L _ decimal_forward). exact He.
Qed.

(** [take_while] and [take_while1] *)
Lemma not_cr_iff t : not_cr code t = true <-> code t <> 13%N.
Proof. unfold not_cr. rewrite negb_true_iff, N.eqb_neq. reflexivity. Qed.
Lemma line_prefix w r : line_text code w -> longest_prefix (not_cr code) (w ++ f_crlf lit ++ r) w (f_crlf lit ++ r).
Proof.
  intros H. unfold longest_prefix. split; [reflexivity|]. split.
  - unfold line_text in H. rewrite Forall_forall in *. intros t Ht. apply not_cr_iff. auto.
  - cbn. intros x y K. injection K as <- _. apply not_true_iff_false. rewrite not_cr_iff, code_lit by lia. lia.
Qed.
Lemma take_while_steady z : steady z false false false true (fun _ : unit => take_while_parser code lit).
Proof.
  apply (sd_skip (x1 := true) (a1 := true) (n1 := true) (h1 := true) (x2 := true) (a2 := true) (n2 := false) (h2 := true)); [|apply st_crlf]. apply (sd_take_while z (fun _ : unit => _)).
Qed.
Lemma take_while_eats w r : line_text code w -> length (with_crlf lit w) < fuel C -> exists c, eats (fresh (take_while_parser code lit)) (with_crlf lit w) r c w.
Proof.
  intros H _. exists (consumed_some w || true). apply (eats_skip _ _ w (f_crlf lit) r _ true w (f_crlf lit)); [|apply eats_range].
  intros pos. apply (take_while_spec L). split; [apply adv|]. split; [apply line_prefix; exact H|]. split; [reflexivity|discriminate].
Qed.
Lemma take_while_stops : stops (fresh (take_while_parser code lit)) [].
Proof.
  apply (stops_skip2 _ _ [] []); [|apply stops_range; discriminate]. intros pos. apply (take_while_spec L). split; [apply (adv [] [])|].
  split; [|split; [reflexivity|discriminate]]. split; [reflexivity|]. split; [constructor|discriminate].
Qed.
Lemma take_while1_steady z : steady z false false false true (fun _ : unit => take_while1_parser code lit).
Proof.
  apply (sd_skip (x1 := true) (a1 := true) (n1 := false) (h1 := true) (x2 := true) (a2 := true) (n2 := false) (h2 := true)); [|apply st_crlf]. apply (sd_take_while1 z (fun _ : unit => _)).
Qed.
Lemma take_while1_eats w r : w <> [] /\ line_text code w -> length (with_crlf lit w) < fuel C -> exists c, eats (fresh (take_while1_parser code lit)) (with_crlf lit w) r c w.
Proof.
  intros [Hn H] _. exists (true || true). apply (eats_skip _ _ w (f_crlf lit) r _ true w (f_crlf lit)); [|apply eats_range].
  intros pos. apply (take_while1_spec L). split; [apply adv|]. split; [apply line_prefix; exact H|]. split; [exact Hn|]. split; [reflexivity|discriminate].
Qed.
Lemma take_while1_stops : stops (fresh (take_while1_parser code lit)) [].
Proof. apply stops_skip. intros pos. apply (proj2 (take_while1_spec L (not_cr code)) (at_ [] pos) false). left. split; reflexivity. Qed.

(** Texts in front of a needle of two tokens. *)
Lemma first_two (x y : T) w r b a : (forall b a, w ++ [x] <> b ++ [x; y] ++ a) -> w ++ [x; y] ++ r = b ++ [x; y] ++ a -> length w <= length b.
Proof.
  intros H E0. destruct (Nat.le_gt_cases (length w) (length b)) as [K|K]; auto. exfalso.
  assert (Q : firstn (length w + 1) (w ++ [x; y] ++ r) = w ++ [x]).
  { rewrite firstn_app. replace (length w + 1 - length w) with 1 by lia. rewrite firstn_all2 by lia. reflexivity. }
  rewrite E0, app_assoc, firstn_app in Q. rewrite (firstn_all2 (b ++ [x; y])) in Q by (rewrite app_length; cbn; lia).
  eapply H. rewrite <- Q, <- app_assoc. reflexivity.
Qed.
Lemma colons_steady z : steady z false false false true (fun _ : unit => until_colons_parser lit).
Proof.
  apply (sd_skip (x1 := false) (a1 := true) (n1 := false) (h1 := true) (x2 := false) (a2 := false) (n2 := false) (h2 := true)).
  - apply (sd_take_until_range z (fun _ : unit => _)); [exact SL|discriminate].
  - apply sd_tuple. apply (sd_TC (x := true) (a := true) (n := false) (h := true) (x2 := true) (n2 := false) (h2 := true)); [apply (sd_token z (fun _ : unit => _))|].
    apply (sd_T1 (a := true)). apply (sd_token z (fun _ : unit => _)).
Qed.
Lemma colons_eats w r : before_colons lit w -> length (with_colons lit w) < fuel C -> exists c, eats (fresh (until_colons_parser lit)) (with_colons lit w) r c w.
Proof.
  intros H _. exists (consumed_some w || (true || true)).
  apply (eats_skip _ _ w [lit 58; lit 58] r _ (true || true) w (lit 58, lit 58)); [|exact (eats_pair _ _ [lit 58] [lit 58] r true true _ _ (eats_token _ _) (eats_token _ _))].
  intros pos. apply (take_until_range_spec L). split; [apply adv|]. split; [|reflexivity]. exists r. split; [reflexivity|]. cbn [rest]. intros b a K.
  apply (first_two (lit 58) (lit 58) w r b a); [exact H|exact K].
Qed.
Lemma colons_stops : stops (fresh (until_colons_parser lit)) [].
Proof. apply stops_skip. intros pos. apply (take_until_range_spec L). split; [|reflexivity]. intros [b [a K]]. cbn in K. destruct b; discriminate. Qed.

(** [take_fn] *)
Section TakeFn.
Variable find : list T -> option nat.
Hypothesis FC : finds_crlf lit find.
Definition at_crlf (b a : list T) : Prop := exists a', a = f_crlf lit ++ a' /\ no_crlf lit (b ++ [lit 13]).
Lemma crlf_unique b a b' a' : b ++ a = b' ++ a' -> at_crlf b a -> at_crlf b' a' -> b = b'.
Proof.
  intros E0 [x [-> H1]] [y [-> H2]]. assert (length b = length b').
  { apply Nat.le_antisymm; [apply (first_two (lit 13) (lit 10) b x b' y); [exact H1|exact E0]|apply (first_two (lit 13) (lit 10) b' y b x); [exact H2|symmetry; exact E0]]. }
  assert (F : forall u v : list T, firstn (length u) (u ++ v) = u) by (intros u v; rewrite firstn_app, Nat.sub_diag, firstn_all; apply app_nil_r).
  apply (f_equal (firstn (length b))) in E0. rewrite F in E0. rewrite H, F in E0. exact E0.
Qed.
Lemma find_searches : searches (fun l => take_range_of_option (find l)) at_crlf.
Proof.
  split; [|exact crlf_unique]. intros l. specialize (FC l). destruct (find l) as [n|].
  - left. destruct FC as [b [a [-> [<- H]]]]. exists b, ([lit 13; lit 10] ++ a). split; [reflexivity|]. split; [exists a; auto|reflexivity].
  - right. split; [|eexists; reflexivity]. intros b a -> [a' [-> _]]. apply (FC b a'). reflexivity.
Qed.
Lemma find_more l n m : find l = Some n -> find (l ++ m) = Some n.
Proof.
  intros E0. pose proof (FC l) as F1. pose proof (FC (l ++ m)) as F2. rewrite E0 in F1. destruct F1 as [b [a [-> [<- H]]]].
  destruct (find ((b ++ [lit 13; lit 10] ++ a) ++ m)) as [k|].
  - destruct F2 as [b' [a' [E2 [<- H']]]]. f_equal. f_equal. apply (crlf_unique b' ([lit 13; lit 10] ++ a') b ([lit 13; lit 10] ++ a ++ m)).
    + rewrite <- E2, <- !app_assoc. reflexivity.
    + exists a'. auto.
    + exists (a ++ m). auto.
  - exfalso. apply (F2 b (a ++ m)). rewrite <- !app_assoc. reflexivity.
Qed.
Lemma find_nil : find [] = None.
Proof. specialize (FC []). destruct (find []) as [n|]; [|reflexivity]. destruct FC as [b [a [K _]]]. destruct b; discriminate. Qed.
Context {B : Type} (number : list T -> B).
Lemma take_fn_steady z : steady z false false false true (fun _ : unit => take_fn_parser find number).
Proof.
  apply (sd_skip (x1 := true) (a1 := true) (n1 := false) (h1 := true) (x2 := true) (a2 := true) (n2 := false) (h2 := true)).
  - refine (sd_map (fun _ => _) _). apply (sd_take_fn z (fun _ : unit => find)); [exact SL|intros; apply find_nil|intros; apply find_more; assumption].
  - apply (sd_take_some z (fun _ : unit => 2)); [exact SL|discriminate].
Qed.
Lemma take_fn_eats w r : no_crlf lit (w ++ [lit 13]) -> length (with_crlf lit w) < fuel C -> exists c, eats (fresh (take_fn_parser find number)) (with_crlf lit w) r c (number w).
Proof.
  intros H _. exists (consumed_some w || negb (2 =? 0)). apply (eats_skip _ _ w (f_crlf lit) r _ _ (number w) (f_crlf lit)).
  - apply eats_map. intros pos. apply (take_fn_spec L SL _ _ find_searches). split; [apply adv|]. split; [|reflexivity]. exists r. split; [reflexivity|exact H].
  - intros pos. apply (take_spec L). split; [apply adv|]. split; [|reflexivity]. rewrite (slice_units SL). reflexivity.
Qed.
Lemma take_fn_stops : stops (fresh (take_fn_parser find number)) [].
Proof.
  apply stops_skip, stops_map. intros pos. apply (take_fn_spec L SL _ _ find_searches). split; [|reflexivity]. cbn [rest]. intros b a K [a' [-> _]]. destruct b; discriminate.
Qed.
End TakeFn.

(** [skip_count_min_max] *)
Lemma underscore_steady z : steady z false false false false (fun _ : unit => underscore_parser lit).
Proof.
  refine (sd_map (fun _ => _) _). apply (sd_skip (x1 := false) (a1 := false) (n1 := false) (h1 := false) (x2 := true) (a2 := true) (n2 := false) (h2 := true)); [|apply (sd_token z (fun _ : unit => _))].
  apply sd_parser_fn. apply (sd_with (x1 := false) (a1 := false) (n1 := false) (h1 := true) (x2 := true) (a2 := true) (n2 := true) (h2 := false)); [|apply (sd_value z (fun _ : unit => tt))].
  apply (sd_count_min_max (z := z) (a := true) (n := false) (h := true) (f := fun _ : unit => map (f_tk lit 95) (fun _ => tt)) (mn := 1) (mx := 2)); [|intros; apply hf_u|lia].
  refine (sd_map (fun _ => _) _). apply (sd_token z (fun _ : unit => _)).
Qed.
Lemma underscore_reps (two : bool) r pos : exists l, length l = (if two then 2 else 1) /\ reps (succeeds (fresh (f_tk lit 95))) (at_ (underscores lit two ++ r) pos) true l
  (at_ (lit 46 :: r) (pos_after pos (if two then [lit 95; lit 95] else [lit 95]))).
Proof.
  destruct two.
  - exists [lit 95; lit 95]. split; [reflexivity|]. change true with (true || (true || false)). econstructor; [exact (eats_token (lit 95) (lit 95 :: lit 46 :: r) pos)|].
    econstructor; [exact (eats_token (lit 95) (lit 46 :: r) (pos_after pos [lit 95]))|]. constructor.
  - exists [lit 95]. split; [reflexivity|]. change true with (true || false). econstructor; [exact (eats_token (lit 95) (lit 46 :: r) pos)|]. constructor.
Qed.
Lemma underscore_eats (two : bool) r : True -> length (underscores lit two) < fuel C -> exists c, eats (fresh (underscore_parser lit)) (underscores lit two) r c [].
Proof.
  intros _ _. exists (true || true). apply (eats_map _ (fun _ : unit => @nil T) _ _ _ tt).
  replace (underscores lit two) with ((if two then [lit 95; lit 95] else [lit 95]) ++ [lit 46]) by (destruct two; reflexivity).
  apply (eats_skip _ _ _ [lit 46] r true true tt (lit 46)); [|apply eats_token].
  intros pos. apply (skip_cmm_ok _ (hf_u _)); [lia|]. destruct (underscore_reps two r pos) as [l [Hl H]]. exists l. apply (cmm_ok _ (hf_u _)); [lia|]. split.
  - replace ((if two then [lit 95; lit 95] else [lit 95]) ++ [lit 46] ++ r) with (underscores lit two ++ r) by (destruct two; reflexivity). exact H.
  - split; [destruct two; lia|]. right. apply stops_token. cbn. intros K. apply (f_equal code) in K. rewrite !code_lit in K; lia.
Qed.
Lemma underscore_stops : stops (fresh (underscore_parser lit)) [].
Proof.
  apply stops_map, stops_skip. intros pos. apply (skip_cmm_fails _ (hf_u _)); [lia|]. apply (cmm_fails _ (hf_u _)); [lia|].
  exists false, [], (at_ [] pos). split; [constructor|]. right. split; [cbn; lia|]. split; [apply stops_token; exact I|reflexivity].
Qed.
End Texts.
