(** Proofs for C63: the JSON parser always returns; the numbers it computes. *)
From Coq Require Import String List Bool Arith NArith ZArith QArith Qfield Lia.
Import ListNotations.
From Verif Require Import Base Parser Errors Token Combinator Sequence Choice Repeat RangeP ByteP Instances JsonM JsonSpec.
From Verif Require Import Spec SeqSpec ChoiceSpec TidySpec RepeatSpec AgreeSpec RangeSpec LibSpec TotalSpec.
From Verif Require Import ResultProofs TokenProofs SeqProofs CombProofs ChoiceProofs CombProofs2 RepeatProofs RepeatProofs2 RepeatProofs4 ByteProofs TidyProofs ForwardProofs LangProofs JsonProofs.
Unset Implicit Arguments.
Local Open Scope nat_scope.

Section Total.
Context {C : Cfg}.
Notation T := (tok C).
Notation E := (Err C).
Variable fo : f64_ops.
Variable code : T -> N.
Variable lit : N -> T.

Lemma sol_class z b f name : solid z b true (byte_class (C:=C) code f name).
Proof. unfold byte_class. apply sol_expected, sol_satisfy. Qed.
Lemma sol_digit z b : solid z b true (c_digit (C:=C) code).
Proof. apply sol_parser_fn0, sol_class. Qed.
Lemma sol_spaces z b : solid z b false (c_spaces (C:=C) code).
Proof. apply sol_expected. unfold skip_many. apply sol_parser_fn, sol_ignore, sol_many, sol_ignore, sol_class. Qed.
Lemma sol_lex z b n {S A} (p : parser C S A) : solid z b n p -> solid z b n (jlex code p).
Proof. intros H. unfold jlex. rewrite <- (orb_false_r n). apply sol_skip; [exact H|apply sol_spaces]. Qed.
Lemma sol_integer z : solid z false true (json_integer (C:=C) code).
Proof. apply sol_expected, sol_map, sol_lex, sol_many1; [discriminate|apply sol_digit]. Qed.
Lemma sol_int_part z : solid z false true (json_int_part (C:=C) fo code lit).
Proof. apply sol_or; apply sol_map; [apply sol_token|apply sol_integer]. Qed.
Lemma sol_fractional z : solid z false false (json_fractional (C:=C) fo code).
Proof. apply sol_map, sol_many, sol_digit. Qed.
Lemma sol_exp z : solid z false true (json_exp (C:=C) code lit).
Proof.
  apply (sol_with (n1:=true) (n2:=true)); [apply sol_satisfy|]. unfold pair2. apply sol_tuple.
  apply (sol_TC (n1:=false) (n2:=true)); [eapply sol_optional, sol_token|apply sol_T1, sol_integer].
Qed.
Lemma sol_number z : solid z false true (json_number (C:=C) fo code lit).
Proof.
  apply sol_expected, sol_lex, sol_map. unfold pair2. apply sol_tuple. apply (sol_TC (n1:=true) (n2:=false)).
  - apply sol_map, sol_tuple. apply (sol_TC (n1:=true) (n2:=false)).
    + apply sol_map, sol_tuple. apply (sol_TC (n1:=false) (n2:=true)); [eapply sol_optional, sol_token|apply sol_T1, sol_int_part].
    + apply sol_T1. apply (sol_with (n1:=false) (n2:=false)); [eapply sol_optional, sol_token|apply sol_fractional].
  - apply sol_T1. eapply sol_optional, sol_exp.
Qed.
Lemma adv_one (t : T) l pos pt : advanced (@Inp C (t :: l) pos pt) (@Inp C l (pos_step C pos t) pt).
Proof. exists [t]. repeat split. Qed.
Lemma adv_two (t u : T) l pos pt : advanced (@Inp C (t :: u :: l) pos pt) (@Inp C l (pos_step C (pos_step C pos t) u) pt).
Proof. exists [t; u]. repeat split. Qed.
Lemma sol_json_char z b : solid z b true (json_char (C:=C) code lit).
Proof.
  apply sol_fn_parser.
  match goal with |- fn_solid z true ?f => assert (K : forall i, exists r i', f i = Done (r, i') /\ advanced i i' /\ (is_ok (from_std r) = true -> shorter i' i)) end.
  { intros [l pos pt]. cbn. unfold any, mk_lazy. cbn [p_lazy]. unfold s_uncons, uncons. cbn [rest ipos ipart]. destruct l as [|t l].
    - destruct pt; cbn; (do 2 eexists; split; [reflexivity|]; split; [exists []; repeat split|discriminate]).
    - cbn [fst snd into_std obind]. destruct (code t =? 92)%N.
      + unfold back_slash_char, satisfy_map, mk_lazy, default_stream. cbn [p_stream]. unfold lazy_run, satisfy_impl, s_uncons, uncons. cbn [rest ipos ipart].
        destruct l as [|e l]; [destruct pt; cbn; do 2 eexists; (split; [reflexivity|]; split; [apply adv_one|discriminate])|]. cbn [fst snd into_std obind].
        match goal with |- context [match ?x with Some _ => _ | None => _ end] => destruct x end; cbn.
        * do 2 eexists. split; [reflexivity|]. split; [apply adv_two|]. intros _. unfold shorter. cbn. lia.
        * do 2 eexists. split; [reflexivity|]. split; [|discriminate]. first [apply adv_one|apply adv_two].
      + destruct (code t =? 34)%N; cbn; do 2 eexists; (split; [reflexivity|]; split; [apply adv_one|]); [discriminate|]. intros _. unfold shorter. cbn. lia. }
  split.
  - intros i r i' H. destruct (K i) as [r0 [i0 [K1 [K2 _]]]]. rewrite K1 in H. inversion H; subst. exact K2.
  - intros i _. destruct (K i) as [r0 [i0 [K1 [_ K2]]]]. eauto.
Qed.
Lemma sol_between z b n1 n2 n3 {S1 A S2 B S3 D} (o : parser C S1 A) (c : parser C S2 B) (p : parser C S3 D) :
  solid z b n1 o -> solid (after n1 z) b n2 p -> solid (after n2 (after n1 z)) b n3 c -> solid z b (n1 || (n2 || n3)) (between o c p).
Proof. intros H1 H2 H3. unfold between. apply sol_parser_fn, sol_map, sol_tuple. apply sol_TC; [exact H1|]. apply sol_TC; [exact H2|]. apply sol_T1. exact H3. Qed.
Lemma sol_string z b : solid z b true (json_string (C:=C) code lit).
Proof. apply sol_expected. apply (sol_between z b true false true); [apply sol_token|apply sol_many, sol_json_char|apply sol_lex, sol_token]. Qed.
Lemma sol_object z value : solid z true true value -> solid (S z) false true (json_object (C:=C) fo code lit value).
Proof.
  intros H. apply sol_expected, sol_map. apply (sol_between (S z) false true false true); [apply sol_lex, sol_token| |apply sol_lex, sol_token].
  apply sol_sep_by with (n1:=true) (n2:=true); [reflexivity| |apply sol_lex, sol_token]. apply sol_map, sol_tuple.
  apply (sol_TC (n1:=true) (n2:=true)); [apply sol_string|]. apply (sol_TC (n1:=true) (n2:=true)); [apply sol_lex, sol_token|]. apply sol_T1.
  apply sol_weak_b. apply sol_weak_z with (z' := z); [cbn; lia|exact H].
Qed.
Lemma sol_word z b s {A} (v : A) : chars s <> [] -> solid z b true (jlex code (map (string_p (C:=C) s (jlits lit s)) (fun _ => v))).
Proof.
  intros H. apply sol_lex, sol_map. unfold string_p, string_cmp. apply sol_expected, sol_map.
  replace true with (negb (length (jlits lit s) =? 0)); [apply sol_tokens_cmp|]. unfold jlits. rewrite map_length. destruct (chars s); [congruence|reflexivity].
Qed.
Lemma sol_body z value : solid z true true value -> solid (S z) false true (json_body (C:=C) fo code lit value).
Proof.
  intros H. unfold json_body. cbv zeta. apply sol_choice. apply sol_AC; [apply sol_map, sol_string|]. apply sol_AC; [apply sol_object, H|]. apply sol_AC.
  { apply sol_map. apply (sol_between (S z) false true false true); [apply sol_lex, sol_token| |apply sol_lex, sol_token].
    apply sol_sep_by with (n1:=true) (n2:=true); [reflexivity|apply sol_weak_b; exact H|apply sol_lex, sol_token]. }
  apply sol_AC; [apply sol_map, sol_number|]. apply sol_AC; [apply sol_word; discriminate|]. apply sol_AC; [apply sol_word; discriminate|]. apply sol_AL. apply sol_word. discriminate.
Qed.
End Total.

(** * Numbers *)
Section Numbers.
Context {X : Type}.
Variable code : X -> N.
Local Open Scope Q_scope.
Notation dec := (decimal_value code).
Lemma dec_app l t : (dec (l ++ [t]) = 10 * dec l + digit_value code t)%Z.
Proof. unfold decimal_value. rewrite fold_left_app. reflexivity. Qed.
Lemma dec_nonneg l : Forall (decimal code) l -> (0 <= dec l)%Z.
Proof.
  induction l as [|t l IH] using rev_ind; intros H; [unfold decimal_value; cbn; lia|]. rewrite dec_app. apply Forall_app in H. destruct H as [H1 H2]. inversion H2; subst.
  specialize (IH H1). unfold decimal, digit_value in *. lia.
Qed.
Lemma fold_dec l n : (fold_left (fun n t => 10 * n + digit_value code t) l n = n * 10 ^ Z.of_nat (length l) + dec l)%Z.
Proof.
  induction l as [|t l IH] using rev_ind; [unfold decimal_value; cbn; lia|]. rewrite fold_left_app, dec_app, app_length, Nat2Z.inj_add, Z.pow_add_r by lia.
  cbn [fold_left length]. rewrite IH. change (10 ^ Z.of_nat 1)%Z with 10%Z. ring.
Qed.
Lemma dec_cat a b : (dec (a ++ b) = dec a * 10 ^ Z.of_nat (length b) + dec b)%Z.
Proof. unfold decimal_value at 1. rewrite fold_left_app. apply fold_dec. Qed.
Lemma tens_S n : tens (S n) == 10 * tens n.
Proof. unfold tens. rewrite Nat2Z.inj_succ, Z.pow_succ_r by lia. rewrite inject_Z_mult. reflexivity. Qed.
Lemma tens_ne n : ~ tens n == 0.
Proof. unfold tens. intros H. unfold Qeq in H. cbn in H. pose proof (Z.pow_pos_nonneg 10 (Z.of_nat n)). lia. Qed.
Lemma frac_exact fr : forall acc mag : Q, frac_value code q_ops acc mag fr == acc + mag * (inject_Z (dec fr) / tens (length fr)).
Proof.
  induction fr as [|t fr IH]; intros acc mag; cbn [frac_value].
  - change (f64 q_ops) with Q. unfold decimal_value. cbn [fold_left length]. change (inject_Z 0) with 0. field. apply tens_ne.
  - rewrite IH. cbn [f_add f_mul f_div f_int q_ops]. change (t :: fr) with ([t] ++ fr). rewrite dec_cat. unfold decimal_value at 2. cbn [fold_left].
    rewrite inject_Z_plus, inject_Z_mult. fold (tens (length fr)). cbn [length app]. rewrite tens_S. rewrite !inject_Z_plus. change (inject_Z 10) with (10 # 1). change (inject_Z (10 * 0)) with 0.
    field. apply tens_ne.
Qed.
Lemma low_small b x z : (0 < b)%Z -> (- 2 ^ (b - 1) <= x < 2 ^ (b - 1))%Z -> low_bits b x z -> z = x.
Proof. intros Hb H K. apply (low_unique b x x z x 0 Hb); [lia|exact K|]. split; [exact H|]. exists 0%Z. lia. Qed.
Lemma frac_nonneg fr : Forall (decimal code) fr -> 0 <= inject_Z (dec fr) / tens (length fr).
Proof.
  intros H. apply dec_nonneg in H. unfold tens. apply Qle_shift_div_l.
  - unfold Qlt. cbn. pose proof (Z.pow_pos_nonneg 10 (Z.of_nat (length fr))). lia.
  - rewrite Qmult_0_l. unfold Qle. cbn. lia.
Qed.
Lemma number_exact neg ip fr ex v : number_value code q_ops neg ip fr ex v -> Forall (decimal code) ip -> Forall (decimal code) fr -> (dec ip < 2 ^ 63)%Z ->
  match ex with None => True | Some (_, ds) => Forall (decimal code) ds /\ (dec ds < 2 ^ 31)%Z end ->
  v == written code (neg && negb (dec ip =? 0)%Z) ip fr ex.
Proof.
  intros [n [H1 H2]] Hi Hf Hb He. pose proof (dec_nonneg _ Hi) as Hi0.
  apply low_small in H1; [|reflexivity|cbn in *; lia]. subst n. cbv zeta in H2.
  set (x := if neg then _ else _) in H2. set (y := frac_value _ _ _ _ _) in H2. set (z := if f_ge0 q_ops x then _ else _) in H2.
  assert (Ey : y == inject_Z (dec fr) / tens (length fr)).
  { unfold y. rewrite frac_exact. cbn [f_int q_ops]. change (inject_Z 0) with 0. change (inject_Z 1) with 1. field. apply tens_ne. }
  assert (Et : inject_Z (dec (ip ++ fr)) / tens (length fr) == inject_Z (dec ip) + inject_Z (dec fr) / tens (length fr)).
  { rewrite dec_cat, inject_Z_plus, inject_Z_mult. fold (tens (length fr)). field. apply tens_ne. }
  assert (Ez : z == (if neg && negb (dec ip =? 0)%Z then -1 else 1) * (inject_Z (dec (ip ++ fr)) / tens (length fr))).
  { rewrite Et. unfold z, x. cbn [f_ge0 f_add f_sub f_neg f_int q_ops].
    destruct neg; cbn [andb].
    - destruct (Z.eqb_spec (dec ip) 0) as [E0|E0]; cbn [negb].
      + rewrite E0. cbn [Qle_bool]. change (Qle_bool 0 (- inject_Z 0)) with true. cbv iota. rewrite Ey. change (inject_Z 0) with 0. ring.
      + assert (K : Qle_bool 0 (- inject_Z (dec ip)) = false).
        { apply not_true_is_false. intros K. apply Qle_bool_iff in K. unfold Qle in K. cbn in K. lia. }
        rewrite K, Ey. ring.
    - assert (K : Qle_bool 0 (inject_Z (dec ip)) = true) by (apply Qle_bool_iff; unfold Qle; cbn; lia). rewrite K, Ey. ring. }
  unfold written. destruct ex as [[en ds]|].
  - destruct He as [He1 He2]. pose proof (dec_nonneg _ He1). destruct H2 as [e [H2 ->]].
    apply low_small in H2; [|reflexivity|destruct en; cbn in *; lia]. subst e. cbn [f_mul f_pow10 q_ops]. rewrite Ez. reflexivity.
  - subst v. rewrite Ez. ring.
Qed.
Lemma int_text_digits w r ip : int_text code w r ip -> Forall (decimal code) ip.
Proof.
  intros H. destruct H as [t r H|t ds s r H1 H2 [H3 _] _].
  - repeat constructor; unfold decimal, is_char in *; lia.
  - constructor; auto.
Qed.
Lemma number_text_digits w r neg ip fr ex : number_text code w r neg ip fr ex ->
  Forall (decimal code) ip /\ Forall (decimal code) fr /\ match ex with None => True | Some (_, ds) => Forall (decimal code) ds end.
Proof.
  intros [sg [iw [dt [ew [s [_ [_ [K2 [_ [[K4 _] [K5 _]]]]]]]]]]]. split; [eapply int_text_digits; eauto|]. split; [exact K4|].
  destruct K5 as [r0 K|e ds s0 r0 _ _ [K _] _|e m ds s0 r0 _ _ _ [K _] _]; auto.
Qed.
End Numbers.
