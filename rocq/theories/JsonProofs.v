(** Proofs for C63: the JSON parser reads exactly the texts of the specification. *)
From Coq Require Import String List Bool Arith NArith ZArith Lia.
Import ListNotations.
From Verif Require Import Base Parser Errors Token Combinator Sequence Choice Repeat RangeP ByteP Instances TotalSpec JsonM JsonSpec.
From Verif Require Import Spec SeqSpec ChoiceSpec TidySpec RepeatSpec AgreeSpec RangeSpec LibSpec.
From Verif Require Import ResultProofs TokenProofs SeqProofs CombProofs ChoiceProofs CombProofs2 RepeatProofs RepeatProofs2 RepeatProofs4 ByteProofs TidyProofs ForwardProofs LangProofs.
Unset Implicit Arguments.

Lemma is_whitespace_white c : is_whitespace c = true <->
  In c ([9; 10; 11; 12; 13; 32; 133; 160; 5760; 8192; 8193; 8194; 8195; 8196; 8197; 8198; 8199; 8200; 8201; 8202;
                8232; 8233; 8239; 8287; 12288])%N.
Proof.
  unfold is_whitespace, in_range. cbn [In]. rewrite !orb_true_iff, !andb_true_iff, !N.leb_le, !N.eqb_eq. lia.
Qed.
Lemma char_is_digit10 c : char_is_digit 10 c = true <-> (48 <= c <= 57)%N.
Proof.
  unfold char_is_digit, char_to_digit, in_range.
  destruct ((48 <=? c) && (c <=? 57))%N eqn:H1.
  { rewrite andb_true_iff, !N.leb_le in H1. rewrite N.ltb_lt. lia. }
  rewrite andb_false_iff, !N.leb_gt in H1.
  destruct ((97 <=? c) && (c <=? 102))%N; [rewrite N.ltb_lt; lia|]. destruct ((65 <=? c) && (c <=? 70))%N; [rewrite N.ltb_lt; lia|].
  split; [discriminate|lia].
Qed.

(** ** Wrapping arithmetic *)
Lemma wrap_low b x : (0 < b)%Z -> low_bits b x (wrap b x).
Proof.
  intros Hb. unfold low_bits, wrap. assert (E2 : (2 ^ b = 2 * 2 ^ (b - 1))%Z) by (rewrite <- Z.pow_succ_r; [f_equal; lia|lia]).
  assert (P : (0 < 2 ^ (b - 1))%Z) by (apply Z.pow_pos_nonneg; lia). pose proof (Z.mod_pos_bound (x + 2 ^ (b - 1)) (2 ^ b)).
  split; [lia|]. exists ((x + 2 ^ (b - 1)) / 2 ^ b)%Z. pose proof (Z.div_mod (x + 2 ^ (b - 1)) (2 ^ b)). lia.
Qed.
Lemma low_unique b x y z z' k : (0 < b)%Z -> x = (y + k * 2 ^ b)%Z -> low_bits b x z -> low_bits b y z' -> z = z'.
Proof.
  intros Hb Hx [H1 [k1 H2]] [K1 [k2 K2]]. assert (E2 : (2 ^ b = 2 * 2 ^ (b - 1))%Z) by (rewrite <- Z.pow_succ_r; [f_equal; lia|lia]).
  assert (P : (0 < 2 ^ (b - 1))%Z) by (apply Z.pow_pos_nonneg; lia).
  assert (z - z' = (k2 + k - k1) * 2 ^ b)%Z by lia. assert (k2 + k - k1 = 0 \/ k2 + k - k1 >= 1 \/ k2 + k - k1 <= -1)%Z as [E0|[E0|E0]] by lia; nia.
Qed.
Lemma low_wrap b x z : (0 < b)%Z -> (low_bits b x z <-> z = wrap b x).
Proof. intros Hb. split; [intros H; eapply (low_unique b x x z _ 0); [auto|lia|auto|apply wrap_low; auto]|intros ->; apply wrap_low; auto]. Qed.
Lemma wrap_cong b x y k : (0 < b)%Z -> x = (y + k * 2 ^ b)%Z -> wrap b x = wrap b y.
Proof. intros Hb H. eapply (low_unique b x y _ _ k); auto; apply wrap_low; auto. Qed.
Lemma wrap_eq b x : (0 < b)%Z -> exists k, wrap b x = (x + k * 2 ^ b)%Z.
Proof. intros Hb. destruct (wrap_low b x Hb) as [_ [k H]]. exists (- k)%Z. lia. Qed.

Section Json.
Context {C : Cfg}.
Notation T := (tok C).
Notation E := (Err C).
Variable L : lawful C.
Variable fo : f64_ops.
Variable code : T -> N.
Variable lit : N -> T.
Hypothesis code_lit : forall n, (n < 256)%N -> code (lit n) = n.
Hypothesis lit_code : forall t, lit (code t) = t.

Lemma is_lit n t : (n < 256)%N -> (t = lit n <-> code t = n).
Proof. intros H. split; [intros ->; auto|intros <-; symmetry; apply lit_code]. Qed.
Lemma jlits_code s (u : list T) : Forall (fun n => n < 256)%N (chars s) -> (u = jlits lit s <-> List.map code u = chars s).
Proof.
  unfold jlits. intros H. revert u. induction (chars s) as [|n l IH]; intros [|t u]; cbn; split; intros K; try discriminate; auto.
  - inversion H; subst. inversion K; subst. f_equal; auto. apply IH; auto.
  - inversion H; subst. inversion K; subst. f_equal; [symmetry; apply lit_code|apply IH; auto].
Qed.

(** ** Single characters *)
Lemma tokQ_stops (f : T -> bool) (p : T -> Prop) : (forall t, f t = true <-> p t) -> forall l, tokQ f l <-> stops p l.
Proof. intros H [|t l]; cbn; [tauto|]. rewrite <- H. destruct (f t); split; intros; congruence. Qed.
Lemma lang_pred n (p : parser C unit T) (f : T -> bool) (q : T -> Prop) : (forall t, f t = true <-> q t) -> lang n (fresh p) (tokP f) (tokQ f) ->
  lang n (fresh p) (fun w _ a => w = [a] /\ q a) (stops q).
Proof.
  intros H. apply lang_ext; [|intros; apply tokQ_stops; auto]. intros w r a _. unfold tokP. rewrite H. tauto.
Qed.
Lemma lang_char n c : (c < 256)%N -> lang n (fresh (jchar lit c)) (fun w _ a => w = [a] /\ is_char code c a) (stops (is_char code c)).
Proof.
  intros Hc. eapply lang_pred; [|apply (lang_token L)]. intros t. cbn. rewrite (law_tok L). unfold is_char. apply is_lit; auto.
Qed.
Lemma lang_digit n : lang n (fresh (c_digit code)) (fun w _ a => w = [a] /\ decimal code a) (stops (decimal code)).
Proof.
  apply lang_parser_fn0. eapply lang_pred; [|apply lang_class]. intros t. apply char_is_digit10.
Qed.
Lemma star_pred (q : T -> Prop) w r l : star (fun w _ a => w = [a] /\ q a) w r l <-> w = l /\ Forall q l.
Proof.
  split.
  - intros H. induction H as [|w1 w2 r a l [-> H1] H2 [-> IH]]; [auto|]. split; [reflexivity|constructor; auto].
  - intros [-> H]. induction H as [|a l H1 H2 IH]; [constructor|]. apply (star_cons _ [a] l r a l); auto.
Qed.

Lemma hf_unit {A} (p : parser C unit A) : history_free false p.
Proof. apply tidy_history_free, td_unit. Qed.

Lemma lang_spaces n : n <= fuel C -> lang n (fresh (c_spaces code)) (fun w r _ => span (white code) w r) (fun _ => False).
Proof.
  intros Hn. apply lang_expected. assert (H : lang n (fresh (c_space code)) (fun w _ a => w = [a] /\ white code a) (stops (white code))).
  { eapply lang_pred; [|apply lang_class]. intros t. apply is_whitespace_white. }
  eapply lang_ext; [| |eapply lang_skip_many; [apply hf_unit|exact Hn| |exact H]].
  - intros w r u _. cbn. unfold span. split; [intros [[l K1] K2]; apply star_pred in K1; destruct K1 as [-> K1]; auto|].
    intros [K1 K2]. split; auto. exists w. apply star_pred. auto.
  - cbn. tauto.
  - intros r a [K _]. discriminate.
Qed.

Definition lexP {A} (P : list T -> list T -> A -> Prop) (w r : list T) (a : A) : Prop := exists u s, w = u ++ s /\ P u (s ++ r) a /\ span (white code) s r.
Lemma lang_lex n {S A} (p : parser C S A) P Q : n <= fuel C -> lang n (fresh p) P Q -> lang n (fresh (jlex code p)) (lexP P) Q.
Proof.
  intros Hn H. eapply lang_ext; [| |eapply lang_seq; [apply skip_runs|exact H|apply lang_spaces; exact Hn|lia]].
  - intros w r a _. unfold lexP. split.
    + intros [w1 [w2 [x [y [-> [K1 [K2 ->]]]]]]]. exists w1, w2. auto.
    + intros [u [s [-> [K1 K2]]]]. exists u, s, a, tt. auto.
  - intros l _. cbn. split; [intros [K|[a [_ []]]]; exact K|auto].
Qed.
Lemma lang_lexchar n c : n <= fuel C -> (c < 256)%N -> lang n (fresh (jlex code (jchar lit c))) (fun w r a => lexeme code c w r /\ hd_error w = Some a) (stops (is_char code c)).
Proof.
  intros Hn Hc. eapply lang_ext; [| |apply lang_lex; [exact Hn|apply (lang_char n c Hc)]]; [|cbn; tauto].
  intros w r a _. unfold lexP, lexeme. split.
  - intros [u [s [-> [[-> K1] K2]]]]. split; [exists a, s; auto|reflexivity].
  - intros [[t [s [-> [K1 K2]]]] K3]. inversion K3; subst. exists [a], s. auto.
Qed.
Lemma lexeme_ne c r : ~ lexeme code c [] r.
Proof. intros [t [s [K _]]]. discriminate. Qed.

(** ** Numbers *)
Lemma integer_fold (s : list T) : fold_left (fun n c => wrap64 (wrap64 (n * 10) + (Z.of_N (code c) - 48)))%Z s 0%Z = wrap64 (decimal_value code s).
Proof.
  unfold decimal_value. assert (G : forall n m, n = wrap64 m ->
    fold_left (fun n c => wrap64 (wrap64 (n * 10) + (Z.of_N (code c) - 48)))%Z s n = wrap64 (fold_left (fun n t => 10 * n + digit_value code t)%Z s m)).
  { induction s as [|t s IH]; intros n m ->; [reflexivity|]. cbn [fold_left]. apply IH. unfold wrap64.
    destruct (wrap_eq 64 m eq_refl) as [k1 H1], (wrap_eq 64 (wrap 64 m * 10) eq_refl) as [k2 H2].
    apply (wrap_cong 64 _ _ (10 * k1 + k2)); [reflexivity|]. rewrite H2, H1. unfold digit_value. ring. }
  apply G. reflexivity.
Qed.
Lemma lang_integer n : n <= fuel C -> lang n (fresh (json_integer code))
  (fun w r z => exists ds s, w = ds ++ s /\ ds <> [] /\ span (decimal code) ds (s ++ r) /\ span (white code) s r /\ z = wrap64 (decimal_value code ds))
  (stops (decimal code)).
Proof.
  intros Hn. apply lang_expected. eapply lang_ext; [| |apply lang_map, lang_lex; [exact Hn|eapply lang_many1; [apply hf_unit|exact Hn| |apply lang_digit]]].
  - intros w r z _. cbn. unfold lexP. split.
    + intros [a [[u [s [-> [[K1 [K2 K3]] K4]]]] ->]]. apply star_pred in K2. destruct K2 as [-> K2]. exists a, s. rewrite integer_fold. unfold span at 1. auto 6.
    + intros [ds [s [-> [K1 [[K2 K3] [K4 ->]]]]]]. exists ds. rewrite integer_fold. split; auto. exists ds, s. split; auto. split; [|auto]. split; [auto|].
      split; [apply star_pred; auto|auto].
  - cbn. tauto.
  - intros r a [K _]. discriminate.
Qed.

Lemma lang_int_part n : n <= fuel C -> lang n (fresh (json_int_part fo code lit))
  (fun w r x => exists ip, int_text code w r ip /\ x = f_int fo (wrap64 (decimal_value code ip))) (stops (decimal code)).
Proof.
  intros Hn. eapply lang_ext; [| |apply lang_or; [apply lang_map, (lang_char n 48); lia|apply lang_map, lang_integer; exact Hn]].
  - intros w r x _. cbn. split.
    + intros [[a [[-> K] ->]]|[K1 [z [[ds [s [-> [K2 [K3 [K4 ->]]]]]] ->]]]].
      * exists [a]. split; [constructor; exact K|]. unfold decimal_value, digit_value. cbn [fold_left]. rewrite K. reflexivity.
      * destruct ds as [|t ds]; [congruence|]. exists (t :: ds). destruct K3 as [K3 K5]. inversion K3; subst. cbn in K1. split; [|reflexivity].
        constructor; auto. split; auto.
    + intros [ip [K ->]]. destruct K as [t r K|t ds s r K1 K2 [K3 K3'] K4].
      * left. exists t. split; [auto|]. unfold decimal_value, digit_value. cbn [fold_left]. rewrite K. reflexivity.
      * right. split; [exact K2|]. exists (wrap64 (decimal_value code (t :: ds))). split; [|reflexivity]. exists (t :: ds), s. split; auto.
        split; [discriminate|]. split; [split; [constructor; auto|auto]|auto].
  - intros l _. cbn. destruct l as [|t l]; cbn; [tauto|]. unfold is_char, decimal. lia.
Qed.

Lemma frac_fold (s : list T) : Forall (decimal code) s -> forall a m,
  fst (fold_left (fun am d =>
       let magnitude := f_div fo (snd am) (f_int fo 10) in
       match char_to_digit (code d) with
       | Some d => (f_add fo (fst am) (f_mul fo (f_int fo (Z.of_N d)) magnitude), magnitude)
       | None => am
       end) s (a, m)) = frac_value code fo a m s.
Proof.
  intros H. induction H as [|t s H1 H2 IH]; intros a m; [reflexivity|]. cbn [fold_left frac_value fst snd].
  unfold char_to_digit, in_range. unfold decimal in H1.
  replace ((48 <=? code t) && (code t <=? 57))%N with true by (symmetry; rewrite andb_true_iff, !N.leb_le; lia).
  cbv zeta. rewrite IH. unfold digit_value. rewrite N2Z.inj_sub by lia. reflexivity.
Qed.
Lemma lang_fractional n : n <= fuel C -> lang n (fresh (json_fractional fo code))
  (fun w r y => span (decimal code) w r /\ y = frac_value code fo (f_int fo 0) (f_int fo 1) w) (fun _ => False).
Proof.
  intros Hn. eapply lang_ext; [| |apply lang_map, lang_many; [apply hf_unit|exact Hn| |apply lang_digit]].
  - intros w r y _. cbn beta. split.
    + intros [a [[K1 K2] ->]]. apply star_pred in K1. destruct K1 as [-> K1]. split; [split; auto|]. apply frac_fold. auto.
    + intros [[K1 K2] ->]. exists w. split; [split; [apply star_pred; auto|auto]|]. symmetry. apply frac_fold. auto.
  - cbn. tauto.
  - intros r a [K _]. discriminate.
Qed.

Definition exp_sign (o : option T) (m : list T) : Prop := match o with Some t => m = [t] /\ is_char code 45 t | None => m = [] end.
Lemma decimal_not c (ds s : list T) : (c < 48 \/ 57 < c)%N -> ds <> [] -> Forall (decimal code) ds -> stops (is_char code c) (ds ++ s).
Proof. intros Hc Hd H. destruct ds as [|t ds]; [congruence|]. inversion H; subst. cbn. unfold is_char, decimal in *. lia. Qed.
Lemma lang_exp n : n <= fuel C -> lang n (fresh (json_exp code lit))
  (fun w r v => exists e m ds s, w = e :: m ++ ds ++ s /\ (is_char code 101 e \/ is_char code 69 e) /\ exp_sign (fst v) m /\ ds <> [] /\
     span (decimal code) ds (s ++ r) /\ span (white code) s r /\ snd v = wrap64 (decimal_value code ds))
  (stops (fun t => is_char code 101 t \/ is_char code 69 t)).
Proof.
  intros Hn. eapply lang_ext; [| |eapply lang_seq; [apply with_runs| | |]].
  3: { eapply lang_pred; [|apply lang_satisfy]. instantiate (1 := fun t => is_char code 101 t \/ is_char code 69 t). intros t. cbn.
       rewrite orb_true_iff, !N.eqb_eq. reflexivity. }
  3: { eapply lang_seq; [apply pair2_runs|apply lang_optional, (lang_char n 45); lia|apply lang_integer; exact Hn|lia]. }
  3: lia.
  - intros w r v _. cbn beta. split.
    + intros [w1 [w2 [a [x [-> [[-> K1] [[w3 [w4 [o [z [-> [K2 [K3 ->]]]]]]] ->]]]]]]]. destruct K3 as [ds [s [-> [K3 [K4 [K5 ->]]]]]].
      exists a, w3, ds, s. split; [reflexivity|]. split; [auto|]. cbn [fst snd]. split; [|auto].
      destruct o; cbn; tauto.
    + intros [e [m [ds [s [-> [K1 [K2 [K3 [K4 [K5 K6]]]]]]]]]]. exists [e], (m ++ ds ++ s), e, v. split; [reflexivity|]. split; [auto|]. split; [|reflexivity].
      exists m, (ds ++ s), (fst v), (snd v). split; [reflexivity|]. split; [|split; [|destruct v; reflexivity]].
      * destruct (fst v); cbn in *; [tauto|]. split; auto. destruct K4 as [K4 _]. rewrite <- app_assoc. apply decimal_not; auto. lia.
      * exists ds, s. auto.
  - intros l _. cbn beta. split; [intros [K|[a [[K _] _]]]; [exact K|discriminate]|auto].
Qed.

Lemma wrap32_64 x : wrap32 (wrap64 x) = wrap32 x.
Proof.
  destruct (wrap_eq 64 x eq_refl) as [k H]. unfold wrap64, wrap32. apply (wrap_cong 32 _ _ (k * 2 ^ 32)%Z); [reflexivity|]. rewrite H. ring.
Qed.
Lemma wrap32_neg x : wrap32 (wrap64 (- wrap64 x)) = wrap32 (- x).
Proof.
  rewrite wrap32_64. destruct (wrap_eq 64 x eq_refl) as [k H]. unfold wrap64, wrap32. apply (wrap_cong 32 _ _ (- k * 2 ^ 32)%Z); [reflexivity|]. rewrite H. ring.
Qed.

Definition numP (w r : list T) (v : f64 fo) : Prop := exists neg ip fr ex, number_text code w r neg ip fr ex /\ number_value code fo neg ip fr ex v.
Lemma int_text_ne r ip : ~ int_text code [] r ip.
Proof. intros H. inversion H. Qed.
Lemma int_text_start w r ip : int_text code w r ip -> stops (is_char code 45) (w ++ r).
Proof. intros H. destruct H as [t r H|t ds s r H1 H2 H3 H4]; cbn; unfold is_char, decimal in *; lia. Qed.
Lemma lang_number n : n <= fuel C -> lang n (fresh (json_number fo code lit)) numP (stops (fun t => is_char code 45 t \/ decimal code t)).
Proof.
  intros Hn.
  assert (H1 : lang n (fresh (map (pair2 (optional (jchar lit 45)) (json_int_part fo code lit)) (fun x => match fst x with Some _ => f_neg fo (snd x) | None => snd x end)))
    (fun w r x => exists sg iw ip neg, w = sg ++ iw /\ (if neg : bool then exists t, sg = [t] /\ is_char code 45 t else sg = []) /\ int_text code iw r ip /\
       x = (if neg then f_neg fo (f_int fo (wrap64 (decimal_value code ip))) else f_int fo (wrap64 (decimal_value code ip))))
    (stops (fun t => is_char code 45 t \/ decimal code t))).
  { eapply lang_ext; [| |apply lang_map; eapply lang_seq; [apply pair2_runs|apply lang_optional, (lang_char n 45); lia|apply lang_int_part; exact Hn|lia]].
    - intros w r x _. cbn beta. split.
      + intros [a [[w1 [w2 [o [y [-> [K1 [[ip [K2 ->]] ->]]]]]]] ->]]. cbn [fst snd].
        exists w1, w2, ip, (match o with Some _ => true | None => false end). split; [reflexivity|]. destruct o as [t|].
        * split; [exists t; auto|]. auto.
        * split; [apply K1|]. auto.
      + intros [sg [iw [ip [neg [-> [K1 [K2 ->]]]]]]]. destruct neg.
        * destruct K1 as [t [-> K1]]. exists (Some t, f_int fo (wrap64 (decimal_value code ip))). split; [|reflexivity].
          exists [t], iw, (Some t), (f_int fo (wrap64 (decimal_value code ip))). split; [reflexivity|]. split; [auto|]. split; [eauto|reflexivity].
        * subst sg. exists (None, f_int fo (wrap64 (decimal_value code ip))). split; [|reflexivity].
          exists [], iw, None, (f_int fo (wrap64 (decimal_value code ip))). split; [reflexivity|]. split; [|split; [eauto|reflexivity]].
          split; [reflexivity|]. eapply int_text_start; eauto.
    - intros l _. cbn beta. split.
      + intros [[]|[o [K1 K2]]]. destruct o as [t|]; [destruct K1 as [K1 _]; discriminate|]. destruct K1 as [_ K1]. destruct l; cbn in *; tauto.
      + intros K. right. exists None. destruct l; cbn in *; tauto. }
  assert (H2 : lang n (fresh (with_ (optional (jchar lit 46)) (json_fractional fo code)))
    (fun w r y => exists dt fr, w = dt ++ fr /\ ((exists t, dt = [t] /\ is_char code 46 t) \/ (dt = [] /\ stops (is_char code 46) (fr ++ r))) /\
       span (decimal code) fr r /\ y = frac_value code fo (f_int fo 0) (f_int fo 1) fr) (fun _ => False)).
  { eapply lang_ext; [| |eapply lang_seq; [apply with_runs|apply lang_optional, (lang_char n 46); lia|apply lang_fractional; exact Hn|lia]].
    - intros w r y _. cbn beta. split.
      + intros [w1 [w2 [o [x [-> [K1 [[K2 ->] ->]]]]]]]. exists w1, w2. split; [reflexivity|]. split; [|auto]. destruct o as [t|]; [left; exists t; auto|right; auto].
      + intros [dt [fr [-> [K1 [K2 ->]]]]]. destruct K1 as [[t [-> K1]]|[-> K1]].
        * exists [t], fr, (Some t), (frac_value code fo (f_int fo 0) (f_int fo 1) fr). auto.
        * exists [], fr, None, (frac_value code fo (f_int fo 0) (f_int fo 1) fr). auto 6.
    - intros l _. cbn beta. split; [intros [[]|[a [_ []]]]|intros []]. }
  assert (H3 : lang n (fresh (optional (json_exp code lit)))
    (fun w r o => exists ex, exp_text code w r ex /\ match ex, o with
       | None, None => True
       | Some (neg, ds), Some (sn, z) => (if neg : bool then exists t, sn = Some t /\ List.In t w /\ is_char code 45 t else sn = None) /\ z = wrap64 (decimal_value code ds)
       | _, _ => False end) (fun _ => False)).
  { eapply lang_ext; [| |apply lang_optional, lang_exp; exact Hn]; [|cbn; tauto]. intros w r o _. cbn beta. split.
    - destruct o as [[sn z]|].
      + intros [e [m [ds [s [-> [K1 [K2 [K3 [K4 [K5 K6]]]]]]]]]]. cbn in K2, K6. destruct sn as [t|]; cbn in K2.
        * destruct K2 as [-> K2]. exists (Some (true, ds)). split; [apply (@et_neg _ code e t ds s r); auto|]. split; [|auto]. exists t. cbn. auto.
        * subst m. exists (Some (false, ds)). split; [apply (@et_pos _ code e ds s r); auto|]. auto.
      + intros [-> K]. exists None. split; [constructor; auto|auto].
    - intros [ex [K1 K2]]. destruct K1 as [r K1|e ds s r K1 K3 K4 K5|e m ds s r K1 K3 K4 K5 K6]; destruct o as [[sn z]|]; try contradiction.
      + auto.
      + destruct K2 as [-> ->]. exists e, [], ds, s. cbn. auto 8.
      + destruct K2 as [[t [-> [K7 K8]]] ->]. exists e, [m], ds, s. cbn. split; [reflexivity|]. split; [auto|]. split; [|auto]. split; [|exact K8].
        f_equal. rewrite <- (lit_code m), <- (lit_code t). unfold is_char in *. congruence. }
  apply lang_expected. eapply lang_ext; [| |apply lang_lex; [exact Hn|apply lang_map; eapply lang_seq; [apply pair2_runs|
    apply lang_map; eapply lang_seq; [apply pair2_runs|exact H1|exact H2|lia]|exact H3|lia]]].
  - clear H1 H2 H3. intros w r v _. cbn beta. split.
    + intros [u [s [-> [[a [[w1 [ew [z [o [-> [[b [[w3 [w4 [x [y [-> [K1 [K2 ->]]]]]]] ->]] [K3 ->]]]]]]] ->]] K4]]]].
      cbn [fst snd] in *. destruct K1 as [sg [iw [ip [neg [-> [K1 [K1' ->]]]]]]]. destruct K2 as [dt [fr [-> [K2 [K2' ->]]]]].
      destruct K3 as [ex [K3 K3']]. exists neg, ip, fr, ex. rewrite <- ?app_assoc in *. split.
      * exists sg, iw, dt, ew, s. split; [rewrite <- ?app_assoc; reflexivity|]. split; [auto|]. rewrite <- ?app_assoc in *. auto 8.
      * exists (wrap64 (decimal_value code ip)). split; [apply low_wrap; reflexivity|]. cbv zeta.
        destruct ex as [[en ds]|], o as [[sn ez]|]; try contradiction; [|destruct neg; reflexivity]. destruct K3' as [K5 ->].
        exists (wrap32 (if en then - decimal_value code ds else decimal_value code ds)). split; [apply low_wrap; reflexivity|].
        destruct en.
        { destruct K5 as [t [-> K5]]. rewrite wrap32_neg. destruct neg; reflexivity. }
        { subst sn. rewrite wrap32_64. destruct neg; reflexivity. }
    + intros [neg [ip [fr [ex [[sg [iw [dt [ew [s [-> [K1 [K2 [K3 [K4 [K5 K6]]]]]]]]]]] [nv [V1 V2]]]]]]].
      apply low_wrap in V1; [|reflexivity]. subst nv. cbv zeta in V2.
      set (o := match ex with None => None | Some (en, ds) => Some (if en : bool then Some (lit 45) else None, wrap64 (decimal_value code ds)) end).
      set (x := if neg then f_neg fo (f_int fo (wrap64 (decimal_value code ip))) else f_int fo (wrap64 (decimal_value code ip))) in *.
      set (y := frac_value code fo (f_int fo 0) (f_int fo 1) fr) in *.
      set (z := if f_ge0 fo x then f_add fo x y else f_sub fo x y) in *.
      exists (sg ++ iw ++ dt ++ fr ++ ew), s. split; [rewrite <- ?app_assoc; reflexivity|]. split; [|exact K6].
      exists (z, o). split.
      * exists (sg ++ iw ++ dt ++ fr), ew, z, o. split; [rewrite <- ?app_assoc; reflexivity|]. split; [|split; [|reflexivity]].
        { exists (x, y). split; [|reflexivity]. exists (sg ++ iw), (dt ++ fr), x, y. split; [rewrite <- ?app_assoc; reflexivity|]. split; [|split; [|reflexivity]].
          - exists sg, iw, ip, neg. rewrite <- !app_assoc. auto.
          - exists dt, fr. rewrite <- ?app_assoc. auto. }
        { exists ex. split; [exact K5|]. destruct ex as [[en ds]|]; cbn; [|exact I]. split; [|reflexivity]. destruct en; [|reflexivity].
          exists (lit 45). split; [reflexivity|]. assert (I : is_char code 45 (lit 45)) by (apply code_lit; lia). split; [|exact I].
          inversion K5 as [| |e m ds' s' r' J1 J2 J3 J4 J5]; subst. right. left. rewrite <- (lit_code m). unfold is_char in J2. congruence. }
      * cbn [fst snd]. destruct ex as [[en ds]|]; cbn [o]; [|exact V2]. destruct V2 as [e [V2 ->]]. apply low_wrap in V2; [|reflexivity]. subst e.
        destruct en; [rewrite wrap32_neg|rewrite wrap32_64]; reflexivity.
  - intros l _. cbn beta. split.
    + intros [[K|[a [_ []]]]|[a [_ []]]]. exact K.
    + auto.
Qed.
Lemma numP_ne r v : ~ numP [] r v.
Proof.
  intros [neg [ip [fr [ex [[sg [iw [dt [ew [s [H [_ [K _]]]]]]]] _]]]]]. symmetry in H. apply app_eq_nil in H. destruct H as [_ H]. apply app_eq_nil in H.
  destruct H as [-> _]. eapply int_text_ne; eauto.
Qed.

(** ** Strings *)
Definition charP (w r : list T) (a : T) : Prop :=
  (w = [a] /\ ~ is_char code 34 a /\ ~ is_char code 92 a) \/ (exists b e, w = [b; e] /\ is_char code 92 b /\ In (code e, code a) escapes).
Definition charQ (l : list T) : Prop := match l with [] => True | t :: _ => is_char code 34 t end.
Definition unescape (c : T) : option T :=
    if (code c =? 34)%N then Some (lit 34)
    else if (code c =? 92)%N then Some (lit 92)
    else if (code c =? 47)%N then Some (lit 47)
    else if (code c =? 98)%N then Some (lit 8)
    else if (code c =? 102)%N then Some (lit 12)
    else if (code c =? 110)%N then Some (lit 10)
    else if (code c =? 114)%N then Some (lit 13)
    else if (code c =? 116)%N then Some (lit 9)
    else None.
Lemma unescape_spec e a : unescape e = Some a <-> In (code e, code a) escapes.
Proof.
  unfold unescape, escapes. cbn [In]. split.
  - intros H. repeat match type of H with (if (_ =? ?n)%N then _ else _) = _ => destruct (N.eqb_spec (code e) n) as [E0|_]; cbv iota in H end;
      try discriminate; injection H as <-; rewrite E0, code_lit by lia; auto 12.
  - intros H. repeat destruct H as [H|H]; try contradiction; injection H as E1 E2; rewrite <- E1; cbn [N.eqb Pos.eqb]; f_equal; symmetry; apply is_lit; auto; lia.
Qed.
Lemma json_char_run t l pos :
  let r := fresh (json_char code lit) (@Inp C (t :: l) pos false) in
  if (code t =? 92)%N then
    match l with
    | [] => exists x j, r = Done (CommitErr x, j)
    | e :: l' =>
        match unescape e with
        | Some a => r = Done (CommitOk a, @Inp C l' (pos_step C (pos_step C pos t) e) false)
        | None => exists x j, r = Done (CommitErr x, j)
        end
    end
  else if (code t =? 34)%N then exists x j, r = Done (PeekErr x, j)
  else r = Done (CommitOk t, @Inp C l (pos_step C pos t) false).
Proof.
  unfold fresh, json_char, fn_parser, mk_lazy. cbn. unfold lazy_run. cbn.
  destruct (code t =? 92)%N.
  - destruct l as [|e l]; [cbn; eauto|]. unfold default_stream, satisfy_impl, s_uncons, uncons. cbn [rest ipos ipart].
    change (if (code e =? 34)%N then Some (lit 34) else _) with (unescape e). destruct (unescape e); cbn; [reflexivity|].
    do 2 eexists. reflexivity.
  - destruct (code t =? 34)%N; cbn; eauto.
Qed.
Lemma lang_json_char n : lang n (fresh (json_char code lit)) charP charQ.
Proof.
  intros i _ Hp. unfold succeeds, fails, fails_with. destruct i as [l pos pt]. cbn in Hp. subst pt.
  destruct l as [|t l].
  { cbn. split.
    - intros c a i'. split; [destruct c; discriminate|]. intros [w [[K _] [_ [[-> _]|[b [e [-> _]]]]]]]; cbn in K; discriminate.
    - split; [auto|]. intros _. do 3 eexists. split; [reflexivity|]. split; reflexivity. }
  pose proof (json_char_run t l pos) as R. cbv zeta in R. destruct (N.eqb_spec (code t) 92) as [E0|E0].
  - assert (KQ : forall P : Prop, P -> ~ charQ (t :: l)) by (intros P _; cbn; unfold is_char; rewrite E0; discriminate).
    destruct l as [|e l].
    { destruct R as [x [j ->]]. split.
      - intros c a i'. split; [destruct c; discriminate|]. intros [w [[K _] [_ [[-> [K1 K2]]|[b [y [-> _]]]]]]]; cbn in K; [|discriminate]. inversion K; subst. contradiction.
      - split; [intros [e [r [j' [K1 [K2 K3]]]]]; inversion K1; subst; discriminate|intros K; exfalso; exact (KQ _ K K)]. }
    destruct (unescape e) as [a0|] eqn:U.
    + rewrite R. split.
      * intros c a i'. split.
        { intros K. apply done_commit in K. destruct K as [-> [-> ->]]. exists [t; e]. split; [repeat split|]. split; [reflexivity|]. right. exists t, e.
          split; [reflexivity|]. split; [exact E0|]. apply unescape_spec. auto. }
        { intros [w [[K [K' K'']] [-> [[-> [K1 K2]]|[b [x [-> [K1 K2]]]]]]]]; cbn in K; inversion K; subst; [contradiction|].
          apply unescape_spec in K2. rewrite U in K2. inversion K2; subst. cbn. destruct i'; cbn in *; subst. reflexivity. }
      * split; [intros [e1 [r [j [K1 [K2 K3]]]]]; inversion K1; subst; discriminate|intros K; exfalso; exact (KQ _ K K)].
    + destruct R as [x0 [j0 ->]]. split.
      * intros c a i'. split; [destruct c; discriminate|].
        intros [w [[K [K' K'']] [-> [[-> [K1 K2]]|[b [x [-> [K1 K2]]]]]]]]; cbn in K; inversion K; subst; [contradiction|].
        apply unescape_spec in K2. congruence.
      * split; [intros [e1 [r [j [K1 [K2 K3]]]]]; inversion K1; subst; discriminate|intros K; exfalso; exact (KQ _ K K)].
  - destruct (N.eqb_spec (code t) 34) as [E1|E1].
    + destruct R as [x0 [j0 ->]]. split.
      * intros c a i'. split; [destruct c; discriminate|].
        intros [w [[K [K' K'']] [-> [[-> [K1 K2]]|[b [x [-> [K1 K2]]]]]]]]; cbn in K; inversion K; subst; contradiction.
      * split; [intros _; exact E1|]. intros _. do 3 eexists. split; [reflexivity|]. split; reflexivity.
    + rewrite R. split.
      * intros c a i'. split.
        { intros K. apply done_commit in K. destruct K as [-> [-> ->]]. exists [t]. split; [repeat split|]. split; [reflexivity|]. left. auto. }
        { intros [w [[K [K' K'']] [-> [[-> [K1 K2]]|[b [x [-> [K1 K2]]]]]]]]; cbn in K; inversion K; subst; [|contradiction].
          cbn. destruct i'; cbn in *; subst. reflexivity. }
      * split; [intros [e1 [r [j [K1 [K2 K3]]]]]; inversion K1; subst; discriminate|]. intros K. exfalso. apply E1. exact K.
Qed.
Lemma star_chars w r s : star charP w r s <-> chars_text code w s.
Proof.
  split.
  - intros H. induction H as [|w1 w2 r a l H1 H2 IH]; [constructor|]. destruct H1 as [[-> [K1 K2]]|[b [e [-> [K1 K2]]]]]; cbn; [apply ct_plain|apply ct_escape]; auto.
  - intros H. revert r. induction H as [|t w s H1 H2 H3 IH|b e t w s H1 H2 H3 IH]; intros r; [constructor| |].
    + apply (star_cons charP [t] w r t s); auto. left. auto.
    + apply (star_cons charP [b; e] w r t s); auto. right. eauto.
Qed.

(** Between two parts, the first of which reads something. *)
Lemma lang_between n {S1 A S2 B S3 D} (o : parser C S1 A) (c : parser C S2 B) (p : parser C S3 D) Po Qo Pc Qc P Q :
  lang (S n) (fresh o) Po Qo -> (forall r a, ~ Po [] r a) -> lang n (fresh p) P Q -> lang n (fresh c) Pc Qc ->
  lang (S n) (fresh (between o c p)) (fun w r x => exists w1 w2 w3 a b, w = w1 ++ w2 ++ w3 /\ Po w1 (w2 ++ w3 ++ r) a /\ P w2 (w3 ++ r) x /\ Pc w3 r b) Qo.
Proof.
  intros H1 Hne H2 H3. assert (Hm : maps_to (fun x : A * (D * B) => fst (snd x)) (fresh (tuple (TC o (TC p (T1 c))))) (fresh (between o c p))).
  { exact (map_maps (tuple (TC o (TC p (T1 c)))) _). }
  eapply lang_ext; [| |eapply lang_maps; [exact Hm|]; eapply lang_seq; [apply tuple_cons_runs|exact H1|eapply lang_seq; [apply tuple_cons_runs|exact H2|apply lang_tuple1; exact H3|lia]|auto]].
  - intros w r x _. cbn beta. split.
    + intros [v [[w1 [w2 [a [y [-> [K1 [[w3 [w4 [d [b [-> [K2 [K3 ->]]]]]]] ->]]]]]]] ->]]. cbn. exists w1, w3, w4, a, b. rewrite <- app_assoc in K1. auto.
    + intros [w1 [w2 [w3 [a [b [-> [K1 [K2 K3]]]]]]]]. exists (a, (x, b)). split; [|reflexivity]. exists w1, (w2 ++ w3), a, (x, b). split; [reflexivity|].
      rewrite <- app_assoc. split; [auto|]. split; [|reflexivity]. exists w2, w3, x, b. auto.
  - intros l _. cbn beta. split; [intros [K|[a [K _]]]; [exact K|exfalso; eapply Hne; eauto]|auto].
Qed.

Lemma lexeme_start c w r : lexeme code c w r -> exists t l, w ++ r = t :: l /\ code t = c.
Proof. intros [t [s [-> [K _]]]]. exists t, (s ++ r). auto. Qed.
Lemma lang_string n : n <= fuel C -> lang n (fresh (json_string code lit)) (string_text code) (stops (is_char code 34)).
Proof.
  intros Hn. destruct n as [|n]; [intros i Hi; lia|]. apply lang_expected. eapply lang_ext; [| |eapply lang_between].
  3: apply (lang_char (S n) 34); lia.
  4: { eapply (lang_many n); [apply hf_unit|lia| |apply lang_json_char]. intros r a [[K _]|[b [e [K _]]]]; discriminate. }
  4: apply (lang_lexchar n 34); lia.
  - intros w r x _. cbn beta. unfold string_text. split.
    + intros [w1 [w2 [w3 [a [b [-> [[-> K1] [[K2 K3] [K4 _]]]]]]]]]. apply star_chars in K2. exists a, w2, w3. auto.
    + intros [q [body [close [-> [K1 [K2 K3]]]]]]. destruct (K3) as [t [s [-> [K4 K5]]]].
      exists [q], body, (t :: s), q, t. split; [reflexivity|]. split; [auto|]. split; [|split; [exact K3|reflexivity]]. split; [apply star_chars; auto|exact K4].
  - cbn. tauto.
  - intros r a [K _]. discriminate.
Qed.
Lemma string_text_ne r s : ~ string_text code [] r s.
Proof. intros [q [b [c [K _]]]]. discriminate. Qed.

(** ** Lists of values *)
Notation comma := (fun w r a => lexeme code 44 w r /\ hd_error w = Some a).
Lemma lexeme_hd c w r : lexeme code c w r -> exists a, hd_error w = Some a.
Proof. intros [t [s [-> _]]]. exists t. reflexivity. Qed.
Lemma star_items {A} (V : list T -> list T -> A -> Prop) w2 r l' : star (sepP V comma) w2 r l' -> forall w1 a, V w1 (w2 ++ r) a -> items code V (w1 ++ w2) r (a :: l').
Proof.
  intros H. induction H as [|wa wb r a' l H1 H2 IH]; intros w1 a Ha.
  - rewrite app_nil_r. apply items_one. exact Ha.
  - destruct H1 as [c [v [x [-> [[K1 _] K2]]]]]. rewrite <- (app_assoc c v wb). apply items_more.
    + rewrite <- !app_assoc in Ha. rewrite <- app_assoc. exact Ha.
    + rewrite <- app_assoc. exact K1.
    + apply IH. exact K2.
Qed.
Lemma items_star {A} (V : list T -> list T -> A -> Prop) w r l : items code V w r l ->
  exists w1 w2 a l', w = w1 ++ w2 /\ l = a :: l' /\ V w1 (w2 ++ r) a /\ star (sepP V comma) w2 r l'.
Proof.
  intros H. induction H as [w r a H|w1 c w2 r a l H1 H2 H3 IH].
  - exists w, [], a, []. rewrite app_nil_r. repeat split; auto. constructor.
  - destruct IH as [w3 [w4 [b [l' [-> [-> [K1 K2]]]]]]]. destruct (lexeme_hd _ _ _ H2) as [x Hx].
    exists w1, ((c ++ w3) ++ w4), a, (b :: l'). rewrite <- !app_assoc. split; [reflexivity|]. split; [reflexivity|]. split; [rewrite <- !app_assoc in H1; exact H1|].
    rewrite app_assoc. apply star_cons; auto. exists c, w3, x. split; [reflexivity|]. split; [split; [rewrite <- app_assoc in H2; exact H2|exact Hx]|exact K1].
Qed.

Lemma tidy_lex {S A} (p : parser C S A) : tidy false p -> tidy false (jlex code p).
Proof. intros H. apply td_skip; [exact H|]. apply td_expected, td_parser_fn, td_ignore, td_many, td_unit. Qed.
Lemma tidy_string : tidy false (json_string code lit).
Proof. unfold json_string, between, tup3. apply td_expected. apply td_parser_fn. apply td_map. apply td_tuple. apply td_TC; [apply td_unit|]. apply td_TC; [apply td_many, td_unit|]. apply td_T1. apply tidy_lex, td_unit. Qed.

(** Items between brackets. *)
Lemma lang_bracketed n o c {S A} (p : parser C S A) V Q : history_free false p -> Datatypes.S n <= fuel C -> (o < 256)%N -> (c < 256)%N -> c <> 44%N ->
  (forall r a, ~ V [] r a) -> lang n (fresh p) V Q -> (forall t l, code t = c -> Q (t :: l)) ->
  lang (Datatypes.S n) (fresh (between (jlex code (jchar lit o)) (jlex code (jchar lit c)) (sep_by p (jlex code (jchar lit 44)))))
    (fun w r l => exists w1 w2 w3, w = w1 ++ w2 ++ w3 /\ lexeme code o w1 (w2 ++ w3 ++ r) /\ ((w2 = [] /\ l = []) \/ items code V w2 (w3 ++ r) l) /\ lexeme code c w3 r)
    (stops (is_char code o)).
Proof.
  intros Hf Hn Ho Hc Hc4 Hne HV HQ.
  eapply lang_ext; [| |eapply lang_between].
  3: apply (lang_lexchar (Datatypes.S n) o); [exact Hn|exact Ho].
  4: { eapply (lang_sep_by n); [exact Hf|apply tidy_history_free, tidy_lex, td_unit|lia|exact Hne| |exact HV|apply (lang_lexchar n 44); lia]. intros r a [K _]. eapply lexeme_ne; eauto. }
  4: apply (lang_lexchar n c); [lia|exact Hc].
  - intros w r l _. cbn beta. split.
    + intros [w1 [w2 [w3 [a [b [-> [[K1 _] [K2 [K3 _]]]]]]]]]. exists w1, w2, w3. split; [reflexivity|]. split; [exact K1|]. split; [|exact K3].
      destruct K2 as [[-> [-> _]]|[v1 [v2 [x [l' [-> [-> [J1 [J2 _]]]]]]]]]; [auto|]. right. apply star_items; auto.
    + intros [w1 [w2 [w3 [-> [K1 [K2 K3]]]]]]. destruct (lexeme_hd _ _ _ K1) as [a Ha]. destruct (lexeme_hd _ _ _ K3) as [b Hb].
      exists w1, w2, w3, a, b. split; [reflexivity|]. split; [auto|]. split; [|auto]. destruct (lexeme_start _ _ _ K3) as [t [l0 [E0 E1]]]. rewrite E0.
      destruct K2 as [[-> ->]|K2].
      * left. split; [reflexivity|]. split; [reflexivity|]. apply HQ. exact E1.
      * right. apply items_star in K2. rewrite E0 in K2. destruct K2 as [v1 [v2 [x [l' [-> [-> [J1 J2]]]]]]]. exists v1, v2, x, l'. repeat split; auto.
        cbn. unfold is_char. congruence.
  - intros l _. tauto.
  - intros r a [K _]. eapply lexeme_ne; eauto.
Qed.

(** ** Words *)
Lemma lang_word n (s : string) {B} (v : B) c s' : n <= fuel C -> Forall (fun x => x < 256)%N (chars s) -> chars s = c :: s' ->
  lang n (fresh (jlex code (map (string_p s (jlits lit s)) (fun _ => v)))) (fun w r x => word_text code s w r /\ x = v) (stops (is_char code c)).
Proof.
  intros Hn Hs Hc. assert (Hl : jlits lit s = lit c :: List.map lit s') by (unfold jlits; rewrite Hc; reflexivity).
  assert (Hc' : (c < 256)%N) by (rewrite Hc in Hs; inversion Hs; auto).
  eapply lang_ext; [| |apply lang_lex; [exact Hn|]; apply lang_map; apply lang_expected; apply lang_map; apply (lang_tokens_cmp n (jlits lit s) L); rewrite Hl; discriminate].
  - intros w r x _. unfold lexP, word_text. split.
    + intros [u [q [-> [[a [[b [[K1 K2] K3]] ->]] K4]]]]. split; [|reflexivity]. exists u, q. split; [reflexivity|]. split; [|exact K4]. apply jlits_code; auto.
    + intros [[u [q [-> [K1 K2]]]] ->]. exists u, q. split; [reflexivity|]. split; [|exact K2]. exists s. split; [|reflexivity]. exists (jlits lit s).
      split; [|reflexivity]. split; [apply jlits_code; auto|reflexivity].
  - intros l _. rewrite Hl. destruct l as [|t l]; cbn; [tauto|]. unfold is_char. rewrite (is_lit c t Hc'). tauto.
Qed.

(** ** Values *)
Lemma lang_field n (value : parser C unit (json T (f64 fo))) : n <= fuel C -> lang n (fresh value) (jvalue code fo) (fun l => ~ begins code l) ->
  lang n (fresh (map (tuple (TC (json_string code lit) (TC (jlex code (jchar lit 58)) (T1 value)))) (fun t => (fst t, snd (snd t)))))
    (field code fo (jvalue code fo)) (stops (is_char code 34)).
Proof.
  intros Hn Hv. eapply lang_ext; [| |apply lang_map; eapply lang_seq; [apply tuple_cons_runs|apply lang_string; exact Hn|
    eapply lang_seq; [apply tuple_cons_runs|apply (lang_lexchar n 58); [exact Hn|lia]|apply lang_tuple1; exact Hv|lia]|lia]].
  - intros w r kv _. cbn beta. unfold field. split.
    + intros [t [[w1 [w2 [a [x [-> [K1 [[w3 [w4 [b [y [-> [[K2 _] [K3 ->]]]]]]] ->]]]]]]] ->]]. cbn [fst snd]. exists w1, w3, w4.
      rewrite <- app_assoc in K1. auto.
    + intros [k [c [v [-> [K1 [K2 K3]]]]]]. destruct (lexeme_hd _ _ _ K2) as [b Hb]. destruct kv as [key val]. cbn [fst snd] in *.
      exists (key, (b, val)). split; [|reflexivity]. exists k, (c ++ v), key, (b, val). split; [reflexivity|]. split; [rewrite <- app_assoc; exact K1|].
      split; [|reflexivity]. exists c, v, b, val. auto.
  - intros l _. cbn beta. split; [intros [K|[a [K _]]]; [exact K|exfalso; eapply string_text_ne; eauto]|auto].
Qed.
Lemma field_ne V r kv : ~ field code fo V [] r kv.
Proof. intros [k [c [v [K1 [K2 _]]]]]. symmetry in K1. apply app_eq_nil in K1. destruct K1 as [-> _]. eapply string_text_ne; eauto. Qed.
Lemma number_starts w r neg ip fr ex : number_text code w r neg ip fr ex -> exists t l, w ++ r = t :: l /\ (is_char code 45 t \/ decimal code t).
Proof.
  intros [sg [iw [dt [ew [s [-> [K1 [K2 _]]]]]]]]. destruct neg.
  - destruct K1 as [t [-> K1]]. exists t. cbn. eauto.
  - subst sg. cbn [app]. inversion K2; subst; cbn; do 2 eexists; (split; [reflexivity|]); right; auto. unfold decimal, is_char in *. lia.
Qed.
Lemma word_starts s w r c s' : chars s = c :: s' -> word_text code s w r -> exists t l, w ++ r = t :: l /\ is_char code c t.
Proof.
  intros Hc [u [q [-> [K1 _]]]]. rewrite Hc in K1. destruct u as [|t u]; [discriminate|]. injection K1 as E0 _. exists t, (u ++ q ++ r). rewrite app_assoc. auto.
Qed.
Lemma string_starts w r s : string_text code w r s -> exists t l, w ++ r = t :: l /\ is_char code 34 t.
Proof. intros [q [b [c [-> [K _]]]]]. exists q. cbn. eauto. Qed.
Lemma jvalue_ne r v : ~ jvalue code fo [] r v.
Proof.
  intros H. inversion H; subst; try (eapply string_text_ne; eauto; fail);
    try (match goal with K : _ ++ _ = [] |- _ => apply app_eq_nil in K; destruct K as [-> _] end; eapply lexeme_ne; eauto; fail).
  - eapply (numP_ne r). do 4 eexists. split; eauto.
  - match goal with K : word_text _ _ _ _ |- _ => destruct K as [u [q [K1 [K2 _]]]] end. symmetry in K1. apply app_eq_nil in K1. destruct K1 as [-> _]. discriminate.
  - match goal with K : word_text _ _ _ _ |- _ => destruct K as [u [q [K1 [K2 _]]]] end. symmetry in K1. apply app_eq_nil in K1. destruct K1 as [-> _]. discriminate.
  - match goal with K : word_text _ _ _ _ |- _ => destruct K as [u [q [K1 [K2 _]]]] end. symmetry in K1. apply app_eq_nil in K1. destruct K1 as [-> _]. discriminate.
Qed.

Lemma alt_cons n {A} (b : @Spec.beh C A) bs P Q PQ : lang n b P Q -> Forall2 (fun b pq => lang n b (fst pq) (snd pq)) bs PQ ->
  Forall2 (fun b pq => lang n b (fst pq) (snd pq)) (b :: bs) ((P, Q) :: PQ).
Proof. intros H1 H2. constructor; auto. Qed.
Lemma lang_body n (value : parser C unit (json T (f64 fo))) : Datatypes.S n <= fuel C -> lang n (fresh value) (jvalue code fo) (fun l => ~ begins code l) ->
  lang (Datatypes.S n) (fresh (json_body fo code lit value)) (jvalue code fo) (fun l => ~ begins code l).
Proof.
  intros Hn Hv. eapply lang_ext; [| |apply lang_choice; cbn [alts_beh]; repeat first [apply Forall2_nil|eapply alt_cons]].
  3: { exact (lang_map _ _ _ _ _ (lang_string (Datatypes.S n) Hn)). }
  3: { apply lang_expected, lang_map. eapply (lang_bracketed n 123 125); [apply tidy_history_free; apply td_map; apply td_tuple; apply td_TC; [apply tidy_string|apply td_TC; [apply tidy_lex, td_unit|apply td_T1, td_unit]]|exact Hn|lia|lia|lia|apply field_ne|apply lang_field; [lia|exact Hv]|].
       intros t l K. cbn. unfold is_char. rewrite K. lia. }
  3: { apply lang_map. eapply (lang_bracketed n 91 93); [apply hf_unit|exact Hn|lia|lia|lia|apply jvalue_ne|exact Hv|].
       intros t l K. cbn. unfold decimal. rewrite K. lia. }
  3: { exact (lang_map _ _ _ _ _ (lang_number (Datatypes.S n) Hn)). }
  3: { apply (lang_word (Datatypes.S n) "false" _ 102 (chars "alse")); [exact Hn|repeat constructor|reflexivity]. }
  3: { apply (lang_word (Datatypes.S n) "true" _ 116 (chars "rue")); [exact Hn|repeat constructor|reflexivity]. }
  3: { apply (lang_word (Datatypes.S n) "null" _ 110 (chars "ull")); [exact Hn|repeat constructor|reflexivity]. }
  - intros w r v _. cbn [choiceP fst snd]. split.
    + intros [[a [K ->]]|[_ [[a [[w1 [w2 [w3 [-> [K1 [K2 K3]]]]]] ->]]|[_ [[a [[w1 [w2 [w3 [-> [K1 [K2 K3]]]]]] ->]]|[_ [[a [[neg [ip [fr [ex [K1 K2]]]]] ->]]|[_ [[K ->]|[_ [[K ->]|[_ [K ->]]]]]]]]]]]]].
      * apply jv_string. exact K.
      * destruct K2 as [[-> ->]|K2]; [apply jv_object0|apply jv_object]; auto.
      * destruct K2 as [[-> ->]|K2]; [apply jv_array0|apply jv_array]; auto.
      * eapply jv_number; eauto.
      * apply jv_false. exact K.
      * apply jv_true. exact K.
      * apply jv_null. exact K.
    + intros H. destruct H as [w r s H|o c r H1 H2|o m c r l H1 H2 H3|o c r H1 H2|o m c r l H1 H2 H3|w r neg ip fr ex v H1 H2|w r H|w r H|w r H].
      * left. eauto.
      * destruct (lexeme_start _ _ _ H1) as [t [l0 [E0 E1]]]. rewrite app_assoc in E0. right. split; [rewrite E0; cbn; unfold is_char; lia|]. left.
        exists []. split; [|reflexivity]. exists o, [], c. auto 6.
      * destruct (lexeme_start _ _ _ H1) as [t [l0 [E0 E1]]]. right. split; [rewrite <- !app_assoc, E0; cbn; unfold is_char; lia|]. left.
        exists l. split; [|reflexivity]. exists o, m, c. auto 6.
      * destruct (lexeme_start _ _ _ H1) as [t [l0 [E0 E1]]]. rewrite app_assoc in E0.
        do 2 (right; split; [rewrite E0; cbn; unfold is_char; lia|]). left.
        exists []. split; [|reflexivity]. exists o, [], c. auto 6.
      * destruct (lexeme_start _ _ _ H1) as [t [l0 [E0 E1]]]. do 2 (right; split; [rewrite <- !app_assoc, E0; cbn; unfold is_char; lia|]). left.
        exists l. split; [|reflexivity]. exists o, m, c. auto 6.
      * destruct (number_starts _ _ _ _ _ _ H1) as [t [l0 [E0 E1]]]. do 3 (right; split; [rewrite E0; cbn; unfold is_char, decimal in *; lia|]). left.
        exists v. split; [|reflexivity]. exists neg, ip, fr, ex. auto.
      * destruct (word_starts "false" _ _ 102 (chars "alse") eq_refl H) as [t [l0 [E0 E1]]]. do 4 (right; split; [rewrite E0; cbn; unfold is_char, decimal in *; lia|]). auto.
      * destruct (word_starts "true" _ _ 116 (chars "rue") eq_refl H) as [t [l0 [E0 E1]]]. do 5 (right; split; [rewrite E0; cbn; unfold is_char, decimal in *; lia|]). auto.
      * destruct (word_starts "null" _ _ 110 (chars "ull") eq_refl H) as [t [l0 [E0 E1]]]. do 6 (right; split; [rewrite E0; cbn; unfold is_char, decimal in *; lia|]). auto.
  - intros [|t l] _; cbn [choiceQ]; [cbn; tauto|]. cbn. unfold is_char, decimal. lia.
Qed.

Lemma lang_value k : k <= fuel C -> lang k (fresh (json_value fo code lit k)) (jvalue code fo) (fun l => ~ begins code l).
Proof.
  induction k as [|k IH]; intros Hk; [intros i Hi; lia|]. unfold json_value in *. cbn [rec_macro]. apply lang_parser_fn0. apply lang_body; [exact Hk|]. apply IH. lia.
Qed.

(** ** Texts of RFC 8259 *)
Definition follow (r : list T) : Prop := match r with [] => True | t :: _ => In (code t) [44; 93; 125]%N end.
Lemma ws_white s : Forall (ws code) s -> Forall (white code) s.
Proof. apply Forall_impl. unfold ws, white. cbn [In]. intros t. tauto. Qed.
Lemma span_ws s r : Forall (ws code) s -> stops (white code) r -> span (white code) s r.
Proof. intros H1 H2. split; [apply ws_white; auto|auto]. Qed.
Lemma follow_stops r (p : T -> Prop) : follow r -> (forall t, In (code t) [44; 93; 125]%N -> ~ p t) -> stops p r.
Proof. destruct r; cbn; auto. Qed.
Lemma follow_white r : follow r -> stops (white code) r.
Proof. intros H. apply (follow_stops r); auto. intros t K1 K2. unfold white in K2. cbn [In] in *. lia. Qed.
Lemma lexeme_ws c t s r : code t = c -> Forall (ws code) s -> stops (white code) r -> lexeme code c (t :: s) r.
Proof. intros H1 H2 H3. exists t, s. split; [reflexivity|]. split; [exact H1|apply span_ws; auto]. Qed.
Lemma rfc_chars_text w s : rfc_chars code w s -> chars_text code w s.
Proof. intros H. induction H; [constructor|apply ct_plain|eapply ct_escape]; eauto. Qed.
Lemma rfc_string_text w s sp r : rfc_string code w s -> Forall (ws code) sp -> stops (white code) r -> string_text code (w ++ sp) r s.
Proof.
  intros [q [body [q' [-> [K1 [K2 K3]]]]]] Hs Hr. exists q, body, (q' :: sp). split; [cbn; rewrite <- app_assoc; reflexivity|].
  split; [exact K1|]. split; [apply rfc_chars_text; auto|]. apply lexeme_ws; auto.
Qed.
(** A text ends at a character that is neither a digit, a point, nor an exponent sign. *)
Lemma ws_stops s r (p : T -> Prop) : Forall (ws code) s -> follow r -> (forall t, In (code t) [44; 93; 125; 32; 9; 10; 13]%N -> ~ p t) -> stops p (s ++ r).
Proof.
  intros H1 H2 H3. destruct H1 as [|t s K H1]; cbn [app].
  - apply (follow_stops r); auto. intros t K. apply H3. cbn [In] in *. lia.
  - cbn. apply H3. unfold ws in K. cbn [In] in *. lia.
Qed.
Lemma rfc_int_text ip r : rfc_int code ip -> stops (decimal code) r -> stops (white code) r -> int_text code ip r ip.
Proof.
  intros [t [ds [-> [K1 [K2 K3]]]]] H1 H2. destruct (N.eq_dec (code t) 48) as [E0|E0].
  - rewrite (K3 E0). apply it_zero. exact E0.
  - rewrite <- (app_nil_r (t :: ds)) at 1. apply it_digits; auto; split; auto.
Qed.
Lemma rfc_int_ws ip s r : rfc_int code ip -> Forall (ws code) s -> follow r ->
  exists s1 s2, s = s1 ++ s2 /\ int_text code (ip ++ s1) (s2 ++ r) ip /\ span (white code) s2 r.
Proof.
  intros [t [ds [-> [K1 [K2 K3]]]]] H1 H2. destruct (N.eq_dec (code t) 48) as [E0|E0].
  - exists [], s. split; [reflexivity|]. rewrite (K3 E0). split; [apply it_zero; exact E0|]. apply span_ws; auto. apply follow_white. auto.
  - exists s, []. rewrite app_nil_r. split; [reflexivity|]. split; [|split; [constructor|apply follow_white; auto]].
    apply it_digits; auto; [split; [exact K2|]|apply span_ws; auto; apply follow_white; auto].
    apply ws_stops; auto. intros x K. unfold decimal. cbn [In] in K. lia.
Qed.
Lemma rfc_number_text w neg ip fr ex s r : rfc_number code w neg ip fr ex -> Forall (ws code) s -> follow r -> number_text code (w ++ s) r neg ip fr ex.
Proof.
  intros [sg [fw [ew [-> [K1 [K2 [K3 K4]]]]]]] Hs Hr.
  assert (Hw : stops (white code) r) by (apply follow_white; auto).
  assert (Hd : stops (decimal code) (s ++ r)) by (apply ws_stops; auto; intros x K; unfold decimal; cbn [In] in K; lia).
  assert (He : stops (fun t => is_char code 101 t \/ is_char code 69 t) (s ++ r)) by (apply ws_stops; auto; intros x K; unfold is_char; cbn [In] in K; lia).
  assert (Hsp : span (white code) s r) by (apply span_ws; auto).
  (* an exponent: the white space belongs to it *)
  assert (X1 : forall ew', exp_text code ew' r ex -> ew' = ew ++ s -> stops (fun t => decimal code t \/ is_char code 46 t \/ white code t) (ew' ++ r) ->
    number_text code ((sg ++ ip ++ fw ++ ew) ++ s) r neg ip fr ex).
  { intros ew' H1 -> H2. assert (G : forall q : T -> Prop, (forall t, q t -> decimal code t \/ is_char code 46 t \/ white code t) -> stops q ((ew ++ s) ++ r)).
    { intros q Hq. destruct ((ew ++ s) ++ r) as [|x l]; cbn in *; auto. }
    destruct K3 as [[-> ->]|[t [-> [J1 [J2 J3]]]]].
    - exists sg, ip, [], (ew ++ s), []. cbn [app]. rewrite app_nil_r, <- !app_assoc. split; [reflexivity|]. split; [exact K1|]. rewrite <- app_assoc in G.
      split; [apply rfc_int_text; auto|]. split; [right; split; [reflexivity|apply G; auto]|]. split; [split; [constructor|apply G; auto]|]. split; [exact H1|split; [constructor|auto]].
    - exists sg, ip, [t], (ew ++ s), []. cbn [app]. rewrite app_nil_r, <- !app_assoc. split; [cbn [app]; rewrite <- ?app_assoc; reflexivity|]. split; [exact K1|]. rewrite <- app_assoc in G.
      split; [apply rfc_int_text; auto; cbn; unfold decimal, white; rewrite J1; cbn [In]; lia|]. split; [left; exists t; auto|]. split; [split; [auto|apply G; auto]|].
      split; [exact H1|split; [constructor|auto]]. }
  destruct K4 as [[-> ->]|[[e [ds [-> [J1 [J2 [J3 ->]]]]]]|[e [m [ds [-> [J1 [J4 [J2 [J3 ->]]]]]]]]]].
  - destruct K3 as [[-> ->]|[t [-> [J1 [J2 J3]]]]].
    + destruct (rfc_int_ws _ _ _ K2 Hs Hr) as [s1 [s2 [-> [G1 G2]]]].
      assert (Hs2 : Forall (ws code) s2) by (apply Forall_app in Hs; tauto).
      exists sg, (ip ++ s1), [], [], s2. cbn [app]. rewrite app_nil_r, <- !app_assoc. split; [reflexivity|]. split; [exact K1|]. split; [exact G1|].
      split; [right; split; [reflexivity|]; apply ws_stops; auto; intros x K; unfold is_char; cbn [In] in K; lia|].
      split; [split; [constructor|]; apply ws_stops; auto; intros x K; unfold decimal; cbn [In] in K; lia|].
      split; [constructor; apply ws_stops; auto; intros x K; unfold is_char; cbn [In] in K; lia|exact G2].
    + exists sg, ip, [t], [], s. cbn [app]. rewrite app_nil_r, <- !app_assoc. split; [cbn [app]; rewrite <- ?app_assoc; reflexivity|]. split; [exact K1|].
      split; [apply rfc_int_text; auto; cbn; unfold decimal, white; rewrite J1; cbn [In]; lia|]. split; [left; exists t; auto|]. split; [split; [auto|exact Hd]|].
      split; [constructor; exact He|exact Hsp].
  - apply (X1 ((e :: ds) ++ s)); auto.
    + cbn. apply et_pos; auto. split; auto.
    + cbn. unfold decimal, is_char, white. destruct J1 as [-> | ->]; cbn [In]; lia.
  - apply (X1 ((e :: m :: ds) ++ s)); auto.
    + cbn. apply (@et_neg _ code e m ds s r); auto. split; auto.
    + cbn. unfold decimal, is_char, white. destruct J1 as [-> | ->]; cbn [In]; lia.
Qed.
Lemma rfc_word s w sp r : List.map code w = chars s -> Forall (ws code) sp -> stops (white code) r -> word_text code s (w ++ sp) r.
Proof. intros H1 H2 H3. exists w, sp. split; [reflexivity|]. split; [exact H1|apply span_ws; auto]. Qed.

(** A value does not begin with white space. *)
Definition graphic (w : list T) : Prop := exists t l, w = t :: l /\ ~ white code t.
Lemma graphic_stops w r : graphic w -> stops (white code) (w ++ r).
Proof. intros [t [l [-> H]]]. exact H. Qed.
Lemma graphic_app w r : graphic w -> graphic (w ++ r).
Proof. intros [t [l [-> H]]]. exists t, (l ++ r). auto. Qed.
Ltac nw E := unfold white; rewrite E; cbn [In]; lia.
Lemma rfc_string_graphic w s : rfc_string code w s -> graphic w.
Proof. intros [q [b [q' [-> [K _]]]]]. do 2 eexists. split; [reflexivity|]. nw K. Qed.
Lemma rfc_graphic w v : rfc_value code fo w v -> graphic w.
Proof.
  intros H. destruct H as [w s H|w neg ip fr ex v H _|w H|w H|w H|o s c H _ _|o s m c l H _ _ _|o s c H _ _|o s m c l H _ _ _];
    try (do 2 eexists; split; [reflexivity|]; nw H).
  - eapply rfc_string_graphic; eauto.
  - destruct H as [sg [fw [ew [-> [K1 [[t [ds [-> [K2 _]]]] _]]]]]]. destruct neg.
    + destruct K1 as [x [-> K1]]. do 2 eexists. split; [reflexivity|]. nw K1.
    + subst sg. do 2 eexists. split; [reflexivity|]. unfold decimal, white in *. cbn [In]. lia.
  - destruct w as [|t w]; [discriminate|]. injection H as H _. do 2 eexists. split; [reflexivity|]. nw H.
  - destruct w as [|t w]; [discriminate|]. injection H as H _. do 2 eexists. split; [reflexivity|]. nw H.
  - destruct w as [|t w]; [discriminate|]. injection H as H _. do 2 eexists. split; [reflexivity|]. nw H.
Qed.
Lemma rfc_elements_graphic w l : rfc_elements code fo w l -> graphic w.
Proof. intros H. destruct H; apply graphic_app; eapply rfc_graphic; eauto. Qed.
Lemma rfc_members_graphic w l : rfc_members code fo w l -> graphic w.
Proof. intros H. destruct H; apply graphic_app; eapply rfc_string_graphic; eauto. Qed.

Lemma follow_cons t l : In (code t) [44; 93; 125]%N -> follow (t :: l).
Proof. auto. Qed.
Lemma comma_follow t l : code t = 44%N -> follow (t :: l).
Proof. intros H. cbn. auto. Qed.
Lemma white_not t l c : code t = c -> ~ In c ([9; 10; 11; 12; 13; 32; 133; 160; 5760; 8192; 8193; 8194; 8195; 8196; 8197; 8198; 8199; 8200; 8201; 8202;
                8232; 8233; 8239; 8287; 12288])%N -> stops (white code) (t :: l).
Proof. intros <- H. exact H. Qed.

Lemma rfc_jvalue w v : rfc_value code fo w v -> forall s r, Forall (ws code) s -> follow r -> jvalue code fo (w ++ s) r v.
Proof.
  apply (@rfc_value_mut _ code fo
    (fun w v => forall s r, Forall (ws code) s -> follow r -> jvalue code fo (w ++ s) r v)
    (fun w l => forall t r, code t = 93%N -> items code (jvalue code fo) w (t :: r) l)
    (fun w l => forall t r, code t = 125%N -> items code (field code fo (jvalue code fo)) w (t :: r) l)).
  - intros w0 s H sp r Hs Hr. apply jv_string. apply rfc_string_text; auto. apply follow_white; auto.
  - intros w0 neg ip fr ex v0 H1 H2 sp r Hs Hr. eapply jv_number; [apply rfc_number_text; eauto|exact H2].
  - intros w0 H sp r Hs Hr. apply jv_false. apply rfc_word; auto. apply follow_white; auto.
  - intros w0 H sp r Hs Hr. apply jv_true. apply rfc_word; auto. apply follow_white; auto.
  - intros w0 H sp r Hs Hr. apply jv_null. apply rfc_word; auto. apply follow_white; auto.
  - intros o s c Ho Hs Hc sp r Hsp Hr. replace ((o :: s ++ [c]) ++ sp) with ((o :: s) ++ (c :: sp)) by (cbn; rewrite <- app_assoc; reflexivity).
    apply jv_array0; apply lexeme_ws; auto; [eapply white_not; eauto; cbn [In]; lia|apply follow_white; auto].
  - intros o s m c l Ho Hs Hm IH Hc sp r Hsp Hr. replace ((o :: s ++ m ++ [c]) ++ sp) with ((o :: s) ++ m ++ (c :: sp)) by (cbn; rewrite <- !app_assoc; reflexivity).
    apply jv_array; [apply lexeme_ws; auto; apply graphic_stops; eapply rfc_elements_graphic; eauto|apply IH; auto|apply lexeme_ws; auto; apply follow_white; auto].
  - intros o s c Ho Hs Hc sp r Hsp Hr. replace ((o :: s ++ [c]) ++ sp) with ((o :: s) ++ (c :: sp)) by (cbn; rewrite <- app_assoc; reflexivity).
    apply jv_object0; apply lexeme_ws; auto; [eapply white_not; eauto; cbn [In]; lia|apply follow_white; auto].
  - intros o s m c l Ho Hs Hm IH Hc sp r Hsp Hr. replace ((o :: s ++ m ++ [c]) ++ sp) with ((o :: s) ++ m ++ (c :: sp)) by (cbn; rewrite <- !app_assoc; reflexivity).
    apply jv_object; [apply lexeme_ws; auto; apply graphic_stops; eapply rfc_members_graphic; eauto|apply IH; auto|apply lexeme_ws; auto; apply follow_white; auto].
  - intros w0 s v0 Hv IH Hs t r Ht. apply items_one. apply IH; auto. cbn. rewrite Ht. auto.
  - intros w0 s c s' w' v0 l Hv IH Hs Hc Hs' Hw' IH' t r Ht.
    replace (w0 ++ s ++ c :: s' ++ w') with ((w0 ++ s) ++ (c :: s') ++ w') by (rewrite <- !app_assoc; reflexivity).
    apply items_more; [apply IH; auto; apply comma_follow; auto| |apply IH'; auto]. apply lexeme_ws; auto. apply graphic_stops. eapply rfc_elements_graphic; eauto.
  - intros k s1 c s2 w0 s key v0 Hk Hs1 Hc Hs2 Hv IH Hs t r Ht. apply items_one. exists (k ++ s1), (c :: s2), (w0 ++ s).
    split; [rewrite <- !app_assoc; reflexivity|]. split; [apply rfc_string_text; auto; eapply white_not; eauto; cbn [In]; lia|].
    split; [apply lexeme_ws; auto; rewrite <- app_assoc; apply graphic_stops; eapply rfc_graphic; eauto|]. apply IH; auto. cbn. rewrite Ht. auto.
  - intros k s1 c s2 w0 s d s' w' key v0 l Hk Hs1 Hc Hs2 Hv IH Hs Hd Hs' Hw' IH' t r Ht.
    replace (k ++ s1 ++ c :: s2 ++ w0 ++ s ++ d :: s' ++ w') with (((k ++ s1) ++ (c :: s2) ++ (w0 ++ s)) ++ (d :: s') ++ w') by (cbn; rewrite <- !app_assoc; cbn; rewrite <- !app_assoc; reflexivity).
    apply items_more; [| |apply IH'; auto].
    + exists (k ++ s1), (c :: s2), (w0 ++ s). split; [reflexivity|]. split; [apply rfc_string_text; auto; eapply white_not; eauto; cbn [In]; lia|].
      split; [apply lexeme_ws; auto; rewrite <- app_assoc; apply graphic_stops; eapply rfc_graphic; eauto|]. apply IH; auto. apply comma_follow; auto.
    + apply lexeme_ws; auto. apply graphic_stops. eapply rfc_members_graphic; eauto.
Qed.
End Json.
