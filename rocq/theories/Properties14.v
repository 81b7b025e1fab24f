(** C63: the JSON parser of benches/json.rs. *)
From Coq Require Import String List Bool Arith NArith ZArith QArith Lia.
Import ListNotations.
From Verif Require Import Base Parser Errors Token Combinator Sequence Choice Repeat RangeP ByteP TotalSpec JsonM JsonSpec Spec AgreeSpec LangProofs JsonProofs JsonProofs2 Instances Properties1 Properties8 Properties10.
Unset Implicit Arguments.
Local Open Scope nat_scope.

(** What it reads, exactly, with which value and how far; it fails without reading anything exactly on texts that do not begin like a value. *)
Theorem C63_exact : forall (C : Cfg), lawful C -> forall (code : tok C -> N) (lit : N -> tok C),
  (forall n, (n < 256)%N -> code (lit n) = n) -> (forall t, lit (code t) = t) ->
  forall fo k i, length (rest i) < k -> k <= fuel C -> ipart i = false ->
  (forall v i', parse (json_value fo code lit k) i = Done (inl v, i') <-> exists w, advanced_by i w i' /\ jvalue code fo w (rest i') v) /\
  (fails (fresh (json_value fo code lit k)) i false <-> ~ begins code (rest i)).
Proof.
  intros C L code lit CL LC fo k i Hk Hf Hp. pose proof (lang_value L fo code lit CL LC k Hf) as H. split; [|apply (H i Hk Hp)].
  apply (lang_parse k _ _ _ (rec_macro_agrees (json_body fo code lit) k ltac:(lia)) H i Hk Hp).
Qed.
Print Assumptions C63_exact.

(** Every text of RFC 8259 (without [\u] escapes and [+] in exponents), with white space after it, is read to the end, with its value. *)
Theorem C63_rfc : forall (C : Cfg), lawful C -> forall (code : tok C -> N) (lit : N -> tok C),
  (forall n, (n < 256)%N -> code (lit n) = n) -> (forall t, lit (code t) = t) ->
  forall fo k i w s v, rest i = w ++ s -> rfc_value code fo w v -> Forall (ws code) s -> length (rest i) < k -> k <= fuel C -> ipart i = false ->
  exists i', parse (json_value fo code lit k) i = Done (inl v, i') /\ rest i' = [].
Proof.
  intros C L code lit CL LC fo k i w s v Hi Hv Hs Hk Hf Hp. exists (@Inp C [] (pos_after (ipos i) (w ++ s)) (ipart i)). split; [|reflexivity].
  apply (C63_exact C L code lit CL LC fo k i Hk Hf Hp). exists (w ++ s). split; [split; [cbn; rewrite app_nil_r; auto|split; reflexivity]|].
  apply (rfc_jvalue fo code); auto. exact I.
Qed.
Print Assumptions C63_rfc.

(** It always returns: no panic and no endless loop, in any input and any nesting (one call of [json_value_] per character at most). *)
Theorem C63_total : forall (C : Cfg), lawful C -> forall (code : tok C -> N) (lit : N -> tok C) fo k i,
  length (rest i) < k -> 2 * length (rest i) + 1 < fuel C -> returns (parse (json_value fo code lit k) i).
Proof. intros C L code lit fo k i. apply (C53_rec_macro C L _ _ true (json_body fo code lit)). intros z p. apply sol_body. Qed.
Print Assumptions C63_total.

(** Numbers: without rounding the value is the number that is written, if the integer part fits in 63 bits and the exponent in 31,
    except that the minus sign is lost if the integer part is zero. *)
Theorem C63_decimal : forall X (code : X -> N) w r neg ip fr ex v, number_text code w r neg ip fr ex -> number_value code q_ops neg ip fr ex v ->
  (decimal_value code ip < 2 ^ 63)%Z -> match ex with None => True | Some (_, ds) => (decimal_value code ds < 2 ^ 31)%Z end ->
  (v == written code (neg && negb (decimal_value code ip =? 0)%Z) ip fr ex)%Q.
Proof.
  intros X code w r neg ip fr ex v H1 H2 H3 H4. destruct (number_text_digits code _ _ _ _ _ _ H1) as [K1 [K2 K3]]. apply number_exact; auto.
  destruct ex as [[en ds]|]; auto.
Qed.
Print Assumptions C63_decimal.

(** * Examples *)
Definition JP := json_value (C:=BC) q_ops (fun n => n) (fun n => n).
Definition jrun (s : string) := match parse (JP 99) (bin (t8 s)) with Done (inl v, i) => Some (v, rest i) | _ => None end.
Definition JS s : json N Q := JString (t8 s).
(** The text of [json_test] (lines 182-221), shortened to fit the iteration bound of the example. *)
Example C63_ex_text : jrun "{""a"": [1, """"], ""o"": {}, ""e"" : -1e2,
  ""s"": 0.5,""t"": true, ""n"" : null
}" =
  Some (JObject [(t8 "a", JArray [JNumber (1 # 1); JS ""]); (t8 "o", JObject []); (t8 "e", JNumber (-(100 # 1))); (t8 "s", JNumber (5 # 10)); (t8 "t", JBool true); (t8 "n", JNull)], []).
Proof. vm_compute. reflexivity. Qed.
Example C63_ex_decimal : jrun "-12.25e-1 ," = Some (JNumber (-(12250 # 10000)), t8 ",") /\ ((-(12250 # 10000)) == written (fun n => n) true (t8 "12") (t8 "25") (Some (true, t8 "1")))%Q.
Proof. split; vm_compute; reflexivity. Qed.
Example C63_ex_rfc : rfc_value (fun n : N => n) q_ops (t8 "[ -1.5 , {""k"":null}]") (JArray [JNumber (-(15 # 10)); JObject [(t8 "k", JNull)]])%Q.
Proof.
  apply (@rv_array _ (fun n => n) q_ops 91%N (t8 " ") (t8 "-1.5 , {""k"":null}") 93%N); [reflexivity|repeat constructor| |reflexivity].
  apply (@re_more _ (fun n => n) q_ops (t8 "-1.5") (t8 " ") 44%N (t8 " ") (t8 "{""k"":null}")); [|repeat constructor|reflexivity|repeat constructor|].
  - eapply (@rv_number _ (fun n => n) q_ops _ true (t8 "1") (t8 "5") None).
    + exists (t8 "-"), (t8 ".5"), []. split; [reflexivity|]. split; [exists 45%N; split; reflexivity|]. split; [exists 49%N, []; split; [reflexivity|]; split; [unfold decimal; cbv beta; lia|split; [constructor|auto]]|].
      split; [|left; auto]. right. exists 46%N. split; [reflexivity|]. split; [reflexivity|]. split; [discriminate|]. constructor; [vm_compute; split; discriminate|constructor].
    + exists 1%Z. split; [split; [cbn; lia|exists 0%Z; reflexivity]|]. vm_compute. reflexivity.
  - apply (@re_one _ (fun n => n) q_ops (t8 "{""k"":null}") []); [|constructor].
    apply (@rv_object _ (fun n => n) q_ops 123%N [] (t8 """k"":null") 125%N); [reflexivity|constructor| |reflexivity].
    apply (@rm_one _ (fun n => n) q_ops (t8 """k""") [] 58%N [] (t8 "null") []); [|constructor|reflexivity|constructor|apply rv_null; reflexivity|constructor].
    exists 34%N, (t8 "k"), 34%N. split; [reflexivity|]. split; [reflexivity|]. split; [reflexivity|]. apply rc_plain; try (cbn; lia); try discriminate. constructor.
Qed.

(** * Where it is wrong *)
(** The sign of a number between -1 and 0 is lost (line 91 tests [x >= 0.0], and [-0.0 >= 0.0]): [-0.5] is 0.5. *)
Theorem C63_sign_refuted : ~ (forall w r neg ip fr ex v, number_text (fun n : N => n) w r neg ip fr ex -> number_value (fun n : N => n) q_ops neg ip fr ex v ->
  (decimal_value (fun n => n) ip < 2 ^ 63)%Z -> ex = None -> (v == written (fun n => n) neg ip fr ex)%Q).
Proof.
  intros H. specialize (H (t8 "-0.5") [] true (t8 "0") (t8 "5") None (5 # 10)%Q).
  assert (K : (5 # 10 == written (fun n => n) true (t8 "0") (t8 "5") None)%Q); [|vm_compute in K; discriminate].
  apply H; [|exists 0%Z; split; [split; [cbn; lia|exists 0%Z; reflexivity]|vm_compute; reflexivity]|vm_compute; reflexivity|reflexivity].
  exists (t8 "-"), (t8 "0"), (t8 "."), [], []. split; [reflexivity|]. split; [exists 45%N; split; reflexivity|]. split; [apply (@it_zero _ (fun n => n) 48%N); reflexivity|]. split; [left; exists 46%N; split; reflexivity|].
  split; [split; [constructor; [vm_compute; split; discriminate|constructor]|exact I]|]. split; [constructor; exact I|split; [constructor|exact I]].
Qed.
Print Assumptions C63_sign_refuted.
Example C63_sign_run : jrun "-0.5" = Some (JNumber (5 # 10)%Q, []) /\ jrun "-0e1" = Some (JNumber 0%Q, []) /\ jrun "-1.5" = Some (JNumber (-(15 # 10))%Q, []).
Proof. repeat split; vm_compute; reflexivity. Qed.

(** It reads texts that are no JSON texts: digits after a leading zero count as a fraction, and so do digits after white space. *)
Lemma rfc_leading_zero d w v : rfc_value (fun n : N => n) q_ops (48 :: d :: w)%N v -> ~ decimal (fun n : N => n) d.
Proof.
  intros H. inversion H; subst; try discriminate.
  - match goal with K : rfc_string _ _ _ |- _ => destruct K as [q [b [q' [K1 [K2 _]]]]] end. injection K1 as <- K1. discriminate.
  - match goal with K : rfc_number _ _ _ _ _ _ |- _ => destruct K as [sg [fw [ew [K1 [K2 [[t [ds [-> [K3 [K4 K5]]]]] [K6 K7]]]]]]] end.
    destruct neg; [destruct K2 as [t' [-> K2]]; injection K1 as <- K1; discriminate|]. subst sg. injection K1 as <- K1. rewrite (K5 eq_refl) in K1. cbn [app] in K1.
    destruct K6 as [[-> ->]|[p [-> [K6 _]]]].
    + destruct K7 as [[-> ->]|[[e [ds' [-> [K7 _]]]]|[e [m [ds' [-> [K7 _]]]]]]]; [discriminate| |]; injection K1 as <- K1; unfold decimal; cbv beta in *; destruct K7 as [-> | ->]; lia.
    + injection K1 as <- K1. unfold decimal. cbv beta in *. rewrite K6. lia.
Qed.
Theorem C63_rfc_only_refuted : exists text v, jrun text = Some (v, []) /\ forall v', ~ rfc_value (fun n : N => n) q_ops (t8 text) v'.
Proof.
  exists "0123"%string, (JNumber (123000 # 1000000))%Q. split; [vm_compute; reflexivity|]. intros v' K. change (t8 "0123") with (48 :: 49 :: t8 "23")%N in K.
  apply rfc_leading_zero in K. apply K. unfold decimal. cbv beta. lia.
Qed.
Print Assumptions C63_rfc_only_refuted.
Example C63_white_space_inside : jrun "1 5" = Some (JNumber (15 # 10)%Q, []) /\ jrun "1 . 5" = Some (JNumber 1%Q, t8 "5").
Proof. repeat split; vm_compute; reflexivity. Qed.
(** Integers above 2^63 wrap around (or panic in builds with overflow checks): 2^64 is read as 0. *)
Example C63_wraps : jrun "18446744073709551616" = Some (JNumber 0%Q, []) /\ jrun "9223372036854775808" = Some (JNumber (inject_Z (- 2 ^ 63)), []).
Proof. repeat split; vm_compute; reflexivity. Qed.
(** Not read: [\u] escapes, [+] in exponents, white space before the value. *)
Example C63_not_read : jrun """\u0041""" = None /\ jrun "1e+5" = None /\ jrun " 1" = None /\ jrun """\n""" = Some (JString [10%N], []).
Proof. repeat split; vm_compute; reflexivity. Qed.
