(** Proofs for C64: the date parser. *)
From Coq Require Import String List Bool Arith NArith ZArith Lia.
Import ListNotations.
From Verif Require Import Base Parser Errors Token Combinator Sequence Choice Repeat RangeP ByteP Instances JsonM JsonSpec DateM DateSpec.
From Verif Require Import Spec SeqSpec ChoiceSpec TidySpec RepeatSpec AgreeSpec RangeSpec LibSpec TotalSpec.
From Verif Require Import ResultProofs TokenProofs SeqProofs CombProofs ChoiceProofs CombProofs2 RepeatProofs RepeatProofs2 RepeatProofs4 ByteProofs TidyProofs ForwardProofs AgreeProofs TotalProofs2 LangProofs JsonProofs JsonProofs2.
Unset Implicit Arguments.

(** * Generally *)
Section General.
Context {C : Cfg}.
Notation T := (tok C).
Notation E := (Err C).
Lemma lang_ordered n {A} (bs : list (@Spec.beh C A)) b PQ : ordered_choice bs b -> Forall2 (fun b pq => lang n b (fst pq) (snd pq)) bs PQ ->
  lang n b (choiceP PQ) (choiceQ PQ).
Proof.
  intros [O1 [O2 O3]] H i Hi Hp. destruct (lang_choice_list n _ _ H i Hi Hp) as [A1 A2]. split.
  - intros c a i'. rewrite <- A1. split; [|apply O1]. intros K. destruct (O3 _ _ _ K) as [F|F]; [exact F|].
    destruct (fails_not_ok _ _ _ _ _ (O2 _ F) K) as [K1 _]. rewrite okr_is_ok in K1. discriminate.
  - rewrite <- A2. split; [|apply O2]. intros [e [r [j [K1 [K2 K3]]]]]. destruct (O3 _ _ _ K1) as [F|F]; [exfalso|exact F].
    destruct r; try discriminate. clear - F. induction bs; inversion F; subst; [discriminate|auto].
Qed.
Lemma slice_ordered {A} (ps : list (parser C unit A)) : ordered_choice (List.map (fun p => fresh p) ps) (fresh (choice_slice tt ps)).
Proof.
  apply (@choice_slice_ordered C unit A (fun _ => True) tt ps I). apply Forall_forall. intros p _. split; [destruct (p_init p); reflexivity|]. split; auto. intros i [] _. auto.
Qed.
Lemma lang_cons n {S A SS B} (p : parser C S A) (t : tup (C:=C) SS B) P1 Q1 P2 Q2 : lang n (fresh p) P1 Q1 -> lang n (fresh (tuple t)) P2 Q2 ->
  lang n (fresh (tuple (TC p t))) (fun w r d => exists w1 w2, w = w1 ++ w2 /\ P1 w1 (w2 ++ r) (fst d) /\ P2 w2 r (snd d)) (fun l => Q1 l \/ exists a, P1 [] l a /\ Q2 l).
Proof.
  intros H1 H2. eapply lang_ext; [| |eapply lang_seq; [apply tuple_cons_runs|exact H1|exact H2|lia]]; [|cbn; tauto].
  intros w r [a b] _. cbn [fst snd]. split.
  - intros [w1 [w2 [x [y [-> [K1 [K2 K3]]]]]]]. inversion K3; subst. exists w1, w2. auto.
  - intros [w1 [w2 [-> [K1 K2]]]]. exists w1, w2, a, b. auto.
Qed.
(** A closure that panics. *)
Lemma lang_map_or_panic n {S A B} (p : parser C S A) (f : A -> option B) P Q : lang n (fresh p) P Q ->
  lang n (fresh (map_or_panic p f)) (fun w r b => exists a, P w r a /\ f a = Some b) Q.
Proof.
  intros H i Hi Hp. destruct (H i Hi Hp) as [A1 A2].
  assert (R : fresh (map_or_panic p f) i = match fresh p i with
    | Done (CommitOk a, i') => match f a with Some b => Done (CommitOk b, i') | None => Panic end
    | Done (PeekOk a, i') => match f a with Some b => Done (PeekOk b, i') | None => Panic end
    | Done (CommitErr e, i') => Done (CommitErr e, i')
    | Done (PeekErr e, i') => Done (PeekErr e, i')
    | Panic => Panic | OOF => OOF end).
  { unfold fresh, map_or_panic, mk_mode. cbn [p_run p_init]. destruct (p_run p true i (p_init p)) as [[[[a|a|e|e] j] s]| |]; cbn; try reflexivity; destruct (f a); reflexivity. }
  unfold succeeds, fails, fails_with in *. rewrite R. split.
  - intros c b i'. split.
    + intros K. destruct (fresh p i) as [[[a|a|e|e] j]| |] eqn:F; try (destruct c; discriminate).
      * destruct (f a) as [b'|] eqn:Fa; [|discriminate]. destruct c; [|discriminate]. inversion K; subst. destruct (proj1 (A1 true a i') eq_refl) as [w [K1 [K2 K3]]]. exists w. eauto.
      * destruct (f a) as [b'|] eqn:Fa; [|discriminate]. destruct c; [discriminate|]. inversion K; subst. destruct (proj1 (A1 false a i') eq_refl) as [w [K1 [K2 K3]]]. exists w. eauto.
    + intros [w [K1 [K2 [a [K3 K4]]]]]. rewrite (proj2 (A1 c a i') (ex_intro _ w (conj K1 (conj K2 K3)))). destruct c; cbn; rewrite K4; reflexivity.
  - rewrite <- A2. destruct (fresh p i) as [[[a|a|e|e] j]| |]; try tauto; split; intros [e0 [r0 [j0 [K1 [K2 K3]]]]]; try discriminate; try (inversion K1; subst; discriminate);
      try (destruct (f a); [inversion K1; subst; discriminate|discriminate]).
    all: inversion K1; subst; do 3 eexists; split; [reflexivity|split; reflexivity].
Qed.
End General.

Section Date.
Context {C : Cfg}.
Notation T := (tok C).
Notation E := (Err C).
Variable L : lawful C.
Variable code : T -> N.
Variable lit : N -> T.
Hypothesis code_lit : forall n, (n < 256)%N -> code (lit n) = n.
Hypothesis lit_code : forall t, lit (code t) = t.
Notation num := (decimal_value code).
Notation chr := (lang_char L code lit code_lit lit_code).

Lemma to_digit10_value t : decimal code t -> to_digit10 code t = digit_value code t.
Proof.
  intros H. unfold to_digit10, digit_value, char_to_digit, in_range, decimal in *. replace ((48 <=? code t)%N && (code t <=? 57)%N) with true; [rewrite N2Z.inj_sub by lia; reflexivity|].
  symmetry. apply andb_true_iff. rewrite !N.leb_le. lia.
Qed.
Lemma two_inv l : two code l <-> exists x y, l = [x; y] /\ decimal code x /\ decimal code y.
Proof.
  unfold two. split.
  - intros [H1 H2]. destruct l as [|x [|y [|z l]]]; try discriminate. inversion H2 as [|? ? K1 K2]; subst. inversion K2; subst. eauto.
  - intros [x [y [-> [H1 H2]]]]. auto.
Qed.
Lemma two_ne : ~ two code [].
Proof. intros [K _]. discriminate. Qed.
Lemma two_start w r : two code w -> exists t l, w ++ r = t :: l /\ decimal code t.
Proof. intros H. apply two_inv in H. destruct H as [x [y [-> [H _]]]]. cbn. eauto. Qed.
Lemma lang_two n : lang n (fresh (two_digits code)) (fun w _ v => two code w /\ v = num w) (stops (decimal code)).
Proof.
  eapply lang_ext; [| |apply lang_map; eapply lang_cons; [apply lang_digit|apply lang_tuple1, lang_digit]].
  - intros w r v _. cbn beta. rewrite two_inv. split.
    + intros [[x y] [[w1 [w2 [-> [[-> K1] [-> K2]]]]] ->]]. cbn [fst snd] in *. split; [exists x, y; auto|]. rewrite !to_digit10_value by auto.
      unfold decimal_value. cbn [app fold_left]. lia.
    + intros [[x [y [-> [K1 K2]]]] ->]. exists (x, y). split; [exists [x], [y]; auto|]. cbn [fst snd]. rewrite !to_digit10_value by auto.
      unfold decimal_value. cbn [app fold_left]. lia.
  - intros l _. cbn beta. split; [intros [K|[a [[K _] _]]]; [exact K|discriminate]|auto].
Qed.
Lemma lang_sign n : lang n (fresh (choice_slice tt [jchar lit 45; jchar lit 43])) (fun w _ a => w = [a] /\ (is_char code 45 a \/ is_char code 43 a))
  (stops (fun t => is_char code 45 t \/ is_char code 43 t)).
Proof.
  eapply lang_ext; [| |eapply lang_ordered; [apply slice_ordered|]; cbn [List.map]; eapply alt_cons; [apply (chr n 45); lia|]; eapply alt_cons; [apply (chr n 43); lia|apply Forall2_nil]].
  - intros w r a _. cbn [choiceP]. split; [intros [[-> K]|[_ [-> K]]]; auto|]. intros [-> [K|K]]; [auto|]. right. split; [cbn; unfold is_char in *; rewrite K; discriminate|auto].
  - intros [|t l] _; cbn; tauto.
Qed.
Lemma signed_iff t sg : signed code t sg <-> (is_char code 45 t \/ is_char code 43 t) /\ sg = (if tok_eqb C t (lit 45) then -1 else 1)%Z.
Proof.
  assert (H : tok_eqb C t (lit 45) = true <-> code t = 45%N) by (rewrite (law_tok L); apply (is_lit code lit code_lit lit_code); lia). split.
  - intros K. destruct K as [s K|s K]; unfold is_char in *.
    + split; [auto|]. destruct (tok_eqb C s (lit 45)); [|reflexivity]. apply proj1 in H. specialize (H eq_refl). congruence.
    + split; [auto|]. rewrite (proj2 H K). reflexivity.
  - intros [[K|K] ->]; unfold is_char in *; destruct (tok_eqb C t (lit 45)); try (constructor; unfold is_char; auto; fail).
    + pose proof (proj2 H K). discriminate.
    + pose proof (proj1 H eq_refl). congruence.
Qed.
Lemma signed_char t sg : signed code t sg -> is_char code 45 t \/ is_char code 43 t.
Proof. intros K. destruct K; auto. Qed.
Lemma lang_zone n : lang n (fresh (time_zone code lit)) (zone_text code) (stops (fun t => is_char code 90 t \/ is_char code 45 t \/ is_char code 43 t)).
Proof.
  eapply lang_ext; [| |apply lang_or; [apply lang_map; apply (chr n 90); lia|apply lang_map; eapply lang_cons; [apply lang_sign|eapply lang_cons; [apply lang_two|
    apply lang_tuple1, lang_optional; eapply lang_seq; [apply with_runs|apply lang_optional; apply (chr n 58); lia|apply (lang_two n)|lia]]]]].
  - intros w r v _. cbn beta. split.
    + intros [[a [[-> K] ->]]|[_ [[s [h m]] [[w1 [w2 [-> [[-> K1] [w3 [w4 [-> [[K2 K3] K4]]]]]]]] ->]]]]; [apply zt_utc; auto|]. cbn [fst snd] in *. subst h.
      assert (Sg := proj2 (signed_iff s _) (conj K1 eq_refl)). revert Sg. set (sg := if tok_eqb C s (lit 45) then (-1)%Z else 1%Z). intros Sg.
      destruct m as [m|].
      * destruct K4 as [c [w5 [o [m' [-> [K4 [[K5 K6] ->]]]]]]].
        replace (if tok_eqb C s (lit 45) then _ else _) with (sg * (60 * num w3 + num w5))%Z by (unfold sg; subst; destruct (tok_eqb C s (lit 45)); lia).
        change (zone_text code (s :: w3 ++ c ++ w5) r (sg * (60 * num w3 + num w5))). apply zt_minutes; auto. destruct o as [t|]; [right; exists t; tauto|left; tauto].
      * destruct K4 as [-> K4]. rewrite app_nil_r. change ([s] ++ w3) with (s :: w3).
        replace (if tok_eqb C s (lit 45) then _ else _) with (sg * (60 * num w3))%Z by (unfold sg; destruct (tok_eqb C s (lit 45)); lia).
        apply zt_hours; auto. destruct K4 as [[]|[o [K4 K5]]]. destruct r as [|t r]; cbn in *; auto. destruct o; [destruct K4; discriminate|tauto].
    + intros K. destruct K as [t r K|s h r sg Sg K1 K2|s h c m r sg Sg K1 K2 K3].
      * left. exists t. auto.
      * right. apply signed_iff in Sg. destruct Sg as [Sg ->]. split; [cbn; unfold is_char in *; destruct Sg as [-> | ->]; discriminate|].
        exists (s, (num h, None)). split.
        { exists [s], h. split; [reflexivity|]. split; [auto|]. exists h, []. rewrite app_nil_r. split; [reflexivity|]. split; [auto|]. split; [reflexivity|].
          right. exists None. destruct r as [|t r]; cbn in *; tauto. }
        { cbn [fst snd]. destruct (tok_eqb C s (lit 45)); lia. }
      * right. apply signed_iff in Sg. destruct Sg as [Sg ->]. split; [cbn; unfold is_char in *; destruct Sg as [-> | ->]; discriminate|].
        exists (s, (num h, Some (num m))). split.
        { exists [s], (h ++ c ++ m). split; [reflexivity|]. split; [auto|]. exists h, (c ++ m). split; [reflexivity|]. split; [auto|]. cbn [fst snd].
          exists c, m, (match c with [] => None | t :: _ => Some t end), (num m). split; [reflexivity|]. split; [|auto].
          destruct K3 as [-> |[t [-> K3]]]; [|auto]. split; [reflexivity|]. destruct (two_start _ r K2) as [t [l [E0 K]]]. cbn [app]. rewrite E0. cbn. unfold is_char, decimal in *. lia. }
        { cbn [fst snd]. destruct (tok_eqb C s (lit 45)); lia. }
  - intros [|t l] _; cbn; [tauto|]. split.
    + intros [K1 [K2|[a [[K2 _] _]]]]; [tauto|discriminate].
    + intros K. split; [tauto|left; tauto].
Qed.
Lemma zone_ne r v : ~ zone_text code [] r v.
Proof. intros K. inversion K. Qed.

Lemma lang_time n : lang n (fresh (time_p code lit)) (time_text code) (stops (decimal code)).
Proof.
  eapply lang_ext; [| |apply lang_map; eapply lang_cons; [apply lang_two|eapply lang_cons; [apply (chr n 58); lia|eapply lang_cons; [apply lang_two|eapply lang_cons; [apply (chr n 58); lia|
    eapply lang_cons; [apply lang_two|apply lang_tuple1, lang_zone]]]]]].
  - intros w r v _. cbn beta. unfold time_text. split.
    + intros [[h [a [m [b [s z]]]]] [[w1 [w2 [-> [[K1 E1] [w3 [w4 [-> [[-> K3] [w5 [w6 [-> [[K5 E5] [w7 [w8 [-> [[-> K7] [w9 [w10 [-> [[K9 E9] K10]]]]]]]]]]]]]]]]]]]] ->]].
      cbn [fst snd] in *. subst. exists w1, a, w5, b, w9, w10, z. cbn [app]. auto 12.
    + intros [h [a [m [b [s [z [zv [-> [K1 [K2 [K3 [K4 [K5 [K6 ->]]]]]]]]]]]]]]. exists (num h, (a, (num m, (b, (num s, zv))))). split; [|reflexivity]. cbn [fst snd].
      exists h, (a :: m ++ b :: s ++ z). split; [reflexivity|]. split; [auto|]. exists [a], (m ++ b :: s ++ z). split; [reflexivity|]. split; [auto|].
      exists m, (b :: s ++ z). split; [reflexivity|]. split; [auto|]. exists [b], (s ++ z). split; [reflexivity|]. split; [auto|]. exists s, z. auto.
  - intros l _. cbn beta. split; [intros [K|[a [[K _] _]]]; [exact K|exfalso; exact (two_ne K)]|auto].
Qed.

(** The date without the conversion of the year. *)
Definition date_fields := tuple (TC (many (c_digit code)) (TC (jchar lit 45) (TC (two_digits code) (TC (jchar lit 45) (T1 (two_digits code)))))).
Definition fieldsP (w r : list T) (x : list T * (T * (Z * (T * Z)))) : Prop :=
  match x with (y, (_, (mv, (_, dv)))) => exists m d, date_form code w y m d /\ mv = num m /\ dv = num d /\ hd_error (skipn (length y) w) = Some (fst (snd x)) /\
    hd_error (skipn (length y + 3) w) = Some (fst (snd (snd (snd x)))) end.
Lemma lang_fields n : n <= fuel C -> lang n (fresh date_fields) fieldsP (stops (fun t => is_char code 45 t \/ decimal code t)).
Proof.
  intros Hn. eapply lang_ext; [| |eapply lang_cons; [eapply lang_many; [apply hf_unit|exact Hn| |apply lang_digit]; intros r a [K _]; discriminate|
    eapply lang_cons; [apply (chr n 45); lia|eapply lang_cons; [apply lang_two|eapply lang_cons; [apply (chr n 45); lia|apply lang_tuple1, lang_two]]]]].
  - intros w r [y [a [mv [b dv]]]] _. cbn beta. unfold fieldsP, date_form. cbn [fst snd]. split.
    + intros [w1 [w2 [-> [[K1 _] [w3 [w4 [-> [[-> K3] [w5 [w6 [-> [[K5 E5] [w7 [w8 [-> [[-> K7] [K8 E8]]]]]]]]]]]]]]]]]. apply star_pred in K1. destruct K1 as [-> K1].
      exists w5, w8. split; [exists a, b; cbn [app]; auto 8|]. split; [auto|]. split; [auto|]. apply two_inv in K5. destruct K5 as [p [q [-> _]]].
      rewrite skipn_app, skipn_all, Nat.sub_diag. split; [reflexivity|]. rewrite skipn_app, skipn_all2 by lia. replace (length y + 3 - length y) with 3 by lia. reflexivity.
    + intros [m [d [[a' [b' [-> [K1 [K2 [K3 [K4 K5]]]]]]] [-> [-> [G1 G2]]]]]]. rewrite skipn_app, skipn_all, Nat.sub_diag in G1. injection G1 as <-.
      destruct (proj1 (two_inv m) K3) as [p [q [E0 _]]]. rewrite skipn_app, skipn_all2 in G2 by lia. replace (length y + 3 - length y) with 3 in G2 by lia. rewrite E0 in G2. injection G2 as <-.
      exists y, (a' :: m ++ b' :: d). split; [reflexivity|]. split; [split; [apply star_pred; auto|cbn; unfold decimal, is_char in *; lia]|].
      exists [a'], (m ++ b' :: d). split; [reflexivity|]. split; [auto|]. exists m, (b' :: d). split; [reflexivity|]. split; [auto|]. exists [b'], d. auto.
  - intros l _. cbn beta. split.
    + intros [[]|[a [[K1 K2] [K3|[b [[K3 _] _]]]]]]; [|discriminate]. destruct l; cbn in *; tauto.
    + intros K. right. exists []. split; [|left; destruct l; cbn in *; tauto]. split; [constructor|destruct l; cbn in *; tauto].
Qed.
Lemma fields_ne r x : ~ fieldsP [] r x.
Proof. destruct x as [y [a [mv [b dv]]]]. intros [m [d [[a' [b' [K _]]] _]]]. destruct y; discriminate. Qed.

Lemma year_spec y : Forall (decimal code) y -> forall v, parse_i32 (List.map code y) = Some v <-> year_ok code y /\ v = num y.
Proof.
  intros Hy v. assert (Hd : forallb is_ascii_digit (List.map code y) = true).
  { rewrite forallb_forall. intros c K. apply in_map_iff in K. destruct K as [t [<- K]]. rewrite Forall_forall in Hy. apply Hy in K. unfold decimal in K.
    unfold is_ascii_digit, in_range. rewrite andb_true_iff, !N.leb_le. lia. }
  assert (Hv : digits_number (List.map code y) = num y).
  { unfold digits_number, decimal_value, digit_value. generalize 0%Z. clear. induction y as [|t y IH]; intros z; [reflexivity|]. cbn. apply IH. }
  pose proof (dec_nonneg code y Hy) as H0. unfold parse_i32, year_ok. destruct y as [|t y].
  - cbn. split; [discriminate|]. intros [[K _] _]. congruence.
  - inversion Hy as [|? ? Ht _]; subst. unfold decimal in Ht. cbn [List.map]. destruct (N.eqb_spec (code t) 45); [lia|]. destruct (N.eqb_spec (code t) 43); [lia|].
    change (code t :: List.map code y) with (List.map code (t :: y)). rewrite Hd, Hv. cbn [List.map].
    destruct (Z.leb_spec (- 2 ^ 31) (num (t :: y))), (Z.ltb_spec (num (t :: y)) (2 ^ 31)); cbn [andb]; split; intros K; try discriminate; try (injection K as <-; split; [split; [discriminate|auto]|reflexivity]);
      try (destruct K as [[_ K] ->]); try lia; auto.
Qed.

Lemma lang_date n : n <= fuel C -> lang n (fresh (date_p code lit)) (fun w _ v => date_text code w v) (stops (fun t => is_char code 45 t \/ decimal code t)).
Proof.
  intros Hn. eapply lang_ext; [| |apply lang_map_or_panic; apply (lang_fields n Hn)]; [|cbn; tauto].
  intros w r v _. cbn beta. unfold date_text. split.
  - intros [[y [a [mv [b dv]]]] [[m [d [K1 [-> [-> _]]]]] K2]]. destruct (parse_i32 (List.map code y)) as [yv|] eqn:E0; [|discriminate]. injection K2 as <-.
    apply year_spec in E0; [|destruct K1 as [? [? [_ [K _]]]]; exact K]. destruct E0 as [E0 ->]. exists y, m, d. auto.
  - intros [y [m [d [K1 [K2 ->]]]]]. pose proof K1 as [a [b [-> [G1 [G2 [G3 [G4 G5]]]]]]]. exists (y, (a, (num m, (b, num d)))). split.
    + exists m, d. split; [exact K1|]. split; [reflexivity|]. split; [reflexivity|]. cbn [fst snd]. apply two_inv in G3. destruct G3 as [p [q [-> _]]].
      rewrite skipn_app, skipn_all, Nat.sub_diag. split; [reflexivity|]. rewrite skipn_app, skipn_all2 by lia. replace (length y + 3 - length y) with 3 by lia. reflexivity.
    + rewrite (proj2 (year_spec y G1 (num y))); auto.
Qed.
Lemma date_ne v : ~ date_text code [] v.
Proof. intros [y [m [d [[a [b [K _]]] _]]]]. destruct y; discriminate. Qed.
Lemma lang_date_time n : n <= fuel C -> lang n (fresh (date_time code lit)) (date_time_text code) (stops (fun t => is_char code 45 t \/ decimal code t)).
Proof.
  intros Hn. eapply lang_ext; [| |apply lang_map; eapply lang_cons; [apply (lang_date n Hn)|eapply lang_cons; [apply (chr n 84); lia|apply lang_tuple1, lang_time]]].
  - intros w r v _. cbn beta. unfold date_time_text. split.
    + intros [[dv [t tv]] [[w1 [w2 [-> [K1 [w3 [w4 [-> [[-> K3] K4]]]]]]]] ->]]. cbn [fst snd] in *. exists w1, t, w4, dv, tv. cbn [app]. auto 6.
    + intros [wd [t [wt [dv [tv [-> [K1 [K2 [K3 ->]]]]]]]]]. exists (dv, (t, tv)). split; [|reflexivity]. exists wd, (t :: wt). split; [reflexivity|]. split; [auto|].
      exists [t], wt. auto.
  - intros l _. cbn beta. split; [intros [K|[a [K _]]]; [exact K|exfalso; exact (date_ne _ K)]|auto].
Qed.

(** * Panics *)
(** The parser with a year for every text. *)
Definition total_date :=
  map date_fields (fun x => match x with (year, (_, (month, (_, day)))) =>
    match parse_i32 (List.map code year) with Some y => DateV y month day | None => DateV 0 month day end end).
Definition total_date_time := map (tuple (TC total_date (TC (jchar lit 84) (T1 (time_p code lit))))) (fun x => match x with (date, (_, time)) => DateTimeV date time end).
Definition bad_year (x : list T * (T * (Z * (T * Z)))) : bool := match parse_i32 (List.map code (fst x)) with Some _ => false | None => true end.
Lemma fresh_map {S A B} (p : parser C S A) (f : A -> B) i : fresh (map p f) i = omap (fun x => (pr_map f (fst x), snd x)) (fresh p i).
Proof. unfold fresh, map, mk_mode. cbn [p_run p_init]. destruct (p_run p true i (p_init p)) as [[[r j] s]| |]; reflexivity. Qed.
Lemma tuple_head_same {S A SS B} (p q : parser C S A) (t : tup (C:=C) SS B) i : p_init p = p_init q -> errfns_of p = errfns_of q ->
  p_run p true i (p_init p) = p_run q true i (p_init q) -> fresh (tuple (TC p t)) i = fresh (tuple (TC q t)) i.
Proof.
  intros H1 H2 H3. unfold fresh, tuple, mk_mode. cbn [p_run p_init]. unfold tuple_run. cbn [fst snd seq_all tup_init tup_errfns]. unfold seq_head. cbn [orb].
  rewrite H3, H2. replace (p_count p) with (p_count q) by (change (ef_count (errfns_of q) = ef_count (errfns_of p)); rewrite H2; reflexivity). reflexivity.
Qed.
Lemma tuple_head_panic {S A SS B} (p : parser C S A) (t : tup (C:=C) SS B) i : fresh p i = Panic -> fresh (tuple (TC p t)) i = Panic.
Proof.
  unfold fresh. intros H. destruct (p_run p true i (p_init p)) as [[[r j] s]| |] eqn:E0; try discriminate. unfold tuple, mk_mode. cbn [p_run p_init]. unfold tuple_run.
  cbn [fst snd seq_all tup_init tup_errfns]. unfold seq_head. cbn [orb]. rewrite E0. reflexivity.
Qed.
Lemma date_run i : fresh (date_p code lit) i =
  match fresh date_fields i with
  | Done (CommitOk x, _) | Done (PeekOk x, _) => if bad_year x then Panic else fresh total_date i
  | _ => fresh total_date i
  end.
Proof.
  unfold fresh, date_p, total_date, map_or_panic, map, mk_mode. cbn [p_run p_init]. change (tuple _) with date_fields at 1 2.
  destruct (p_run date_fields true i (p_init date_fields)) as [[[[x|x|e|e] j] s]| |]; cbn; try reflexivity; destruct x as [y [a [m [b d]]]]; unfold bad_year; cbn [fst];
    destruct (parse_i32 (List.map code y)); reflexivity.
Qed.
Lemma date_time_run i : fresh (date_time code lit) i =
  match fresh date_fields i with
  | Done (CommitOk x, _) | Done (PeekOk x, _) => if bad_year x then Panic else fresh total_date_time i
  | _ => fresh total_date_time i
  end.
Proof.
  unfold date_time, total_date_time. rewrite !fresh_map.
  assert (G : (exists x j, (fresh date_fields i = Done (CommitOk x, j) \/ fresh date_fields i = Done (PeekOk x, j)) /\ bad_year x = true) \/
    p_run (date_p code lit) true i (p_init (date_p code lit)) = p_run total_date true i (p_init total_date)).
  { unfold fresh, date_p, total_date, map_or_panic, map, mk_mode. cbn [p_run p_init]. change (tuple _) with date_fields at 1 2.
    destruct (p_run date_fields true i (p_init date_fields)) as [[[[x|x|e|e] j] s]| |]; cbn; try (right; reflexivity); destruct x as [y [a [m [b d]]]]; unfold bad_year; 
      destruct (parse_i32 (List.map code y)) eqn:E0; try (right; reflexivity); left; do 2 eexists; (split; [eauto|cbn [fst]; rewrite E0; reflexivity]). }
  destruct G as [[x [j [F B]]]|G].
  - rewrite tuple_head_panic; [destruct F as [-> | ->]; rewrite B; reflexivity|]. rewrite date_run. destruct F as [-> | ->]; rewrite B; reflexivity.
  - rewrite (tuple_head_same _ total_date); [| reflexivity | reflexivity | exact G].
    set (R := omap _ (fresh (tuple (TC total_date _)) i)). clearbody R. revert G. unfold fresh, date_p, total_date, map_or_panic, map, mk_mode. cbn [p_run p_init]. change (tuple _) with date_fields at 1 2.
    destruct (p_run date_fields true i (p_init date_fields)) as [[[[x|x|e|e] j] s]| |]; cbn; intros G; try reflexivity; destruct x as [y [a [m [b d]]]]; unfold bad_year; cbn [fst] in *;
      destruct (parse_i32 (List.map code y)); try reflexivity; discriminate.
Qed.

Lemma sol_two z b : solid z b true (two_digits (C:=C) code).
Proof. apply sol_map, sol_tuple. apply (sol_TC (n1:=true) (n2:=true)); [apply sol_digit|apply sol_T1, sol_digit]. Qed.
Lemma sol_chr z b n : solid z b true (jchar (C:=C) lit n).
Proof. apply sol_token. Qed.
Lemma sol_zone z b : solid z b true (time_zone (C:=C) code lit).
Proof.
  unfold time_zone. apply sol_or; [apply sol_map, sol_chr|]. apply sol_map, sol_tuple. apply (sol_TC (n1:=true) (n2:=true)).
  - apply sol_choice_slice. apply sol_cons; [apply sol_weak_b, sol_chr|]. apply sol_cons; [apply sol_weak_b, sol_chr|apply sol_nil].
  - apply (sol_TC (n1:=true) (n2:=false)); [apply sol_two|]. apply sol_T1. apply sol_optional with (n:=true). apply (sol_with (n1:=false) (n2:=true)); [|apply sol_two].
    apply sol_optional with (n:=true). apply sol_chr.
Qed.
Lemma sol_total_date z : solid z false true total_date.
Proof.
  apply sol_map, sol_tuple. apply (sol_TC (n1:=false) (n2:=true)); [apply sol_many, sol_digit|]. apply (sol_TC (n1:=true) (n2:=true)); [apply sol_chr|].
  apply (sol_TC (n1:=true) (n2:=true)); [apply sol_two|]. apply (sol_TC (n1:=true) (n2:=true)); [apply sol_chr|apply sol_T1, sol_two].
Qed.
Lemma sol_time z : solid z false true (time_p (C:=C) code lit).
Proof.
  apply sol_map, sol_tuple. apply (sol_TC (n1:=true) (n2:=true)); [apply sol_two|]. apply (sol_TC (n1:=true) (n2:=true)); [apply sol_chr|].
  apply (sol_TC (n1:=true) (n2:=true)); [apply sol_two|]. apply (sol_TC (n1:=true) (n2:=true)); [apply sol_chr|]. apply (sol_TC (n1:=true) (n2:=true)); [apply sol_two|apply sol_T1, sol_zone].
Qed.
Lemma sol_total_date_time z : solid z false true total_date_time.
Proof.
  apply sol_map, sol_tuple. apply (sol_TC (n1:=true) (n2:=true)); [apply sol_total_date|]. apply (sol_TC (n1:=true) (n2:=true)); [apply sol_chr|apply sol_T1, sol_time].
Qed.
Lemma total_returns i : 2 * length (rest i) + 1 < fuel C -> exists x, fresh total_date_time i = Done x.
Proof.
  intros Hi. destruct (solid_returns L (Datatypes.S (length (rest i))) false true _ _ total_date_time (sol_total_date_time _) _ (used_init _ _ _) i) as [r [j [s [K _]]]]; [split; [lia|exact Hi]|].
  unfold fresh. rewrite K. eexists. reflexivity.
Qed.
Lemma bad_year_iff x w r : fieldsP w r x -> bad_year x = true <-> ~ year_ok code (fst x).
Proof.
  destruct x as [y [a [m [b d]]]]. intros [m' [d' [[a' [b' [_ [K _]]]] _]]]. unfold bad_year. cbn [fst]. pose proof (year_spec y K) as G.
  destruct (parse_i32 (List.map code y)) as [v|].
  - split; [discriminate|]. intros N. exfalso. apply N. apply (G v). reflexivity.
  - split; [|auto]. intros _ N. pose proof (proj2 (G (num y)) (conj N eq_refl)). discriminate.
Qed.
Lemma date_time_panics i : length (rest i) < fuel C -> ipart i = false -> 2 * length (rest i) + 1 < fuel C ->
  (fresh (date_time code lit) i = Panic <-> exists w r y m d, rest i = w ++ r /\ date_form code w y m d /\ ~ year_ok code y) /\
  (fresh (date_time code lit) i = Panic \/ exists x, fresh (date_time code lit) i = Done x).
Proof.
  intros Hi Hp Hf. destruct (total_returns i Hf) as [x T1]. rewrite date_time_run, T1. destruct (lang_fields (fuel C) (Nat.le_refl _) i Hi Hp) as [A1 _].
  assert (Q : (exists c v j, succeeds (fresh date_fields) i c v j /\ bad_year v = true) <-> exists w r y m d, rest i = w ++ r /\ date_form code w y m d /\ ~ year_ok code y).
  { split.
    - intros [c [v [j [K B]]]]. apply A1 in K. destruct K as [w [K1 [_ K2]]]. pose proof (proj1 (bad_year_iff _ _ _ K2) B) as B2. destruct v as [y [a [m [b d]]]].
      destruct K2 as [m' [d' [K2 _]]]. destruct K1 as [K1 _]. exists w, (rest j), y, m', d'. auto.
    - intros [w [r [y [m [d [K1 [K2 K3]]]]]]]. pose proof K2 as [a [b [-> [G1 [G2 [G3 [G4 G5]]]]]]].
      assert (F : fieldsP (y ++ a :: m ++ b :: d) r (y, (a, (num m, (b, num d))))).
      { exists m, d. split; [exact K2|]. split; [reflexivity|]. split; [reflexivity|]. cbn [fst snd]. apply two_inv in G3. destruct G3 as [p [q [-> _]]].
        rewrite skipn_app, skipn_all, Nat.sub_diag. split; [reflexivity|]. rewrite skipn_app, skipn_all2 by lia. replace (length y + 3 - length y) with 3 by lia. reflexivity. }
      exists true, (y, (a, (num m, (b, num d)))), (@Inp C r (pos_after (ipos i) (y ++ a :: m ++ b :: d)) (ipart i)). split; [|apply (bad_year_iff _ _ _ F); exact K3].
      apply A1. exists (y ++ a :: m ++ b :: d). split; [split; [exact K1|split; reflexivity]|]. split; [|exact F]. destruct y; reflexivity. }
  rewrite <- Q. unfold succeeds. destruct (fresh date_fields i) as [[[v|v|e|e] j]| |]; (split; [split|]); try discriminate; try (right; eauto; fail).
  all: try (intros [c [v0 [j0 [K _]]]]; destruct c; discriminate).
  - destruct (bad_year v) eqn:B; [|discriminate]. intros _. exists true, v, j. auto.
  - intros [c [v0 [j0 [K B]]]]. destruct c; [|discriminate]. injection K as -> _. rewrite B. reflexivity.
  - destruct (bad_year v); eauto.
  - destruct (bad_year v) eqn:B; [|discriminate]. intros _. exists false, v, j. auto.
  - intros [c [v0 [j0 [K B]]]]. destruct c; [discriminate|]. injection K as -> _. rewrite B. reflexivity.
  - destruct (bad_year v); eauto.
Qed.
End Date.
