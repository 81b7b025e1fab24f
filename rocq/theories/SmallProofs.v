(** Proofs for C77: examples/number.rs and examples/readme.rs. *)
From Coq Require Import String List Bool Arith NArith Lia.
Import ListNotations.
From Verif Require Import Base Parser Errors Token Combinator Sequence Choice Repeat RangeP ByteP Instances JsonM JsonSpec ExamplesM SmallSpec.
From Verif Require Import Spec SeqSpec ChoiceSpec TidySpec RepeatSpec AgreeSpec RangeSpec LibSpec TotalSpec DecodeSpec ChunkSpec.
From Verif Require Import ResultProofs TokenProofs SeqProofs CombProofs ChoiceProofs CombProofs2 RangeProofs RepeatProofs RepeatProofs2 RepeatProofs4 ByteProofs TidyProofs ForwardProofs AgreeProofs TotalProofs2 LangProofs JsonProofs JsonProofs2 DateProofs IniProofs HttpProofs Mp4Proofs ChunkProofs7.
Unset Implicit Arguments.

Section General.
Context {C : Cfg}.
Notation T := (tok C).
Lemma lang_recognize_range (L : lawful C) n {S A} (p : parser C S A) P Q : forward p -> lang n (fresh p) P Q ->
  lang n (fresh (recognize_range p)) (fun w r l => l = w /\ exists a, P w r a) Q.
Proof.
  intros F H i Hi Hp. destruct (H i Hi Hp) as [H1 H2]. destruct (recognize_range_spec L p F) as [R1 R2]. split.
  - intros c l i'. rewrite R1. split.
    + intros [[c0 [a K]] [K2 ->]]. apply H1 in K. destruct K as [w [K3 [_ K4]]].
      assert (w = l) as -> by (destruct K2 as [K2 _], K3 as [K3 _]; rewrite K2 in K3; apply app_inv_tail in K3; auto). exists l. eauto 8.
    + intros [w [K1 [-> [-> [a K2]]]]]. split; [exists (consumed_some w), a; apply H1; eauto|]. auto.
  - rewrite <- H2. split; intros [e K]; exists e; apply R2; exact K.
Qed.
Lemma and_then_closure {S A B} (p : parser C S A) (f g : A -> B + SErr C) i : (forall c v j, succeeds (fresh p) i c v j -> f v = g v) ->
  fresh (and_then p f) i = fresh (and_then p g) i.
Proof.
  intros H. unfold succeeds, fresh in *. cbn [and_then mk_mode p_run p_init]. destruct (p_run p true i (p_init p)) as [[[[v|v|e|e] j] s]| |]; cbn in *; auto.
  - rewrite (H true v j eq_refl). reflexivity.
  - rewrite (H false v j eq_refl). reflexivity.
Qed.
Lemma and_then_agrees {S A B} (p : parser C S A) (f : A -> B + SErr C) : stream_agrees (and_then p f).
Proof. apply default_stream_agrees. reflexivity. Qed.
Lemma map_agrees {S A B} (p : parser C S A) (f : A -> B) : stream_agrees (map p f).
Proof. apply default_stream_agrees. reflexivity. Qed.
Lemma pieces_parse (EL : eoi_laws C) (L : lawful C) (D : pos_distinct C) x a n h {S A} (p : parser C S A) : stream_agrees p -> chunkable x a n h (fun _ : unit => p) ->
  forall IoE st pos b cs used (fin : ending (C:=C) IoE A) st' pos' b' eof eof', ready IoE p st eof -> session p st pos b eof cs used fin st' pos' b' eof' ->
  forall more, (eof' = true -> more = []) -> let i := @Inp C ((b ++ concat cs) ++ more) pos false in returns (parse p i) ->
  match fin with
  | EndValue v => exists u, b ++ concat cs = u ++ b' /\ parse p i = Done (inl v, @Inp C (b' ++ more) (pos_after pos u) false)
  | EndParse e => exists e i', parse p i = Done (inr e, i')
  | EndIo _ _ => True
  end.
Proof.
  intros AG HC IoE st pos b cs used fin st' pos' b' eof eof' HR HS more Hm i [y R].
  pose proof (session_whole EL L D x a n h p IoE HC st pos b cs used fin st' pos' b' eof eof' HR HS more Hm) as W.
  assert (Z : exists r j, fresh p i = Done (r, j)).
  { clearbody i. clear - AG R. specialize (AG i). unfold parse in R. destruct (fresh p i) as [[r j]| |]; [eauto| |]; destruct (p_stream p i) as [[? ?]| |]; try destruct AG; discriminate. }
  destruct Z as [r [j Z]]. specialize (W r j Z). destruct fin as [v|e|q e]; [| |exact I].
  - destruct W as [u [W1 [W2 W3]]]. exists u. split; [exact W1|]. apply (parse_succeeds p i v _ AG). exists (consumed_some u). unfold succeeds. rewrite Z, W2, W3. reflexivity.
  - destruct y as [[v|e1] j1]; [|eauto]. exfalso. apply (parse_succeeds p i v j1 AG) in R. destruct R as [c R]. unfold succeeds in R. rewrite Z in R. injection R as -> ->. destruct c; discriminate.
Qed.
End General.

Section Number.
Context {C : Cfg}.
Notation T := (tok C).
Variable L : lawful C.
Variable code : T -> N.
Variable lit : N -> T.
Hypothesis code_lit : forall n, (n < 256)%N -> code (lit n) = n.
Hypothesis lit_code : forall t, lit (code t) = t.
Notation chr := (lang_char L code lit code_lit lit_code).
Variable n : nat.
Hypothesis Hn : n <= fuel C.
Notation dig := (dec_digit code).

Lemma is_digit t : is_ascii_digit (code t) = true <-> dig t.
Proof. unfold is_ascii_digit, in_range, dec_digit. rewrite andb_true_iff, !N.leb_le. tauto. Qed.
Lemma lang_bdigit : lang n (fresh (b_digit code)) (fun w _ a => w = [a] /\ dig a) (stops dig).
Proof. eapply lang_pred; [|apply lang_class]. exact is_digit. Qed.
(** What the parser reads when [r] follows. *)
Definition numP (w r : list T) : Prop := exists a, a <> [] /\ Forall dig a /\
  ((w = a /\ stops dig r /\ stops (fun t => code t = 46%N) r) \/ exists dot b, code dot = 46%N /\ Forall dig b /\ w = a ++ dot :: b /\ stops dig r).
Lemma lang_nm_text : lang n (fresh (nm_text code lit)) (fun w r l => l = w /\ numP w r) (stops dig).
Proof.
  assert (F : forward (tuple (TC (skip_many1 (b_digit code)) (T1 (optional (tuple (TC (token (lit 46)) (T1 (skip_many (b_digit code)))))))))).
  { apply fwd_run, lib_fwd. apply lib_tuple. apply lib_TC; [apply lib_parser_fn, lib_ignore, lib_many1, lib_ignore, lib_expected, lib_satisfy|]. apply lib_T1, lib_optional, lib_tuple, lib_TC; [apply lib_token|].
    apply lib_T1, lib_parser_fn, lib_ignore, lib_many, lib_ignore, lib_expected, lib_satisfy. }
  eapply lang_ext; [| |apply (lang_recognize_range L n); [exact F|eapply lang_cons; [apply (lang_skip_many1 n _ (fun w _ a => w = [a] /\ dig a) (stops dig)); [apply hf_unit|exact Hn|apply one_ne|apply lang_bdigit]|
    apply lang_tuple1, lang_optional; eapply lang_cons; [apply (chr n 46); lia|apply lang_tuple1; apply (lang_skip_many n _ (fun w _ a => w = [a] /\ dig a) (stops dig)); [apply hf_unit|exact Hn|apply one_ne|apply lang_bdigit]]]]].
  - intros w r a _. apply and_iff_compat_l. unfold numP. split.
    + intros [[u o] [w1 [w2 [-> [[[l [K1 K2]] K3] K4]]]]]. apply star_pred in K2. destruct K2 as [-> K2]. exists l. split; [exact K1|]. split; [exact K2|]. cbn [fst snd] in *.
      destruct o as [[dot u2]|].
      * right. destruct K4 as [x1 [x2 [-> [[-> K5] [[l2 K6] K7]]]]]. apply star_pred in K6. destruct K6 as [-> K6]. exists dot, l2. split; [exact K5|]. auto.
      * left. destruct K4 as [-> K4]. rewrite app_nil_r. split; [reflexivity|]. cbn in K3. split; [exact K3|]. destruct K4 as [K4|[x [[K4 _] _]]]; [exact K4|discriminate].
    + intros [l [K1 [K2 [[-> [K3 K4]]|[dot [b [K3 [K4 [-> K5]]]]]]]]].
      * exists (tt, None), l, []. rewrite app_nil_r. split; [reflexivity|]. cbn. split; [split; [exists l; split; [exact K1|apply star_pred; auto]|exact K3]|]. split; [reflexivity|]. left. exact K4.
      * exists (tt, Some (dot, tt)), l, (dot :: b). split; [reflexivity|]. cbn. split.
        { split; [exists l; split; [exact K1|apply star_pred; auto]|]. unfold dec_digit. rewrite K3. lia. }
        exists [dot], b. split; [reflexivity|]. split; [auto|]. split; [exists b; apply star_pred; auto|exact K5].
  - intros l _. split; [|auto]. intros [K|[a [[[l0 [K1 K2]] _] _]]]; [exact K|]. apply star_pred in K2. destruct K2 as [<- _]. congruence.
Qed.
Lemma span_unique (q : T -> Prop) : forall a b r s, Forall q a -> Forall q b -> a ++ r = b ++ s -> stops q r -> length b <= length a.
Proof. clear Hn n.
  induction a as [|x a IH]; intros b r s Ha Hb E Hs.
  - destruct b as [|y b]; [cbn; lia|]. exfalso. cbn in E. subst r. cbn in Hs. inversion Hb; auto.
  - destruct b as [|y b]; [cbn; lia|]. cbn in E. injection E as <- E. inversion Ha; inversion Hb; subst. specialize (IH b r s ltac:(assumption) ltac:(assumption) E Hs). cbn. lia.
Qed.
Lemma numP_longest w r : numP w r <-> longest_decimal code (w ++ r) w.
Proof. clear Hn n.
  split.
  - intros [a [K1 [K2 K3]]]. split; [|split; [eauto|]].
    + exists a. split; [exact K1|]. split; [exact K2|]. destruct K3 as [[-> _]|[dot [b [K3 [K4 [-> _]]]]]]; eauto 8.
    + intros w' r' E [a' [J1 [J2 J3]]].
      destruct K3 as [[-> [K3 K4]]|[dot [b [K3 [K4 [-> K5]]]]]].
      * assert (Ha : length a' <= length a) by (destruct J3 as [->|[dot' [b' [_ [_ ->]]]]]; [apply (span_unique dig a a' r r'); auto|apply (span_unique dig a a' r ((dot' :: b') ++ r')); auto; rewrite E, <- app_assoc; reflexivity]).
        destruct J3 as [->|[dot' [b' [J3 [J4 ->]]]]]; [exact Ha|]. exfalso.
        assert (Hb : length a <= length a').
        { apply (span_unique dig a' a ((dot' :: b') ++ r') r); auto; [rewrite E, <- app_assoc; reflexivity|]. cbn. unfold dec_digit. rewrite J3. lia. }
        rewrite <- app_assoc in E. assert (Q : length a = length a') by lia.
        assert (X : a = a' /\ r = (dot' :: b') ++ r').
        { clear - E Q. revert a' E Q. induction a as [|x a IH]; intros [|y a'] E Q; cbn in *; try lia; [auto|]. injection E as <- E. destruct (IH a' E ltac:(lia)) as [-> ->]. auto. }
        destruct X as [-> ->]. cbn in K4. auto.
      * rewrite <- app_assoc in E. cbn in E. assert (Sd : stops dig (dot :: b ++ r)) by (cbn; unfold dec_digit; rewrite K3; lia).
        destruct J3 as [->|[dot' [b' [J3 [J4 ->]]]]].
        { pose proof (span_unique dig a a' _ r' K2 J2 E Sd). rewrite app_length. cbn. lia. }
        rewrite <- app_assoc in E. cbn in E. pose proof (span_unique dig a a' _ _ K2 J2 E Sd).
        assert (Sd' : stops dig (dot' :: b' ++ r')) by (cbn; unfold dec_digit; rewrite J3; lia).
        pose proof (span_unique dig a' a _ _ J2 K2 (eq_sym E) Sd'). assert (Q : length a = length a') by lia.
        assert (X : a = a' /\ dot :: b ++ r = dot' :: b' ++ r').
        { clear - E Q. revert a' E Q. induction a as [|x a IH]; intros [|y a'] E Q; cbn in *; try lia; [auto|]. injection E as <- E. destruct (IH a' E ltac:(lia)) as [-> ?]. auto. }
        destruct X as [-> X]. injection X as <- X. pose proof (span_unique dig b b' r r' K4 J4 X K5). rewrite !app_length. cbn. lia.
  - intros [[a [K1 [K2 K3]]] [_ K4]]. exists a. split; [exact K1|]. split; [exact K2|].
    destruct K3 as [->|[dot [b [K3 [K5 ->]]]]].
    + left. split; [reflexivity|]. split.
      * destruct r as [|t r]; cbn; [exact I|]. intros Ht. specialize (K4 (a ++ [t]) r). rewrite <- app_assoc in K4. specialize (K4 eq_refl). rewrite app_length in K4. cbn in K4.
        assert (length a + 1 <= length a); [|lia]. apply K4. exists (a ++ [t]). split; [destruct a; discriminate|]. split; [apply Forall_app; auto|auto].
      * destruct r as [|t r]; cbn; [exact I|]. intros Ht. specialize (K4 (a ++ [t]) r). rewrite <- app_assoc in K4. specialize (K4 eq_refl). rewrite app_length in K4. cbn in K4.
        assert (length a + 1 <= length a); [|lia]. apply K4. exists a. split; [exact K1|]. split; [exact K2|]. right. exists t, []. auto.
    + right. exists dot, b. split; [exact K3|]. split; [exact K5|]. split; [reflexivity|]. destruct r as [|t r]; cbn; [exact I|]. intros Ht.
      specialize (K4 ((a ++ dot :: b) ++ [t]) r). rewrite <- !app_assoc in K4. specialize (K4 eq_refl). rewrite !app_length in K4. cbn in K4.
      assert (length a + Datatypes.S (length b + 1) <= length a + Datatypes.S (length b)); [|lia]. apply K4. exists a. split; [exact K1|]. split; [exact K2|]. right. exists dot, (b ++ [t]).
      split; [exact K3|]. split; [apply Forall_app; auto|]. reflexivity.
Qed.
End Number.

Section Number2.
Context {C : Cfg}.
Notation T := (tok C).
Variable L : lawful C.
Variable code : T -> N.
Variable lit : N -> T.
Hypothesis code_lit : forall n, (n < 256)%N -> code (lit n) = n.
Hypothesis lit_code : forall t, lit (code t) = t.
Lemma no_decimal l : stops (dec_digit code) l <-> forall w r, l = w ++ r -> ~ decimal_text code w.
Proof.
  split.
  - intros H w r -> [a [K1 [K2 K3]]]. destruct a as [|x a]; [congruence|]. inversion K2 as [|? ? Hx _]; subst.
    assert (exists w', w = x :: w') as [w' ->] by (destruct K3 as [->|[dot [b [_ [_ ->]]]]]; [exists a|exists (a ++ dot :: b)]; reflexivity). cbn in H. auto.
  - intros H. destruct l as [|t l]; cbn; [exact I|]. intros Ht. apply (H [t] l eq_refl). exists [t]. split; [discriminate|]. auto.
Qed.
Lemma decimal_covers l : stops (dec_digit code) l \/ exists w r, l = w ++ r /\ longest_decimal code l w.
Proof.
  assert (B : forall q : T -> Prop, (forall t, q t \/ ~ q t) -> forall l, exists a r, l = a ++ r /\ Forall q a /\ stops q r).
  { intros q dq. induction l0 as [|t l0 IH]; [exists [], []; cbn; auto|]. destruct (dq t) as [K|K]; [|exists [], (t :: l0); cbn; auto].
    destruct IH as [a [r [-> [J1 J2]]]]. exists (t :: a), r. cbn. auto. }
  assert (dd : forall t, dec_digit code t \/ ~ dec_digit code t) by (intros t; unfold dec_digit; lia).
  destruct (B _ dd l) as [a [r [-> [K1 K2]]]]. destruct a as [|x a]; [left; exact K2|]. right.
  destruct r as [|t r]; [exists (x :: a), []; split; [reflexivity|]; refine (proj1 (numP_longest code _ _) _); exists (x :: a); split; [discriminate|]; cbn; auto|].
  destruct (N.eq_dec (code t) 46) as [Ht|Ht].
  - destruct (B _ dd r) as [b [s [-> [K3 K4]]]]. exists ((x :: a) ++ t :: b), s. rewrite <- app_assoc. split; [reflexivity|].
    replace ((x :: a) ++ t :: b ++ s) with (((x :: a) ++ t :: b) ++ s) by (rewrite <- app_assoc; reflexivity). refine (proj1 (numP_longest code _ _) _). exists (x :: a). split; [discriminate|]. split; [exact K1|]. right. eauto 8.
  - exists (x :: a), (t :: r). split; [reflexivity|]. refine (proj1 (numP_longest code _ _) _). exists (x :: a). split; [discriminate|]. split; [exact K1|]. left. auto.
Qed.
Lemma longest_unique l w w' : longest_decimal code l w -> longest_decimal code l w' -> w = w'.
Proof.
  intros [K1 [[r K2] K3]] [J1 [[r' J2] J3]]. pose proof (K3 _ _ J2 J1). pose proof (J3 _ _ K2 K1). rewrite K2 in J2. clear - J2 H H0.
  assert (Q : length w = length w') by lia. clear H H0. revert w' J2 Q. induction w as [|x w IH]; intros [|y w'] E Q; cbn in *; try lia; auto. injection E as <- E. f_equal. apply IH; [exact E|lia].
Qed.
Lemma lang_number {F} (f64 : list T -> option F) bad n : n <= fuel C ->
  lang n (fresh (nm_number code lit f64 bad)) (fun w r v => longest_decimal code (w ++ r) w /\ f64 w = Some v) (stops (dec_digit code)).
Proof.
  intros Hn. eapply lang_ext; [| |apply (lang_and_then L n); [|apply (lang_nm_text L code lit code_lit lit_code n Hn)]].
  - intros w r v _. cbn beta. rewrite <- numP_longest. split.
    + intros [a [[-> K1] K2]]. split; [exact K1|]. destruct (f64 w); [congruence|discriminate].
    + intros [K1 K2]. exists w. rewrite K2. auto.
  - tauto.
  - intros r a [_ [l [K1 [_ [[K2 _]|[dot [b [_ [_ [K2 _]]]]]]]]]]; [congruence|destruct l; discriminate].
Qed.
Lemma number_agrees {F} (f64 : list T -> option F) bad : stream_agrees (nm_number code lit f64 bad).
Proof. apply and_then_agrees. Qed.
Lemma sol_number {F} (f64 : list T -> option F) bad z : solid z false true (nm_number code lit f64 bad).
Proof.
  apply sol_and_then. unfold nm_text, recognize_range. apply sol_parser_fn, sol_map, sol_recognize_with_value, sol_tuple.
  apply (sol_TC (n1:=true) (n2:=false)); [apply sol_parser_fn, sol_ignore, sol_many1; [discriminate|apply sol_ignore, sol_class]|]. apply sol_T1.
  apply sol_optional with (n:=true). apply sol_tuple, (sol_TC (n1:=true) (n2:=false)); [apply sol_token|]. apply sol_T1, sol_parser_fn, sol_ignore, sol_many, sol_ignore, sol_class.
Qed.
(** The closure matters only on decimal texts. *)
Lemma number_closure {F} (f g : list T -> option F) bad : (forall w, decimal_text code w -> f w = g w) -> forall i, length (rest i) < fuel C -> ipart i = false ->
  fresh (nm_number code lit f bad) i = fresh (nm_number code lit g bad) i.
Proof.
  intros H i Hi Hp. pose proof (lang_nm_text L code lit code_lit lit_code (fuel C) (le_n _) i Hi Hp) as [H1 _].
  apply and_then_closure. intros c w j K. apply H1 in K. destruct K as [w' [_ [_ [-> K]]]]. apply numP_longest in K. destruct K as [K _]. rewrite (H w' K). reflexivity.
Qed.
Lemma chunk_number {F} (f64 : list T -> option F) bad : se_is_eoi C bad = false -> chunkable (C:=C) true true false true (fun _ : unit => nm_number code lit f64 bad).
Proof.
  intros Hb. apply (ck_and_then (x:=true) (a:=true) (n:=false)); [|intros j o e; destruct (f64 o); [discriminate|]; intros Q; injection Q as <-; exact Hb].
  apply ck_parser_fn, ck_map. apply ck_recognize_with_value.
  - apply ck_tuple. apply (ck_TC (x:=true) (a:=false) (n:=false) (h:=true) (x2:=true) (n2:=true) (h2:=true)).
    + apply ck_parser_fn, ck_ignore. eapply ck_many1; [apply ck_ignore, ck_expected, ck_satisfy|intros _; apply hf_unit].
    + eapply ck_T1, ck_optional, ck_tuple. apply (ck_TC (x:=true) (a:=true) (n:=false) (h:=true) (x2:=true) (n2:=true) (h2:=true)); [apply ck_token|]. eapply ck_T1. apply ck_parser_fn, ck_ignore.
      eapply ck_many; [apply ck_ignore, ck_expected, ck_satisfy|intros _; apply hf_unit].
  - intros _. apply fwd_run, lib_fwd. apply lib_tuple. apply lib_TC; [apply lib_parser_fn, lib_ignore, lib_many1, lib_ignore, lib_expected, lib_satisfy|]. apply lib_T1, lib_optional, lib_tuple, lib_TC; [apply lib_token|].
    apply lib_T1, lib_parser_fn, lib_ignore, lib_many, lib_ignore, lib_expected, lib_satisfy.
Qed.
End Number2.

Section Readme.
Context {C : Cfg}.
Notation T := (tok C).
Variable L : lawful C.
Variable code : T -> N.
Variable alphabetic whitespace : N -> bool.
Hypothesis apart : forall c, alphabetic c = true -> whitespace c = true -> False.
Notation letter := (fun t : T => alphabetic (code t) = true).
Notation blank := (fun t : T => whitespace (code t) = true).
Variable n : nat.
Hypothesis Hn : n <= fuel C.
Notation wordP := (fun w r (l : list T) => l <> [] /\ star (fun w (_ : list T) a => w = [a] /\ letter a) w r l /\ stops letter r).
Lemma lang_word : lang n (fresh (many1 (byte_class code alphabetic "letter"))) wordP (stops letter).
Proof. apply (lang_many1 n _ (fun w _ a => w = [a] /\ letter a) (stops letter)); [apply hf_unit|exact Hn|apply (one_ne letter)|]. eapply lang_pred; [|apply lang_class]. tauto. Qed.
Lemma wordP_iff w r l : wordP w r l <-> l = w /\ word letter w /\ stops letter r.
Proof.
  unfold word. split.
  - intros [K1 [K2 K3]]. apply (star_pred letter) in K2. destruct K2 as [-> K2]. auto.
  - intros [-> [[K1 K2] K3]]. split; [exact K1|]. split; [apply (star_pred letter); auto|exact K3].
Qed.
Lemma lang_rm : lang n (fresh (rm_word code alphabetic whitespace)) (fun w r v => (w = [] /\ v = None /\ stops letter r) \/
  exists l x, sentence letter blank w (l ++ [x]) /\ v = Some x /\ stops letter r /\ stops blank r) (fun _ => False).
Proof.
  eapply lang_ext; [| |apply lang_map, (lang_sep_by n _ _ wordP (stops letter) (fun w _ a => w = [a] /\ blank a) (stops blank)); [apply tidy_history_free, td_many1, td_unit|apply hf_unit|exact Hn| |apply (one_ne blank)|apply lang_word|]].
  - intros w r v _. cbn beta. split.
    + intros [ws [[[-> [-> K]]|K] ->]]; [left; auto|]. right. destruct K as [w1 [w2 [a [l [-> [-> [K1 [K2 K3]]]]]]]].
      apply wordP_iff in K1. destruct K1 as [-> [K1 K4]].
      assert (X : stops letter r /\ sentence letter blank (w1 ++ w2) (w1 :: l)).
      { revert w1 K1 K4. induction K2 as [r|v1 v2 r x l J1 J2 IH]; intros w1 K1 K4.
        - split; [exact K4|]. rewrite app_nil_r. constructor. exact K1.
        - destruct J1 as [u1 [u2 [s [-> [[-> J3] J4]]]]]. apply wordP_iff in J4. destruct J4 as [-> [J4 J5]]. destruct (IH K3 u2 J4 J5) as [I1 I2]. split; [exact I1|].
          rewrite <- app_assoc. cbn. constructor; auto. }
      destruct X as [X1 X2]. assert (Y : exists l0 x0, w1 :: l = l0 ++ [x0]) by (destruct (exists_last (l:=w1 :: l)) as [l0 [x0 ->]]; [discriminate|eauto]).
      destruct Y as [l0 [x0 Y]]. exists l0, x0. rewrite Y in *. split; [exact X2|]. split; [unfold pop; rewrite rev_app_distr; reflexivity|]. auto.
    + intros [[-> [-> K]]|[l [x [K1 [-> [K2 K3]]]]]]; [exists []; split; [left; auto|reflexivity]|]. exists (l ++ [x]). split; [|unfold pop; rewrite rev_app_distr; reflexivity]. right.
      assert (X : forall w ws, sentence letter blank w ws -> exists w1 w2 l', w = w1 ++ w2 /\ ws = w1 :: l' /\ word letter w1 /\ stops letter (w2 ++ r) /\
        star (sepP wordP (fun w (_ : list T) a => w = [a] /\ blank a)) w2 r l').
      { clear w l x K1. intros w ws K. induction K as [w Hw|w s v l Hw Hs K [w1 [w2 [l' [-> [-> [I1 [I2 I3]]]]]]]].
        - exists w, [], []. rewrite app_nil_r. split; [reflexivity|]. split; [reflexivity|]. split; [exact Hw|]. split; [exact K2|constructor].
        - exists w, (s :: w1 ++ w2), (w1 :: l'). split; [reflexivity|]. split; [reflexivity|]. split; [exact Hw|]. split; [cbn; intros Hl; exact (apart _ Hl Hs)|].
          apply (star_cons _ (s :: w1) w2 r w1 l'); [|exact I3]. exists [s], w1, s. split; [reflexivity|]. split; [auto|]. apply wordP_iff. auto. }
      destruct (X _ _ K1) as [w1 [w2 [l' [-> [-> [J1 [J2 J3]]]]]]]. exists w1, w2, w1, l'. split; [reflexivity|]. split; [reflexivity|]. split; [apply wordP_iff; auto|]. auto.
  - tauto.
  - intros r a K. apply wordP_iff in K. destruct K as [_ [[K _] _]]. congruence.
  - eapply lang_pred; [|apply lang_class]. tauto.
Qed.
Lemma sol_rm z : solid z false false (rm_word code alphabetic whitespace).
Proof. apply sol_map. apply sol_sep_by with (n1:=true) (n2:=true); [reflexivity|apply sol_many1; [discriminate|apply sol_class]|apply sol_class]. Qed.
Lemma blank_dec (q : T -> bool) (l : list T) : stops (fun t => q t = true) l \/ exists t r, l = t :: r /\ q t = true.
Proof. destruct l as [|t r]; cbn; [auto|]. destruct (q t) eqn:E; [right; eauto|left; discriminate]. Qed.
Lemma words_cover k : forall l, length l < k -> stops letter l \/ exists w ws r, l = w ++ r /\ sentence letter blank w ws /\ stops letter r /\
  (stops blank r \/ exists s r', r = s :: r' /\ blank s /\ stops letter r').
Proof. clear Hn n.
  induction k as [|k IH]; intros l Hl; [lia|]. destruct (blank_dec (fun t => alphabetic (code t)) l) as [K|[t0 [r0 [-> K]]]]; [auto|]. right.
  assert (B : exists a r, t0 :: r0 = a ++ r /\ word letter a /\ stops letter r).
  { assert (B : forall l, exists a r, l = a ++ r /\ Forall letter a /\ stops letter r).
    { induction l as [|t l [a [r [-> [J1 J2]]]]]; [exists [], []; cbn; auto|]. destruct (alphabetic (code t)) eqn:E; [|exists [], (t :: a ++ r); cbn; rewrite E; split; [reflexivity|split; [constructor|discriminate]]].
      exists (t :: a), r. cbn. auto. }
    destruct (B r0) as [a [r [-> [J1 J2]]]]. exists (t0 :: a), r. split; [reflexivity|]. split; [split; [discriminate|constructor; auto]|exact J2]. }
  destruct B as [a [r [E [Ha Hr]]]]. rewrite E in *. destruct (blank_dec (fun t => whitespace (code t)) r) as [Kb|[s [r' [-> Kb]]]].
  - exists a, [a], r. split; [reflexivity|]. split; [constructor; exact Ha|]. auto.
  - rewrite app_length in Hl. cbn in Hl. destruct (IH r') as [I|[w [ws [r1 [-> [I1 [I2 I3]]]]]]]; [lia| |].
    + exists a, [a], (s :: r'). split; [reflexivity|]. split; [constructor; exact Ha|]. split; [exact Hr|]. right. eauto.
    + exists (a ++ s :: w), (a :: ws), r1. split; [rewrite <- app_assoc; reflexivity|]. split; [constructor; auto|]. auto.
Qed.
Lemma span_same (q : T -> Prop) : forall a b r s, Forall q a -> Forall q b -> a ++ r = b ++ s -> stops q r -> stops q s -> a = b /\ r = s.
Proof.
  induction a as [|x a IH]; intros [|y b] r s Ha Hb E Hr Hs; cbn in E.
  - auto.
  - exfalso. subst r. cbn in Hr. inversion Hb; auto.
  - exfalso. subst s. cbn in Hs. inversion Ha; auto.
  - injection E as <- E. inversion Ha; inversion Hb; subst. destruct (IH b r s) as [-> ->]; auto.
Qed.
Lemma sentence_head w ws : sentence letter blank w ws -> forall r, stops letter r -> exists a v, w ++ r = a ++ v /\ word letter a /\ stops letter v.
Proof.
  intros H r Hr. destruct H as [w Hw|w s v l Hw Hs H]; [eauto 6|]. exists w, ((s :: v) ++ r). rewrite <- app_assoc. split; [reflexivity|]. split; [exact Hw|]. cbn. intros K. exact (apart _ K Hs).
Qed.
Lemma words_unique w ws : sentence letter blank w ws -> forall r w' ws' r', sentence letter blank w' ws' -> w ++ r = w' ++ r' ->
  stops letter r -> stops letter r' -> stops blank r' -> (forall s r1, r = s :: r1 -> blank s -> stops letter r1) -> w = w' /\ ws = ws' /\ r = r'.
Proof.
  induction 1 as [w Hw|w s v l Hw Hs H IH]; intros r w' ws' r' H' E Hr Hr' Hb Hn'.
  - inversion H' as [w0 Hw0|w0 s0 v0 l0 Hw0 Hs0 H0]; subst.
    + destruct (span_same letter w w' r r') as [-> ->]; auto; [apply Hw|apply Hw0].
    + exfalso. rewrite <- app_assoc in E. destruct (span_same letter w w0 r ((s0 :: v0) ++ r')) as [-> ->]; auto; [apply Hw|apply Hw0|cbn; intros K; exact (apart _ K Hs0)|].
      specialize (Hn' s0 (v0 ++ r') eq_refl Hs0). destruct (sentence_head _ _ H0 r' Hr') as [a [v [Ea [[Na Fa] _]]]]. rewrite Ea in Hn'. destruct a as [|x a]; [congruence|]. cbn in Hn'. inversion Fa; auto.
  - rewrite <- app_assoc in E. inversion H' as [w0 Hw0|w0 s0 v0 l0 Hw0 Hs0 H0]; subst.
    + exfalso. destruct (span_same letter w w' ((s :: v) ++ r) r') as [-> <-]; auto; [apply Hw|apply Hw0|cbn; intros K; exact (apart _ K Hs)].
    + rewrite <- app_assoc in E. destruct (span_same letter w w0 ((s :: v) ++ r) ((s0 :: v0) ++ r')) as [-> E2]; auto; [apply Hw|apply Hw0|cbn; intros K; exact (apart _ K Hs)|cbn; intros K; exact (apart _ K Hs0)|].
      cbn in E2. injection E2 as <- E2. destruct (IH r v0 l0 r' H0 E2 Hr Hr' Hb Hn') as [-> [-> ->]]. auto.
Qed.
Lemma rm_agrees : stream_agrees (rm_word code alphabetic whitespace).
Proof. apply map_agrees. Qed.
End Readme.
