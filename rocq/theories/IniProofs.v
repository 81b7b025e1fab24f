(** Proofs for C65: the INI parser. *)
From Coq Require Import String List Bool Arith NArith Lia.
Import ListNotations.
From Verif Require Import Base Parser Errors Token Combinator Sequence Choice Repeat RangeP ByteP Instances JsonM JsonSpec IniM IniSpec.
From Verif Require Import Spec SeqSpec ChoiceSpec TidySpec RepeatSpec AgreeSpec RangeSpec LibSpec TotalSpec.
From Verif Require Import ResultProofs TokenProofs SeqProofs CombProofs ChoiceProofs CombProofs2 RepeatProofs RepeatProofs2 RepeatProofs4 ByteProofs TidyProofs ForwardProofs AgreeProofs TotalProofs2 LangProofs JsonProofs JsonProofs2 DateProofs.
Unset Implicit Arguments.

(** * Generally *)
Section General.
Context {C : Cfg}.
Notation T := (tok C).
Notation E := (Err C).
Lemma lang_message n {S A} (p : parser C S A) m P Q : lang n (fresh p) P Q -> lang n (fresh (message p m)) P Q.
Proof.
  assert (R : forall i, fresh (message p m) i = match fresh p i with Done (CommitErr e, i') => Done (CommitErr (e_add_message e m), i') | o => o end).
  { intros i. unfold fresh, message, mk_mode. cbn [p_run p_init]. destruct (p_run p true i (p_init p)) as [[[[a|a|e|e] j] s]| |]; reflexivity. }
  apply lang_same; intros i; unfold succeeds, fails, fails_with.
  - intros c a i'. rewrite R. destruct (fresh p i) as [[[b|b|e|e] j]| |]; try tauto. destruct c; split; discriminate.
  - rewrite R. destruct (fresh p i) as [[[b|b|e|e] j]| |]; try tauto.
    split; intros [e0 [r0 [i0 [K1 [K2 K3]]]]]; inversion K1; subst; discriminate.
Qed.
Lemma lang_skip_many1 n {S A} (p : parser C S A) P Q : history_free false p -> n <= fuel C -> (forall r a, ~ P [] r a) -> lang n (fresh p) P Q ->
  lang n (fresh (skip_many1 p)) (fun w r _ => (exists l, l <> [] /\ star P w r l) /\ Q r) Q.
Proof.
  intros H Hn HP L i Hi Hp. pose proof (lang_many1 n p P Q H Hn HP L i Hi Hp) as [A1 A2]. split.
  - intros c u i'. rewrite (skip_many1_ok p H). split.
    + intros [l K]. apply A1 in K. destruct K as [w [K1 [K2 [K3 [K4 K5]]]]]. exists w. eauto 8.
    + intros [w [K1 [K2 [[l [K3 K4]] K5]]]]. exists l. apply A1. eauto 8.
  - rewrite <- A2. split; intros [e K]; exists e; apply (skip_many1_fails p H); exact K.
Qed.
Lemma lang_between_same n {S1 A S2 B S3 D} (o : parser C S1 A) (c : parser C S2 B) (p : parser C S3 D) Po Qo Pc Qc P Q :
  lang n (fresh o) Po Qo -> (forall r a, ~ Po [] r a) -> lang n (fresh p) P Q -> lang n (fresh c) Pc Qc ->
  lang n (fresh (between o c p)) (fun w r x => exists w1 w2 w3 a b, w = w1 ++ w2 ++ w3 /\ Po w1 (w2 ++ w3 ++ r) a /\ P w2 (w3 ++ r) x /\ Pc w3 r b) Qo.
Proof.
  intros H1 H2 H3 H4. destruct n as [|n]; [intros i Hi; lia|]. apply (lang_between n o c p Po Qo Pc Qc P Q); auto; apply (lang_weak (S n)); auto.
Qed.
End General.

Section Ini.
Context {C : Cfg}.
Notation T := (tok C).
Notation E := (Err C).
Variable L : lawful C.
Variable code : T -> N.
Variable lit : N -> T.
Hypothesis code_lit : forall n, (n < 256)%N -> code (lit n) = n.
Hypothesis lit_code : forall t, lit (code t) = t.
Notation chr := (lang_char L code lit code_lit lit_code).
Variable n : nat.
Hypothesis Hn : n <= fuel C.

Lemma one_ne (q : T -> Prop) : forall (r : list T) a, ~ ([] = [a] /\ q a).
Proof. intros r a [K _]. discriminate. Qed.
Lemma lang_sat (f : T -> bool) (q : T -> Prop) : (forall t, f t = true <-> q t) -> lang n (fresh (satisfy f)) (fun w _ a => w = [a] /\ q a) (stops q).
Proof. intros H. eapply lang_pred; [exact H|apply lang_satisfy]. Qed.
Lemma lang_many_sat (f : T -> bool) (q : T -> Prop) : (forall t, f t = true <-> q t) -> lang n (fresh (many (satisfy f))) (fun w r l => star (fun w _ a => w = [a] /\ q a) w r l /\ stops q r) (fun _ => False).
Proof. intros H. apply (lang_many n _ (fun w _ a => w = [a] /\ q a) (stops q)); [apply hf_unit|exact Hn|apply one_ne|apply lang_sat, H]. Qed.
Lemma lang_many1_sat (f : T -> bool) (q : T -> Prop) : (forall t, f t = true <-> q t) -> lang n (fresh (many1 (satisfy f))) (fun w r l => l <> [] /\ star (fun w _ a => w = [a] /\ q a) w r l /\ stops q r) (stops q).
Proof. intros H. apply (lang_many1 n _ (fun w _ a => w = [a] /\ q a) (stops q)); [apply hf_unit|exact Hn|apply one_ne|apply lang_sat, H]. Qed.
Lemma lang_skip_many_sat (f : T -> bool) (q : T -> Prop) : (forall t, f t = true <-> q t) -> lang n (fresh (skip_many (satisfy f))) (fun w r _ => (exists l, star (fun w _ a => w = [a] /\ q a) w r l) /\ stops q r) (fun _ => False).
Proof. intros H. apply (lang_skip_many n _ (fun w _ a => w = [a] /\ q a) (stops q)); [apply hf_unit|exact Hn|apply one_ne|apply lang_sat, H]. Qed.
Lemma key_char_iff t : key_char code t = true <-> in_key code t.
Proof. unfold key_char, in_key, is_char. rewrite !andb_true_iff, !negb_true_iff, !N.eqb_neq. tauto. Qed.
Lemma value_char_iff t : value_char code t = true <-> in_value code t.
Proof. unfold value_char, in_value, is_char. rewrite !andb_true_iff, !negb_true_iff, !N.eqb_neq. tauto. Qed.
Lemma other_iff c t : negb (code t =? c)%N = true <-> ~ is_char code c t.
Proof. unfold is_char. rewrite negb_true_iff, N.eqb_neq. tauto. Qed.

Lemma lang_property : lang n (fresh (property code lit)) (fun w r x => property_text code w r (fst x) (snd x)) (stops (in_key code)).
Proof.
  apply lang_message. eapply lang_ext; [| |apply lang_map; eapply lang_cons; [apply lang_many1_sat, key_char_iff|
    eapply lang_cons; [apply (chr n 61); lia|apply lang_tuple1, lang_many1_sat, value_char_iff]]].
  - intros w r [k v] _. cbn beta. unfold property_text, span. cbn [fst snd]. split.
    + intros [[k' [e v']] [[w1 [w2 [-> [[K1 [K2 K3]] [w3 [w4 [-> [[-> K4] [K5 [K6 K7]]]]]]]]]] K]]. cbn [fst snd] in *. injection K as <- <-.
      apply star_pred in K2. apply star_pred in K6. destruct K2 as [-> K2], K6 as [-> K6]. exists e. cbn [app]. auto 8.
    + intros [e [-> [K1 [K2 [K3 [K4 [K5 K6]]]]]]]. exists (k, (e, v)). split; [|reflexivity]. cbn [fst snd]. exists k, (e :: v). split; [reflexivity|].
      split; [split; [exact K1|]; split; [apply star_pred; auto|cbn; unfold in_key; tauto]|]. exists [e], v. split; [reflexivity|]. split; [auto|].
      split; [exact K4|]. split; [apply star_pred; auto|exact K6].
  - intros l _. cbn beta. split; [intros [K|[a [[K1 [K2 _]] _]]]; [exact K|apply star_pred in K2; destruct K2; congruence]|auto].
Qed.
Lemma property_ne r k v : ~ property_text code [] r k v.
Proof. intros [e [K _]]. destruct k; discriminate. Qed.

(** White space and comments. *)
Definition commentP (w r : list T) : Prop := exists t c, w = t :: c /\ is_char code 59 t /\ Forall (fun t => ~ is_char code 10 t) c /\ stops (fun t => ~ is_char code 10 t) r.
Lemma lang_comment : lang n (fresh (comment code lit)) (fun w r _ => commentP w r) (stops (is_char code 59)).
Proof.
  eapply lang_ext; [| |apply lang_map; eapply lang_cons; [apply (chr n 59); lia|apply lang_tuple1, lang_skip_many_sat, (other_iff 10)]].
  - intros w r [] _. cbn beta. unfold commentP. split.
    + intros [[t u] [[w1 [w2 [-> [[-> K1] [[l K2] K3]]]]] _]]. cbn [fst snd] in *. apply star_pred in K2. destruct K2 as [-> K2]. exists t, l. auto.
    + intros [t [c [-> [K1 [K2 K3]]]]]. exists (t, tt). split; [|reflexivity]. exists [t], c. split; [reflexivity|]. split; [auto|]. split; [exists c; apply star_pred; auto|exact K3].
  - intros l _. cbn beta. split; [intros [K|[a [[K _] _]]]; [exact K|discriminate]|auto].
Qed.
Definition itemP (w r : list T) : Prop := (w <> [] /\ span (white code) w r) \/ commentP w r.
Lemma white_semi t : white code t -> ~ is_char code 59 t.
Proof. unfold white, is_char. intros H K. rewrite K in H. repeat (destruct H as [H|H]; [discriminate|]). destruct H. Qed.
Lemma lang_item : lang n (fresh (or_ (skip_many1 (c_space code)) (comment code lit))) (fun w r _ => itemP w r) (stops (fun t => white code t \/ is_char code 59 t)).
Proof.
  assert (H : lang n (fresh (c_space code)) (fun w _ a => w = [a] /\ white code a) (stops (white code))).
  { eapply lang_pred; [|apply lang_class]. intros t. apply is_whitespace_white. }
  eapply lang_ext; [| |apply lang_or; [apply (lang_skip_many1 n _ (fun w _ a => w = [a] /\ white code a) _ (hf_unit _) Hn); [apply one_ne|exact H]|apply lang_comment]].
  - intros w r u _. cbn beta. unfold itemP, span. split.
    + intros [[[l [K1 K2]] K3]|[_ K]]; [|auto]. apply star_pred in K2. destruct K2 as [-> K2]. auto.
    + intros [[K1 [K2 K3]]|K]; [left; split; [exists w; split; [exact K1|apply star_pred; auto]|exact K3]|]. right. split; [|exact K].
      destruct K as [t [c [-> [K _]]]]. cbn. intros N. exact (white_semi _ N K).
  - intros [|t l] _; cbn; tauto.
Qed.
Lemma item_ne r : ~ itemP [] r.
Proof. intros [[K _]|[t [c [K _]]]]; [congruence|discriminate]. Qed.
Notation stop_gap := (stops (fun t => white code t \/ is_char code 59 t)).
Lemma gap_spaces s r : Forall (white code) s -> forall w, gap code w r -> gap code (s ++ w) r.
Proof. intros H w G. induction H as [|t s H1 H2 IH]; [exact G|]. apply gap_space; auto. Qed.
Lemma gap_stop w r : gap code w r -> stop_gap r.
Proof. intros G. induction G; auto. Qed.
Lemma gap_star w r : gap code w r <-> (exists l : list unit, star (fun w r (_ : unit) => itemP w r) w r l) /\ stop_gap r.
Proof.
  split.
  - intros G. split; [|eapply gap_stop; eauto]. induction G as [r K|t w r K G IH|t c w r K1 K2 K3 G IH].
    + exists []. constructor.
    + destruct IH as [l IH]. pose proof (gap_stop _ _ G) as Hs.
      assert (Q : (exists s w2, w = s ++ w2 /\ Forall (white code) s /\ stops (white code) (w2 ++ r) /\ exists l, star (fun w r (_ : unit) => itemP w r) w2 r l)).
      { inversion IH as [|w1 w2 ? a l2 K1 K2]; subst.
        - exists [], []. split; [reflexivity|]. split; [constructor|]. split; [cbn; destruct r; cbn in *; tauto|exists []; constructor].
        - destruct K1 as [[K1 [K3 K4]]|K1].
          + exists w1, w2. split; [reflexivity|]. split; [auto|]. split; [auto|]. eauto.
          + exists [], (w1 ++ w2). split; [reflexivity|]. split; [constructor|]. split; [|eauto].
            destruct K1 as [t' [c' [-> [K1 _]]]]. cbn. intros N. exact (white_semi _ N K1). }
      destruct Q as [s [w2 [-> [Q1 [Q2 [l2 Q3]]]]]]. exists (tt :: l2). apply (star_cons _ (t :: s) w2 r tt l2); [|exact Q3]. left. split; [discriminate|]. split; [constructor; auto|exact Q2].
    + destruct IH as [l IH]. exists (tt :: l). apply (star_cons _ (t :: c) w r tt l); [|exact IH]. right. exists t, c. auto.
  - intros [[l H] Hs]. induction H as [r|w1 w2 r a l K1 K2 IH]; [apply gap_end; auto|]. specialize (IH Hs). destruct K1 as [[K1 [K3 K4]]|[t [c [-> [K1 [K3 K4]]]]]].
    + apply gap_spaces; auto.
    + change (gap code (t :: c ++ w2) r). apply gap_comment; auto.
Qed.
Lemma tidy_item : tidy false (or_ (skip_many1 (c_space code)) (comment code lit)).
Proof. apply td_or. Qed.
Lemma lang_whitespace : lang n (fresh (whitespace code lit)) (fun w r _ => gap code w r) (fun _ => False).
Proof.
  eapply lang_ext; [| |eapply (lang_skip_many n _ (fun w r (_ : unit) => itemP w r) _ (tidy_history_free _ _ tidy_item) Hn); [intros r a; apply item_ne|apply lang_item]]; [|tauto].
  intros w r u _. cbn beta. rewrite gap_star. reflexivity.
Qed.

(** Properties. *)
Definition propP (w r : list T) (x : list T * list T) : Prop := exists w1 s, w = w1 ++ s /\ property_text code w1 (s ++ r) (fst x) (snd x) /\ gap code s r.
Lemma lang_prop : lang n (fresh (skip (property code lit) (whitespace code lit))) propP (stops (in_key code)).
Proof.
  eapply lang_ext; [| |eapply lang_seq; [apply skip_runs|apply lang_property|apply lang_whitespace|lia]].
  - intros w r x _. cbn beta. unfold propP. split.
    + intros [w1 [w2 [a [u [-> [K1 [K2 ->]]]]]]]. eauto.
    + intros [w1 [s [-> [K1 K2]]]]. exists w1, s, x, tt. auto.
  - intros l _. cbn beta. split; [intros [K|[a [K _]]]; [exact K|exfalso; exact (property_ne _ _ _ K)]|auto].
Qed.
Lemma prop_ne r x : ~ propP [] r x.
Proof. intros [w1 [s [K1 [K2 _]]]]. destruct w1; [exact (property_ne _ _ _ K2)|discriminate]. Qed.
Lemma props_star w r l : properties_text code w r l <-> star propP w r l /\ stops (in_key code) r.
Proof.
  split.
  - intros H. induction H as [r K|w s u r k v l K1 K2 K3 [IH1 IH2]]; [split; [constructor|auto]|]. split; [|auto]. rewrite app_assoc. apply star_cons; [|exact IH1].
    exists w, s. auto.
  - intros [H Hs]. induction H as [r|w1 w2 r [k v] l [w [s [-> [K1 K2]]]] H IH]; [apply pt_end; auto|]. rewrite <- app_assoc. apply pt_more; auto.
Qed.
Lemma tidy_sat f : tidy false (satisfy (C:=C) f).
Proof. apply td_unit. Qed.
Lemma tidy_property : tidy false (property code lit).
Proof.
  unfold property. apply td_message, td_map, td_tuple, td_TC; [apply td_many1, tidy_sat|]. apply td_TC; [apply td_unit|]. apply td_T1, td_many1, tidy_sat.
Qed.
Lemma tidy_whitespace : tidy false (whitespace code lit).
Proof. unfold whitespace, skip_many. apply td_parser_fn. apply td_ignore. apply td_many. apply td_ignore. apply td_or. Qed.
Lemma tidy_prop : tidy false (skip (property code lit) (whitespace code lit)).
Proof. apply td_skip; [apply tidy_property|apply tidy_whitespace]. Qed.
Lemma lang_properties : lang n (fresh (properties code lit)) (properties_text code) (fun _ => False).
Proof.
  eapply lang_ext; [| |eapply (lang_many n _ propP _ (tidy_history_free _ _ tidy_prop) Hn); [intros r a; apply prop_ne|apply lang_prop]]; [|tauto].
  intros w r l _. cbn beta. rewrite props_star. reflexivity.
Qed.

(** Sections. *)
Lemma lang_section : lang n (fresh (section code lit)) (fun w r x => section_text code w r (fst x) (snd x)) (stops (is_char code 91)).
Proof.
  apply lang_message. eapply lang_ext; [| |apply lang_map; eapply lang_cons; [eapply lang_between_same; [apply (chr n 91); lia|apply one_ne|
    apply lang_many_sat, (other_iff 93)|apply (chr n 93); lia]|eapply lang_cons; [apply lang_whitespace|apply lang_tuple1, lang_properties]]].
  - intros w r [name l] _. cbn beta. unfold section_text. cbn [fst snd]. split.
    + intros [[nm [u l']] [[w1 [w2 [-> [[a0 [nm2 [b0 [a [b [-> [[-> K1] [[K2 K3] [-> K4]]]]]]]]] [s [x [-> [K5 K6]]]]]]]] K]]. cbn [fst snd] in *. injection K as <- <-.
      apply star_pred in K2. destruct K2 as [-> K2]. exists a, b, s, x. split; [rewrite <- !app_assoc; reflexivity|]. auto 8.
    + intros [a [b [s [u [-> [K1 [K2 [K3 [K4 K5]]]]]]]]]. exists (name, (tt, l)). split; [|reflexivity]. cbn [fst snd]. exists ([a] ++ name ++ [b]), (s ++ u).
      split; [rewrite <- !app_assoc; reflexivity|]. split.
      * exists [a], name, [b], a, b. split; [reflexivity|]. split; [auto|]. split; [|auto]. split; [apply star_pred; auto|]. cbn. tauto.
      * exists s, u. auto.
  - intros l _. cbn beta. split; [|auto]. intros [K|[a [[w1 [w2 [w3 [x [y [K [[-> _] _]]]]]]] _]]]; [exact K|discriminate].
Qed.
Lemma section_ne r name l : ~ section_text code [] r name l.
Proof. intros [a [b [s [u [K _]]]]]. discriminate. Qed.
Lemma sections_star w r l : sections_text code w r l <-> star (fun w r x => section_text code w r (fst x) (snd x)) w r l /\ stops (is_char code 91) r.
Proof.
  split.
  - intros H. induction H as [r K|w u r name l ss K1 K2 [IH1 IH2]]; [split; [constructor|auto]|]. split; [|auto]. apply star_cons; auto.
  - intros [H Hs]. induction H as [r|w1 w2 r [k v] l K1 H IH]; [apply st_end; auto|]. apply st_more; auto.
Qed.
Lemma tidy_section : tidy false (section code lit).
Proof.
  unfold section. apply td_message, td_map, td_tuple, td_TC.
  - unfold between, tup3. apply td_parser_fn. apply td_map. apply td_tuple. apply td_TC; [apply td_unit|]. apply td_TC; [apply td_many, tidy_sat|]. apply td_T1, td_unit.
  - apply td_TC; [apply tidy_whitespace|]. apply td_T1. unfold properties. apply td_many. apply td_skip; [apply tidy_property|apply tidy_whitespace].
Qed.
Lemma lang_ini : lang n (fresh (ini code lit)) (ini_text code) (fun _ => False).
Proof.
  eapply lang_ext; [| |apply lang_map; eapply lang_cons; [apply lang_whitespace|eapply lang_cons; [apply lang_properties|
    apply lang_tuple1; eapply lang_many; [apply tidy_history_free, tidy_section|exact Hn| |apply lang_section]]]].
  - intros w r [g ss] _. cbn beta. unfold ini_text. cbn [i_global i_sections]. split.
    + intros [[u [g' ss']] [[s [w2 [-> [K1 [x [y [-> [K2 [K3 K4]]]]]]]]] K]]. cbn [fst snd] in *. injection K as <- <-. exists s, x, y. rewrite <- app_assoc in K1.
      split; [reflexivity|]. split; [exact K1|]. split; [exact K2|]. apply sections_star. auto.
    + intros [s [u [x [-> [K1 [K2 K3]]]]]]. exists (tt, (g, ss)). split; [|reflexivity]. cbn [fst snd]. exists s, (u ++ x). split; [reflexivity|]. rewrite <- app_assoc. split; [exact K1|].
      exists u, x. split; [reflexivity|]. split; [exact K2|]. apply sections_star. exact K3.
  - intros l _. cbn beta. split; [|intros []]. intros [[]|[a [_ [[]|[b [_ []]]]]]].
  - intros r a. apply section_ne.
Qed.
End Ini.

(** * What is left, and files written from values *)
Section Texts.
Context {X : Type}.
Variable code : X -> N.
Variable lit : N -> X.
Hypothesis code_lit : forall n, (n < 256)%N -> code (lit n) = n.
Notation stop_gap := (stops (fun t => white code t \/ is_char code 59 t)).

Lemma gap_stops w r : gap code w r -> stop_gap r.
Proof. intros G. induction G; auto. Qed.
Lemma props_left u r l : properties_text code u r l -> forall s, gap code s (u ++ r) -> stop_gap r /\ stops (in_key code) r.
Proof.
  intros H. induction H as [r K|w s u r k v l K1 K2 K3 IH]; intros s0 G; [split; [eapply gap_stops; eauto|auto]|]. eapply IH; eauto.
Qed.
Lemma sections_left x r ss : sections_text code x r ss -> stop_gap (x ++ r) /\ stops (in_key code) (x ++ r) -> stop_gap r /\ stops (in_key code) r /\ stops (is_char code 91) r.
Proof.
  intros H. induction H as [r K|w u r name l ss [a [b [s [y [-> [K1 [K2 [K3 [K4 K5]]]]]]]]] K6 IH]; intros G; [tauto|]. apply IH. eapply props_left; eauto.
Qed.
Lemma ini_left w r v : ini_text code w r v -> match r with [] => True | t :: _ => is_char code 61 t end.
Proof.
  intros [s [u [x [-> [K1 [K2 K3]]]]]]. pose proof (sections_left _ _ _ K3 (props_left _ _ _ K2 s K1)) as [G1 [G2 G3]].
  destruct r as [|t r]; [exact I|]. cbn in *. unfold in_key, is_char in *. destruct (N.eq_dec (code t) 61); [auto|]. tauto.
Qed.

Lemma white_nl : white code (lit 10).
Proof. unfold white. rewrite code_lit by lia. cbn. tauto. Qed.
Definition begins_section (r : list X) : Prop := match r with [] => True | t :: _ => code t = 91%N end.
Lemma begins_stop r : begins_section r -> stop_gap r /\ stops (in_key code) r.
Proof.
  destruct r as [|t r]; cbn; [auto|]. intros K. split.
  - unfold white, is_char. rewrite K. intros [H|H]; [|discriminate]. repeat (destruct H as [H|H]; [discriminate|]). destruct H.
  - unfold in_key, is_char. tauto.
Qed.
Lemma wp_cons k v l : write_properties lit ((k, v) :: l) = (k ++ lit 61 :: v) ++ [lit 10] ++ write_properties lit l.
Proof. unfold write_properties. cbn. rewrite <- !app_assoc. cbn. rewrite <- !app_assoc. reflexivity. Qed.
Lemma written_stop l r : Forall (writable_property code) l -> begins_section r -> stop_gap (write_properties lit l ++ r).
Proof.
  intros H Hr. destruct H as [|[k v] l [K1 [K2 [K3 [K4 K5]]]] H]; [apply begins_stop; auto|]. rewrite wp_cons. cbn [fst snd] in *. destruct k as [|t k]; [congruence|].
  cbn in *. inversion K2 as [|? ? K6 K7]; subst. unfold in_key in K6. tauto.
Qed.
Lemma written_props l r : Forall (writable_property code) l -> begins_section r -> properties_text code (write_properties lit l) r l.
Proof.
  intros H Hr. induction H as [|[k v] l [K1 [K2 [K3 [K4 K5]]]] H IH]; [apply pt_end; apply begins_stop; auto|]. rewrite wp_cons. cbn [fst snd] in *. apply pt_more; [| |exact IH].
  - exists (lit 61). split; [reflexivity|]. split; [auto|]. split; [auto|]. split; [apply code_lit; lia|]. split; [auto|]. split; [auto|]. cbn. unfold in_value, is_char. rewrite code_lit by lia. tauto.
  - apply gap_space; [apply white_nl|]. apply gap_end. apply written_stop; auto.
Qed.
Lemma written_sections ss : Forall (fun s => Forall (fun t => ~ is_char code 93 t) (fst s) /\ Forall (writable_property code) (snd s)) ss ->
  let w := concat (List.map (fun s => lit 91 :: fst s ++ lit 93 :: lit 10 :: write_properties lit (snd s)) ss) in
  begins_section w /\ sections_text code w [] ss.
Proof.
  intros H. induction H as [|[name l] ss [K1 K2] H [IH1 IH2]]; [split; [exact I|apply st_end; exact I]|]. cbn [List.map concat fst snd] in *. split; [cbn; apply code_lit; lia|].
  apply st_more; [|exact IH2]. exists (lit 91), (lit 93), [lit 10], (write_properties lit l). split; [reflexivity|]. split; [apply code_lit; lia|]. split; [auto|]. split; [apply code_lit; lia|].
  rewrite app_nil_r. split; [apply gap_space; [apply white_nl|]; apply gap_end, written_stop; auto|]. apply written_props; auto.
Qed.
Lemma written_ini v : writable code v -> ini_text code (write_ini lit v) [] v.
Proof.
  intros [H1 H2]. destruct (written_sections _ H2) as [K1 K2]. unfold write_ini, ini_text. exists [], (write_properties lit (i_global v)).
  eexists. split; [reflexivity|]. rewrite app_nil_r. split; [apply gap_end, written_stop; auto|]. split; [apply written_props; auto|exact K2].
Qed.
End Texts.

(** * Always returns *)
Section Total.
Context {C : Cfg}.
Variable code : tok C -> N.
Variable lit : N -> tok C.
Lemma sol_whitespace z : solid z false false (whitespace code lit).
Proof.
  apply sol_parser_fn, sol_ignore, sol_many, sol_ignore. apply sol_or.
  - apply sol_parser_fn, sol_ignore, sol_many1; [discriminate|]. apply sol_ignore, sol_class.
  - apply sol_map, sol_tuple. apply (sol_TC (n1:=true) (n2:=false)); [apply sol_token|]. apply sol_T1. apply sol_parser_fn, sol_ignore, sol_many, sol_ignore, sol_satisfy.
Qed.
Lemma sol_property z : solid z false true (property code lit).
Proof.
  apply sol_message, sol_map, sol_tuple. apply (sol_TC (n1:=true) (n2:=true)); [apply sol_many1; [discriminate|apply sol_satisfy]|].
  apply (sol_TC (n1:=true) (n2:=true)); [apply sol_token|]. apply sol_T1, sol_many1; [discriminate|apply sol_satisfy].
Qed.
Lemma sol_properties z : solid z false false (properties code lit).
Proof. apply sol_many. apply (sol_skip (n1:=true) (n2:=false)); [apply sol_property|apply sol_whitespace]. Qed.
Lemma sol_section z : solid z false true (section code lit).
Proof.
  apply sol_message, sol_map, sol_tuple. apply (sol_TC (n1:=true) (n2:=false)).
  - apply (sol_between z false true false true); [apply sol_token|apply sol_many, sol_satisfy|apply sol_token].
  - apply (sol_TC (n1:=false) (n2:=false)); [apply sol_whitespace|]. apply sol_T1, sol_properties.
Qed.
Lemma sol_ini z : solid z false false (ini code lit).
Proof.
  apply sol_map, sol_tuple. apply (sol_TC (n1:=false) (n2:=false)); [apply sol_whitespace|]. apply (sol_TC (n1:=false) (n2:=false)); [apply sol_properties|].
  apply sol_T1, sol_many, sol_section.
Qed.
End Total.
