(** Proofs for C67: the MP4 parser. *)
From Coq Require Import String List Bool Arith NArith Lia.
Import ListNotations.
From Verif Require Import Base Parser Errors Token Combinator Sequence Choice Repeat RangeP ByteP Instances JsonM JsonSpec Mp4M Mp4Spec.
From Verif Require Import Spec SeqSpec ChoiceSpec TidySpec RepeatSpec AgreeSpec RangeSpec LibSpec TotalSpec.
From Verif Require Import ResultProofs TokenProofs SeqProofs CombProofs ChoiceProofs CombProofs2 RangeProofs RepeatProofs RepeatProofs2 RepeatProofs4 ByteProofs TidyProofs ForwardProofs AgreeProofs TotalProofs2 LangProofs JsonProofs JsonProofs2 DateProofs IniProofs HttpProofs.
Unset Implicit Arguments.

(** * Generally *)
Section General.
Context {C : Cfg}.
Notation T := (tok C).
Notation E := (Err C).
Lemma iter_panics {S A} (p : parser C S A) (H : history_free false p) : forall i c l i', reps (succeeds (fresh p)) i c l i' -> fresh p i' = Panic ->
  forall n c0 st, leftover false p st -> length l < n -> iter_all n p true c0 i st = Panic.
Proof.
  intros i c l i' R HP. induction R as [i|i c a i1 c' l i' Hok R IH]; intros n c0 st Hst Hn; destruct n as [|n]; try (cbn in Hn; lia); cbn [iter_all].
  - pose proof (H st Hst i) as K. rewrite HP in K. destruct (p_run p true i st); try discriminate. reflexivity.
  - pose proof (H st Hst i) as K. unfold succeeds in Hok. rewrite Hok in K. destruct (p_run p true i st) as [[[r j] st1]| |] eqn:Er; try discriminate.
    cbn in K. injection K as -> ->. assert (H1 : leftover false p st1) by (eapply left_run; [exact Hst|exact Er|right; destruct c; exact I]).
    cbn [obind]. cbn in Hn. destruct c; cbn [okr]; rewrite (IH HP n _ st1 H1) by lia; reflexivity.
Qed.
Lemma many_panics {S A} (p : parser C S A) : history_free false p -> forall i c l i', reps (succeeds (fresh p)) i c l i' -> fresh p i' = Panic -> length l < fuel C ->
  fresh (many p) i = Panic.
Proof. intros H i c l i' R HP Hn. rewrite fresh_many. rewrite (iter_panics p H i c l i' R HP (fuel C) false (p_init p) (left_init _ _) Hn). reflexivity. Qed.

Lemma units_length : is_slice (C:=C) -> forall l : list T, units l = length l.
Proof. intros H l. unfold units. induction l as [|t l IH]; [reflexivity|]. cbn [List.map length]. change (width C t + list_sum (List.map (width C) l) = S (length l)). rewrite (H t), IH. reflexivity. Qed.
Lemma lang_take (L : lawful C) n k : is_slice (C:=C) -> k <> 0 -> lang n (fresh (take (C:=C) k)) (fun w _ a => a = w /\ length w = k) (fun l => length l < k).
Proof.
  intros HS Hk i Hi Hp. destruct (take_spec L k) as [S1 S2]. split.
  - intros c a i'. rewrite S1, (units_length HS). assert (negb (k =? 0) = true) as -> by (destruct k; [congruence|reflexivity]). split.
    + intros [K1 [K2 ->]]. exists a. split; [exact K1|]. split; [destruct a; [cbn in K2; congruence|reflexivity]|auto].
    + intros [w [K1 [-> [-> K2]]]]. split; [exact K1|]. split; [exact K2|]. destruct w; [cbn in K2; congruence|reflexivity].
  - unfold fails. split.
    + intros [e K]. apply S2 in K. destruct K as [K _]. destruct (le_lt_dec k (length (rest i))) as [Hl|Hl]; [|exact Hl]. exfalso.
      apply (K (firstn k (rest i)) (skipn k (rest i))); [symmetry; apply firstn_skipn|]. rewrite (units_length HS), firstn_length. lia.
    + intros K. eexists. apply S2. split; [|split; [symmetry; exact Hp|reflexivity]]. intros l r E. rewrite (units_length HS). rewrite E, app_length in K. lia.
Qed.
Lemma lang_and_then (L : lawful C) n {S A B} (p : parser C S A) (f : A -> B + SErr C) P Q : (forall r a, ~ P [] r a) -> lang n (fresh p) P Q ->
  lang n (fresh (and_then p f)) (fun w r b => exists a, P w r a /\ f a = inl b) Q.
Proof.
  intros HP H i Hi Hp. destruct (H i Hi Hp) as [H1 H2]. destruct (and_then_spec L p f) as [A1 [A2 [A3 A4]]]. split.
  - intros c b i'. rewrite A1. split.
    + intros [a [K1 K2]]. apply H1 in K1. destruct K1 as [w [K1 [K3 K4]]]. eauto 8.
    + intros [w [K1 [K3 [a [K4 K5]]]]]. exists a. split; [apply H1; eauto|exact K5].
  - rewrite <- H2. split; [|intros [e K]; exists e; apply A4; exact K]. intros [e [r [j [K1 [K2 K3]]]]]. unfold fails.
    assert (Q0 : forall c a i', fresh p i <> Done (okr c a, i')).
    { intros c a i' K. destruct (f a) as [b|se] eqn:Ef.
      - assert (K' : succeeds (fresh (and_then p f)) i c b i') by (apply A1; eauto). unfold succeeds in K'. rewrite K' in K1. inversion K1; subst. destruct c; discriminate.
      - pose proof (proj1 (H1 c a i') K) as [w [Ha [-> Hw]]]. destruct w as [|t w]; [exact (HP _ _ Hw)|].
        destruct (A2 i _ a i' se K Ef) as [r' [K4 [K5 _]]]; [left; rewrite (adv_part _ _ _ Ha); exact Hp|]. rewrite K4 in K1. inversion K1; subst. cbn in K5. congruence. }
    unfold fresh, and_then, mk_mode in K1. cbn [p_run p_init] in K1. unfold fresh in Q0.
    destruct (p_run p true i (p_init p)) as [[[[a|a|e0|e0] j0] s0]| |] eqn:Er; cbn in K1; try discriminate.
    + exfalso. apply (Q0 true a j0). reflexivity.
    + exfalso. apply (Q0 false a j0). reflexivity.
    + inversion K1; subst. discriminate.
    + exists (terr e0), (PeekErr e0), j0. unfold fresh. rewrite Er. auto.
Qed.
Lemma lang_val n {A} (a : A) : lang n (fresh (value (C:=C) a)) (fun w _ b => w = [] /\ b = a) (fun _ => False).
Proof.
  intros i Hi Hp. assert (F : fresh (value (C:=C) a) i = Done (PeekOk a, i)) by reflexivity. unfold succeeds, fails, fails_with. rewrite F. split.
  - intros c b i'. split.
    + intros K. inversion K. destruct c; [discriminate|]. inversion H0; subst. exists []. split; [apply adv_self|auto].
    + intros [w [K1 [-> [-> ->]]]]. apply adv_nil in K1. subst. reflexivity.
  - split; [|intros []]. intros [e [r [j [K1 [K2 K3]]]]]. inversion K1; subst. discriminate.
Qed.
End General.

(** * The box parser *)
Section Box.
Context {C : Cfg}.
Notation T := (tok C).
Notation E := (Err C).
Variable L : lawful C.
Hypothesis HS : is_slice (C:=C).
Variable code : T -> N.
Variable lit : N -> T.
Hypothesis code_lit : forall n, (n < 256)%N -> code (lit n) = n.
Hypothesis lit_code : forall t, lit (code t) = t.
Variable utf8 : list T -> bool.
Variable utf8_error : list T -> SErr C.
Variable n : nat.
Hypothesis Hn : n <= fuel C.
Notation brand := (brand utf8).
Notation tagged := (tagged code).

Lemma lang_brand : lang n (fresh (brand_name utf8 utf8_error)) (fun w _ a => a = w /\ brand w) (fun l => length l < 4).
Proof.
  eapply lang_ext; [| |apply (lang_and_then L n); [|apply (lang_take L n 4 HS); discriminate]].
  - intros w r b _. cbn beta. unfold Mp4Spec.brand. split.
    + intros [a [[-> K1] K2]]. destruct (utf8 w) eqn:Eu; [|discriminate]. injection K2 as <-. auto.
    + intros [-> [K1 K2]]. exists w. rewrite K2. auto.
  - tauto.
  - intros r a [_ K]. discriminate.
Qed.
Lemma star_brand w r c : star (fun w (_ : list T) a => a = w /\ brand w) w r c <-> w = concat c /\ Forall brand c.
Proof.
  rewrite (star_texts (fun w a => a = w /\ brand w)). split.
  - intros [ws [-> H]]. induction H as [|w1 a ws l [-> K1] K2 [IH1 IH2]]; cbn; [auto|]. split; [congruence|constructor; auto].
  - intros [-> H]. exists c. split; [reflexivity|]. induction H; constructor; auto.
Qed.
Lemma ascii_chars s : Forall (fun c => (c < 256)%N) (chars s).
Proof. induction s as [|a s IH]; cbn; [constructor|]. constructor; [apply Ascii.N_ascii_bounded|exact IH]. Qed.
Lemma lang_tag s : chars s <> [] -> lang n (fresh (range (blits lit s))) (fun w _ a => a = w /\ List.map code w = chars s) (fun l => ~ tagged s l).
Proof.
  intros Hs. pose proof (map_code_lit code lit code_lit lit_code (chars s)) as M. eapply lang_ext; [| |apply (lang_range L n)].
  - intros w r a _. cbn beta. rewrite M by apply ascii_chars. unfold blits. split; intros [K1 K2]; subst; auto.
  - intros l _. cbn beta. unfold Mp4Spec.tagged. split.
    + intros K [t [r [-> K1]]]. apply M in K1; [|apply ascii_chars]. subst t. apply (K r). reflexivity.
    + intros K r ->. apply K. exists (blits lit s), r. split; [reflexivity|]. apply M; [apply ascii_chars|reflexivity].
  - unfold blits. destruct (chars s); [congruence|discriminate].
Qed.
Definition ftypP (w r : list T) (b : mp4_v T) : Prop :=
  exists m v c t, b = Ftyp m v c /\ w = t ++ m ++ v ++ concat c /\ List.map code t = chars "ftyp" /\ brand m /\ length v = 4 /\ Forall brand c /\ length r < 4.
Lemma hf_brand : history_free false (brand_name utf8 utf8_error).
Proof. apply hf_unit. Qed.
Lemma lang_filetype : lang n (fresh (filetype_box lit utf8 utf8_error)) ftypP (fun l => ~ tagged "ftyp" l).
Proof.
  eapply lang_ext; [| |apply lang_map; eapply lang_cons; [apply lang_tag; discriminate|eapply lang_cons; [apply lang_brand|eapply lang_cons; [apply (lang_take L n 4 HS); discriminate|
    apply lang_tuple1; eapply (lang_many n _ (fun w _ a => a = w /\ brand w) _ hf_brand Hn); [intros r a [_ [K _]]; discriminate|apply lang_brand]]]]].
  - intros w r b _. cbn beta. unfold ftypP. split.
    + intros [[t0 [m [v c]]] [[w1 [? [-> [[K1 K2] [w2 [? [-> [[K3 K4] [w3 [w4 [-> [[K5 K6] [K7 K8]]]]]]]]]]]]] ->]]. cbn [fst snd] in *. subst w1 w2 w3.
      apply star_brand in K7. destruct K7 as [-> K7]. exists m, v, c, t0. auto 8.
    + intros [m [v [c [t [-> [-> [K1 [K2 [K3 [K4 K5]]]]]]]]]]. exists (t, (m, (v, c))). split; [|reflexivity]. cbn [fst snd].
      exists t. eexists. split; [reflexivity|]. split; [auto|]. exists m. eexists. split; [reflexivity|]. split; [auto|]. exists v, (concat c). split; [reflexivity|]. split; [auto|].
      split; [apply star_brand; auto|exact K5].
  - intros l _. cbn beta. split; [|auto]. intros [K|[a [[_ K] _]]]; [exact K|discriminate].
Qed.
Lemma lang_const s (x : mp4_v T) : chars s <> [] -> lang n (fresh (map (range (blits lit s)) (fun _ => x))) (fun w _ b => List.map code w = chars s /\ b = x) (fun l => ~ tagged s l).
Proof.
  intros Hs. eapply lang_ext; [| |apply lang_map, lang_tag, Hs]; [|tauto]. intros w r b _. cbn beta. split; [intros [a [[_ K] ->]]; auto|]. intros [K ->]. exists w. auto.
Qed.
Definition alternatives : list ((list T -> list T -> mp4_v T -> Prop) * (list T -> Prop)) :=
  [(ftypP, fun l => ~ tagged "ftyp" l); (fun w _ b => List.map code w = chars "moov" /\ b = Moov, fun l => ~ tagged "moov" l);
   (fun w _ b => List.map code w = chars "mdat" /\ b = Mdat, fun l => ~ tagged "mdat" l); (fun w _ b => List.map code w = chars "free" /\ b = Free, fun l => ~ tagged "free" l);
   (fun w _ b => List.map code w = chars "skip" /\ b = Skip, fun l => ~ tagged "skip" l); (fun w _ b => List.map code w = chars "wide" /\ b = Wide, fun l => ~ tagged "wide" l);
   (fun w _ b => w = [] /\ b = Unknown, fun _ => False)].
Lemma lang_box : lang n (fresh (box_parser lit utf8 utf8_error)) (choiceP alternatives) (choiceQ alternatives).
Proof.
  apply lang_choice. cbn [alts_beh]. unfold alternatives. constructor; [apply lang_filetype|]. do 5 (constructor; [apply lang_const; discriminate|]).
  constructor; [apply lang_val|constructor].
Qed.
Lemma tagged_excl s s' d : tagged s d -> tagged s' d -> length (chars s) = length (chars s') -> chars s = chars s'.
Proof.
  intros [t [r [-> K1]]] [t' [r' [K2 K3]]] Hl. assert (length t = length t') by (rewrite <- (map_length code t), <- (map_length code t'), K1, K3; exact Hl).
  assert (t = t'). { apply (f_equal (firstn (length t))) in K2. rewrite firstn_app, Nat.sub_diag, firstn_O, app_nil_r, firstn_all in K2. rewrite H, firstn_app, Nat.sub_diag, firstn_O, app_nil_r, firstn_all in K2. exact K2. }
  congruence.
Qed.
Lemma ftyp_tagged w r b : ftypP w r b -> tagged "ftyp" (w ++ r).
Proof. intros [m [v [c [t [-> [-> [K1 _]]]]]]]. exists t. eexists. split; [rewrite <- app_assoc; reflexivity|exact K1]. Qed.
Lemma box_of_iff d b : box_of code utf8 d b <-> exists w r, d = w ++ r /\ choiceP alternatives w r b.
Proof.
  assert (X : forall s s' : string, length (chars s) = length (chars s') -> chars s <> chars s' -> tagged s d -> ~ tagged s' d).
  { intros s s' Hl He K K'. exact (He (tagged_excl s s' d K K' Hl)). }
  split.
  - destruct b; cbn [box_of].
    + intros [t [r [-> [K1 [K2 [K3 [K4 K5]]]]]]]. exists (t ++ major_brand ++ major_brand_version ++ concat compatible_brands), r. split; [rewrite <- !app_assoc; reflexivity|]. left.
      exists major_brand, major_brand_version, compatible_brands, t. auto 8.
    + intros K. pose proof K as [t [r [E K1]]]. exists t, r. split; [exact E|]. cbn. rewrite <- E. right. split; [eapply X; [| |exact K]; [reflexivity|discriminate]|]. auto.
    + intros K. pose proof K as [t [r [E K1]]]. exists t, r. split; [exact E|]. cbn. rewrite <- E. do 2 (right; split; [eapply X; [| |exact K]; [reflexivity|discriminate]|]). auto.
    + intros K. pose proof K as [t [r [E K1]]]. exists t, r. split; [exact E|]. cbn. rewrite <- E. do 3 (right; split; [eapply X; [| |exact K]; [reflexivity|discriminate]|]). auto.
    + intros K. pose proof K as [t [r [E K1]]]. exists t, r. split; [exact E|]. cbn. rewrite <- E. do 4 (right; split; [eapply X; [| |exact K]; [reflexivity|discriminate]|]). auto.
    + intros K. pose proof K as [t [r [E K1]]]. exists t, r. split; [exact E|]. cbn. rewrite <- E. do 5 (right; split; [eapply X; [| |exact K]; [reflexivity|discriminate]|]). auto.
    + intros K. exists [], d. split; [reflexivity|]. cbn. do 6 (right; split; [apply K; cbn; tauto|]). auto.
  - intros [w [r [-> K]]]. cbn [alternatives choiceP] in K.
    destruct K as [[m [v [c [t [-> [-> [K1 [K2 [K3 [K4 K5]]]]]]]]]]|[Q1 K]]; [exists t, r; rewrite <- !app_assoc; auto 8|].
    destruct K as [[K1 ->]|[Q2 K]]; [exists w, r; auto|]. destruct K as [[K1 ->]|[Q3 K]]; [exists w, r; auto|]. destruct K as [[K1 ->]|[Q4 K]]; [exists w, r; auto|].
    destruct K as [[K1 ->]|[Q5 K]]; [exists w, r; auto|]. destruct K as [[K1 ->]|[Q6 [-> ->]]]; [exists w, r; auto|]. cbn.
    intros s Hs. repeat (destruct Hs as [<-|Hs]; [assumption|]). destruct Hs.
Qed.
End Box.

(** * The data of a box *)
Section Data.
Variable X : Type.
Variable code : X -> N.
Variable utf8 : list X -> bool.
Notation brand := (brand utf8).
Lemma brands_cover : forall m x, length x <= m ->
  (exists c r, x = concat c ++ r /\ Forall brand c /\ length r < 4) \/ (exists k, 4 * k + 4 <= length x /\ utf8 (firstn 4 (skipn (4 * k) x)) = false).
Proof.
  induction m as [|m IH]; intros x Hx.
  - destruct x; [|cbn in Hx; lia]. left. exists [], []. cbn. repeat split; [constructor|lia].
  - destruct (le_lt_dec 4 (length x)) as [H4|H4]; [|left; exists [], x; auto].
    destruct (utf8 (firstn 4 x)) eqn:U; [|right; exists 0; cbn [skipn]; auto with arith].
    destruct (IH (skipn 4 x)) as [[c [r [K1 [K2 K3]]]]|[k [K1 K2]]]; [rewrite skipn_length; lia| |].
    + left. exists (firstn 4 x :: c), r. cbn [concat]. rewrite <- app_assoc, <- K1, firstn_skipn. split; [reflexivity|]. split; [|exact K3]. constructor; [|exact K2].
      split; [rewrite firstn_length; lia|exact U].
    + right. exists (Datatypes.S k). rewrite skipn_length in K1. split; [lia|]. rewrite <- K2. f_equal. f_equal. replace (4 * Datatypes.S k) with (4 * k + 4) by lia.
      rewrite <- (firstn_skipn 4 x) at 1. rewrite skipn_app, skipn_all2 by (rewrite firstn_length; lia). cbn [app]. f_equal. rewrite firstn_length. lia.
Qed.
Lemma skipn_twice (a b : nat) : forall x : list X, skipn a (skipn b x) = skipn (b + a) x.
Proof. induction b as [|b IH]; intros [|y x]; cbn; try reflexivity; [apply skipn_nil|apply IH]. Qed.
Lemma firstn_pre k (b x : list X) : length b = k -> firstn k (b ++ x) = b.
Proof. intros <-. rewrite firstn_app, Nat.sub_diag, firstn_O, app_nil_r, firstn_all. reflexivity. Qed.
Lemma brands_excl : forall c r, Forall brand c -> length r < 4 -> forall k, 4 * k + 4 <= length (concat c ++ r) -> utf8 (firstn 4 (skipn (4 * k) (concat c ++ r))) = true.
Proof.
  intros c r H Hr. induction H as [|b c [B1 B2] H IH]; intros k Hk; cbn [concat app] in *; [lia|].
  rewrite <- app_assoc in *. destruct k as [|k].
  - rewrite Nat.mul_0_r. cbn [skipn]. rewrite (firstn_pre 4 b) by exact B1. exact B2.
  - rewrite app_length in Hk. replace (4 * Datatypes.S k) with (length b + 4 * k) by lia. rewrite skipn_app, skipn_all2 by lia. cbn [app]. replace (length b + 4 * k - length b) with (4 * k) by lia. apply IH. lia.
Qed.
Lemma tagged_dec s d : {tagged code s d} + {~ tagged code s d}.
Proof.
  destruct (list_eq_dec N.eq_dec (List.map code (firstn (length (chars s)) d)) (chars s)) as [E|E]; [left|right].
  - exists (firstn (length (chars s)) d), (skipn (length (chars s)) d). rewrite firstn_skipn. auto.
  - intros [t [r [-> K]]]. apply E. rewrite <- K, map_length, firstn_app, Nat.sub_diag, firstn_O, app_nil_r, firstn_all. reflexivity.
Qed.
Lemma box_cover d : (exists b, box_of code utf8 d b) \/ bad_ftyp code utf8 d.
Proof.
  destruct (tagged_dec "ftyp" d) as [[t [r [-> Kt]]]|N1].
  - destruct (le_lt_dec 8 (length r)) as [H8|H8]; [|right; exists t, r; auto].
    destruct (utf8 (firstn 4 r)) eqn:U; [|right; exists t, r; auto].
    destruct (brands_cover _ (skipn 8 r) (le_n _)) as [[c [r' [K1 [K2 K3]]]]|[k [K1 K2]]].
    + left. exists (Ftyp (firstn 4 r) (firstn 4 (skipn 4 r)) c). exists t, r'. split; [|split; [exact Kt|split; [split; [rewrite firstn_length; lia|exact U]|]]].
      * f_equal. rewrite <- K1. rewrite <- (firstn_skipn 4 r) at 1. f_equal. rewrite <- (firstn_skipn 4 (skipn 4 r)) at 1. f_equal. rewrite skipn_twice. reflexivity.
      * split; [rewrite firstn_length, skipn_length; lia|]. auto.
    + right. exists t, r. split; [reflexivity|]. split; [exact Kt|]. right. right. exists k. rewrite skipn_length in K1. split; [lia|]. rewrite <- K2. f_equal. f_equal.
      rewrite skipn_twice. reflexivity.
  - left. destruct (tagged_dec "moov" d) as [K|N2]; [exists Moov; exact K|]. destruct (tagged_dec "mdat" d) as [K|N3]; [exists Mdat; exact K|].
    destruct (tagged_dec "free" d) as [K|N4]; [exists Free; exact K|]. destruct (tagged_dec "skip" d) as [K|N5]; [exists Skip; exact K|].
    destruct (tagged_dec "wide" d) as [K|N6]; [exists Wide; exact K|]. exists Unknown. intros s Hs. repeat (destruct Hs as [<-|Hs]; [assumption|]). destruct Hs.
Qed.
Lemma prefix_eq (a b c d : list X) : a ++ b = c ++ d -> length a = length c -> a = c /\ b = d.
Proof. revert c. induction a as [|x a IH]; intros [|y c] H L; cbn in *; try discriminate; [auto|]. injection H as -> H. destruct (IH c H) as [-> ->]; auto. Qed.
Lemma tag_length s t : List.map code t = chars s -> length t = length (chars s).
Proof. intros H. rewrite <- H, map_length. reflexivity. Qed.
Lemma box_excl d b : box_of code utf8 d b -> bad_ftyp code utf8 d -> False.
Proof.
  intros H [t [r [-> [Kt K]]]].
  assert (X0 : forall s, length (chars s) = 4 -> chars s <> chars "ftyp" -> ~ tagged code s (t ++ r)).
  { intros s Hl He [t' [r' [E E']]]. apply prefix_eq in E; [|rewrite (tag_length _ _ Kt), (tag_length _ _ E'); auto]. destruct E as [-> _]. apply He. congruence. }
  destruct b; cbn [box_of] in H; try (eapply X0; [| |exact H]; [reflexivity|discriminate]).
  - destruct H as [t' [r' [E [K1 [[B1 B2] [K3 [K4 K5]]]]]]]. apply prefix_eq in E; [|rewrite (tag_length _ _ Kt), (tag_length _ _ K1); auto]. destruct E as [-> ->].
    destruct K as [K|[K|[k [K K']]]].
    + rewrite !app_length in K. lia.
    + rewrite firstn_pre in K by exact B1. congruence.
    + assert (skipn (8 + 4 * k) (major_brand ++ major_brand_version ++ concat compatible_brands ++ r') = skipn (4 * k) (concat compatible_brands ++ r')) as Q.
      { rewrite app_assoc. rewrite skipn_app, skipn_all2 by (rewrite app_length; lia). cbn [app]. f_equal. rewrite app_length. lia. }
      rewrite Q in K'. rewrite brands_excl in K'; [discriminate|auto|auto|]. rewrite !app_length in *. lia.
  - apply (H "ftyp"%string); [cbn; auto|]. exists t, r. auto.
Qed.
(** What a file goes on with. *)
Lemma step_cover (l : list X) : length l < 4 \/ small_box code l \/ bad_box code utf8 l \/ exists w b r, l = w ++ r /\ box_text code utf8 w b.
Proof.
  destruct (le_lt_dec 4 (length l)) as [H|H]; [right|auto]. destruct l as [|a [|b [|c [|d x]]]]; cbn in H; try lia. clear H.
  set (n := (code a * 16777216 + code b * 65536 + code c * 256 + code d)%N).
  assert (Z : size_of code [a; b; c; d] n) by (exists a, b, c, d; auto). clearbody n. change (a :: b :: c :: d :: x) with ([a; b; c; d] ++ x).
  destruct (N.lt_ge_cases n 4) as [H|H]; [left; exists [a; b; c; d], x, n; auto|right].
  destruct (N.lt_ge_cases (N.of_nat (4 + length x)) n) as [H1|H1]; [left; exists [a; b; c; d], x, n; auto|].
  set (k := N.to_nat n - 4). assert (Hk : n = N.of_nat (4 + length (firstn k x))) by (rewrite firstn_length; unfold k; lia).
  destruct (box_cover (firstn k x)) as [[v K]|K].
  - right. exists ([a; b; c; d] ++ firstn k x), v, (skipn k x). split; [rewrite <- app_assoc, firstn_skipn; reflexivity|]. exists [a; b; c; d], (firstn k x), n. auto.
  - left. exists [a; b; c; d], x, n. split; [reflexivity|]. split; [exact Z|]. split; [exact H|]. right. exists (firstn k x), (skipn k x). rewrite firstn_skipn. auto.
Qed.
Lemma box_text_size w b : box_text code utf8 w b -> 4 <= length w.
Proof. intros [s [d [n [-> [[p [q [u [v [-> _]]]]] _]]]]]. cbn. lia. Qed.
Lemma file_cover : forall m (l : list X), length l <= m -> exists ws bs r, l = concat ws ++ r /\ Forall2 (box_text code utf8) ws bs /\ (length r < 4 \/ small_box code r \/ bad_box code utf8 r).
Proof.
  induction m as [|m IH]; intros l Hl; destruct (step_cover l) as [K|[K|[K|[w [b [r [-> K]]]]]]]; try (exists [], [], l; cbn; auto; fail).
  - apply box_text_size in K. rewrite app_length in Hl. lia.
  - destruct (IH r) as [ws [bs [r' [-> [K1 K2]]]]]; [apply box_text_size in K; rewrite app_length in Hl; lia|].
    exists (w :: ws), (b :: bs), r'. cbn [concat]. rewrite <- app_assoc. auto.
Qed.
End Data.

(** * The file *)
Section Panics.
Context {C : Cfg}.
Notation E := (Err C).
Lemma then_panics {S1 A S2 B} (p : parser C S1 A) (s0 : S2) (f : A -> parser C S2 B) i c a i1 : succeeds (fresh p) i c a i1 -> p_init (f a) = s0 -> cmode_agrees (f a) ->
  fresh (f a) i1 = Panic -> fresh (then_ p s0 f) i = Panic.
Proof.
  intros H Hi Hc HP. pose proof (Hc true i1 (p_init (f a))) as K. unfold succeeds in H. unfold fresh in *. cbn. rewrite andb_false_r.
  destruct (p_run p true i (p_init p)) as [[[r j] s1]| |]; try discriminate. cbn in H. injection H as -> ->.
  destruct (p_run (f a) true i1 (p_init (f a))) as [[[r j] s2]| |]; try discriminate. destruct (p_cmode (f a) true i1 (p_init (f a))) as [[[r2 j2] s3]| |] eqn:Ec; try contradiction.
  destruct c; cbn; rewrite <- Hi, Ec; reflexivity.
Qed.
Lemma flat_map_panics {S A B} (p : parser C S A) (f : A -> B + E) i : fresh p i = Panic -> fresh (flat_map p f) i = Panic.
Proof. unfold fresh. cbn. intros H. destruct (p_run p true i (p_init p)) as [[[r j] s]| |]; try discriminate. reflexivity. Qed.
Lemma solid_parses (L : lawful C) z b n {S A} (p : parser C S A) : solid z b n p -> forall i, fits z i -> returns (parse p i).
Proof. intros H i Hi. destruct (solid_stream L z b n S A p H i Hi) as [r [i' [K _]]]. unfold parse. rewrite K. eexists. reflexivity. Qed.
Lemma parse_panics {S A} (p : parser C S A) i : stream_agrees p -> (parse p i = Panic <-> fresh p i = Panic).
Proof. intros H. specialize (H i). unfold parse. destruct (fresh p i) as [[r j]| |], (p_stream p i) as [[r2 j2]| |]; cbn; intuition discriminate. Qed.
Lemma parse_fails {S A} (p : parser C S A) i c : stream_agrees p -> fails (fresh p) i c -> exists e j, parse p i = Done (inr e, j).
Proof.
  intros H [e [r [j [K1 [K2 K3]]]]]. specialize (H i). rewrite K1 in H. unfold parse. destruct (p_stream p i) as [[r2 j2]| |]; try contradiction.
  destruct H as [H _]. unfold shape in H. injection H as _ H. destruct r; try discriminate; destruct r2; try discriminate; cbn; eauto.
Qed.
End Panics.

Section File.
Context {C : Cfg}.
Notation T := (tok C).
Notation E := (Err C).
Variable L : lawful C.
Hypothesis HS : is_slice (C:=C).
Variable code : T -> N.
Variable lit : N -> T.
Hypothesis code_lit : forall n, (n < 256)%N -> code (lit n) = n.
Hypothesis lit_code : forall t, lit (code t) = t.
Variable utf8 : list T -> bool.
Variable utf8_error : list T -> SErr C.
Variable p0 : Pos C.
Notation interp := (interpret lit utf8 utf8_error p0).
Notation item := (data_interpreter code lit utf8 utf8_error p0).
Notation box_text := (box_text code utf8).
Notation small_box := (small_box code).
Notation bad_box := (bad_box code utf8).

Lemma sol_brand z b : solid z b true (brand_name utf8 utf8_error (C:=C)).
Proof. apply sol_and_then. apply (sol_take z b 4). Qed.
Lemma sol_lits z s : solid z false false (range (C:=C) (blits lit s)).
Proof. pose proof (sol_range z false (blits lit s)) as K. destruct (range_len (blits lit s) =? 0); [exact K|apply sol_weak_n; exact K]. Qed.
Lemma sol_box z : solid z false false (box_parser lit utf8 utf8_error).
Proof.
  apply sol_choice. apply sol_AC; [apply sol_weak_n, sol_map, sol_tuple; apply (sol_TC (n1:=false) (n2:=true)); [apply sol_lits|];
    apply (sol_TC (n1:=true) (n2:=true)); [apply sol_brand|]; apply (sol_TC (n1:=true) (n2:=false)); [apply (sol_take _ _ 4)|]; apply sol_T1, sol_many, sol_brand|].
  do 5 (apply sol_AC; [apply sol_map, sol_lits|]). apply sol_AL, sol_value.
Qed.
Lemma interpret_iff d b : 2 * length d + 1 < fuel C -> (interp d = inl b <-> box_of code utf8 d b).
Proof.
  intros Hf. rewrite (box_of_iff code utf8 utf8_error). unfold interpret.
  pose proof (lang_box L HS code lit code_lit lit_code utf8 utf8_error (S (length d)) ltac:(lia)) as HL.
  pose proof (lang_parse _ _ _ _ (default_stream_agrees (box_parser lit utf8 utf8_error) eq_refl) HL (Inp d p0 false) (le_n _) eq_refl) as K.
  assert (F : fits (S (length d)) (@Inp C d p0 false)) by (split; [cbn; lia|exact Hf]).
  destruct (solid_parses L _ _ _ _ (sol_box (S (length d))) _ F) as [[[v|e] j] Ep]; rewrite Ep in K |- *.
  - split.
    + intros Q. injection Q as <-. destruct (K v j) as [K1 _]. destruct (K1 eq_refl) as [w [[Ka _] Kb]]. exists w, (rest j). auto.
    + intros [w [r [-> Q]]]. destruct (K b (advance (Inp (w ++ r) p0 false) w r)) as [_ K2].
      assert (Y : Done (inl v, j) = Done (inl b, advance (Inp (w ++ r) p0 false) w r)) by (apply K2; exists w; split; [apply advance_by; reflexivity|exact Q]). congruence.
  - split; [discriminate|]. intros [w [r [-> Q]]]. destruct (K b (advance (Inp (w ++ r) p0 false) w r)) as [_ K2].
    assert (Y : Done (inr e, j) = Done (inl b, advance (Inp (w ++ r) p0 false) w r)) by (apply K2; exists w; split; [apply advance_by; reflexivity|exact Q]). discriminate.
Qed.
Lemma interpret_bad d : 2 * length d + 1 < fuel C -> bad_ftyp code utf8 d -> exists e, interp d = inr e.
Proof.
  intros Hf H. destruct (interp d) as [b|e] eqn:Ei; [|eauto]. exfalso. apply interpret_iff in Ei; [|exact Hf]. exact (box_excl T code utf8 d b Ei H).
Qed.
Lemma size_be s n : size_of code s n -> length s = 4 /\ be_value (List.map code s) = n.
Proof.
  intros [a [b [c [d [-> ->]]]]]. split; [reflexivity|]. cbn [List.map]. rewrite !be_value_cons. cbn [length]. unfold be_value. cbn [fold_left].
  change (256 ^ N.of_nat 3)%N with 16777216%N. change (256 ^ N.of_nat 2)%N with 65536%N. change (256 ^ N.of_nat 1)%N with 256%N. change (256 ^ N.of_nat 0)%N with 1%N. lia.
Qed.
Lemma rest_agrees o : cmode_agrees (box_rest (C:=C) o).
Proof. unfold box_rest. destruct (4 <=? o)%N; [|destruct (dbg C)]; apply default_cmode_agrees; reflexivity. Qed.
Lemma rest_init o : p_init (box_rest (C:=C) o) = tt.
Proof. destruct (p_init (box_rest o)). reflexivity. Qed.
Lemma size_ok i s x n : rest i = s ++ x -> size_of code s n -> succeeds (fresh (be_u code 4)) i true n (advance i s x).
Proof.
  intros Hr Hz. apply size_be in Hz. destruct Hz as [Z1 <-]. apply (proj1 (num_parser_spec code 4 be_value)). exists s. split; [exact Z1|]. split; [apply advance_by; exact Hr|auto].
Qed.
Lemma take_fails k (i : input C) : length (rest i) < k -> exists c, fails (fresh (take (C:=C) k)) i c.
Proof.
  intros H. exists (ipart i). eexists. apply (proj2 (take_spec L k)). split; [|split; reflexivity]. intros l r Hr. rewrite (units_length HS). rewrite Hr, app_length in H. lia.
Qed.
Lemma box_then : runs_after (fresh (be_u code 4)) (fun a => fresh (box_rest a)) (fun _ b => b) (fresh (mp4_box code)).
Proof. exact (then_runs (be_u code 4) tt (box_rest (C:=C)) rest_init rest_agrees). Qed.
Lemma box_fails i c : fails (fresh (mp4_box code)) i c -> fails (fresh item) i c.
Proof. intros [e K]. exists e. apply (proj2 (flat_map_spec _ _)). left. exact K. Qed.
Lemma item_short i : length (rest i) < 4 -> ipart i = false -> fails (fresh item) i false.
Proof.
  intros H Hp. apply box_fails. destruct box_then as [_ R].
  apply R. left. eexists. apply (proj1 (proj2 (num_parser_spec code 4 be_value))). split; [exact H|]. rewrite Hp. auto.
Qed.
Lemma item_small_panics i : small_box (rest i) -> dbg C = true -> fresh item i = Panic.
Proof.
  intros [s [x [n [Hr [Hz Hn]]]]] Hd. apply flat_map_panics. eapply then_panics; [apply (size_ok i s x n Hr Hz)|apply rest_init|apply rest_agrees|].
  unfold box_rest. assert ((4 <=? n)%N = false) as -> by (apply N.leb_gt; exact Hn). rewrite Hd. apply (fresh_lazy (fun _ => Panic)).
Qed.
Lemma item_small_fails i : small_box (rest i) -> dbg C = false -> (N.of_nat (length (rest i)) < 2 ^ 64 - 4)%N -> fails (fresh item) i true.
Proof.
  intros [s [x [n [Hr [Hz Hn]]]]] Hd Hl. apply box_fails. destruct box_then as [_ R]. apply R. right.
  destruct (take_fails (N.to_nat (n + 2 ^ 64 - 4)) (advance i s x)) as [c K].
  { rewrite Hr, app_length in Hl. unfold advance. cbn [rest]. rewrite <- (Nat2N.id (length x)). set (z := (2 ^ 64)%N) in *. clearbody z. lia. }
  exists true, n, (advance i s x), c. split; [apply size_ok; auto|]. split; [|reflexivity]. unfold box_rest.
  assert ((4 <=? n)%N = false) as -> by (apply N.leb_gt; exact Hn). rewrite Hd. exact K.
Qed.
Lemma rest_ok n (d x : list T) i : n = N.of_nat (4 + length d) -> rest i = d ++ x -> exists c, succeeds (fresh (box_rest n)) i c d (advance i d x).
Proof.
  intros -> Hr. exists (negb (length d =? 0)). unfold box_rest. assert ((4 <=? N.of_nat (4 + length d))%N = true) as -> by (apply N.leb_le; lia).
  replace (N.to_nat (N.of_nat (4 + length d) - 4)) with (length d) by lia. apply (proj1 (take_spec L (length d))).
  split; [apply advance_by; exact Hr|]. split; [apply (units_length HS)|reflexivity].
Qed.
Lemma box_ok i s d x n : rest i = s ++ d ++ x -> size_of code s n -> n = N.of_nat (4 + length d) ->
  succeeds (fresh (mp4_box code)) i true d (advance (advance i s (d ++ x)) d x).
Proof.
  intros Hr Hz Hn. destruct box_then as [R _]. apply R. destruct (rest_ok n d x (advance i s (d ++ x)) Hn eq_refl) as [c K].
  exists true, n, (advance i s (d ++ x)), c, d. split; [apply size_ok; auto|]. split; [exact K|]. split; reflexivity.
Qed.
Lemma item_ok i w b r : rest i = w ++ r -> box_text w b -> 2 * length (rest i) + 1 < fuel C -> succeeds (fresh item) i true b (advance i w r).
Proof.
  intros Hr [s [d [n [-> [Hz [Hn Hb]]]]]] Hf. rewrite <- app_assoc in Hr. apply (proj1 (flat_map_spec _ _)). exists d. split.
  - assert (advance i (s ++ d) r = advance (advance i s (d ++ r)) d r) as ->.
    { apply (advanced_by_eq i (s ++ d)); [apply advance_by; rewrite <- app_assoc; exact Hr|]. eapply adv_by_trans; apply advance_by; [exact Hr|reflexivity]. }
    apply (box_ok i s d r n); auto.
  - apply interpret_iff; [|exact Hb]. rewrite Hr, !app_length in Hf. lia.
Qed.
Lemma item_bad i : bad_box (rest i) -> 2 * length (rest i) + 1 < fuel C -> fails (fresh item) i true.
Proof.
  intros [s [d [n [Hr [Hz [Hn [K|[d1 [d2 [-> [K1 K2]]]]]]]]]]] Hf.
  - apply box_fails. destruct box_then as [_ R]. apply R. right. destruct (take_fails (N.to_nat (n - 4)) (advance i s d)) as [c F]; [unfold advance; cbn [rest]; lia|].
    exists true, n, (advance i s d), c. split; [apply size_ok; auto|]. split; [|reflexivity]. unfold box_rest.
    assert ((4 <=? n)%N = true) as -> by (apply N.leb_le; exact Hn). exact F.
  - destruct (interpret_bad d1) as [e Ke]; [rewrite Hr, !app_length in Hf; lia|exact K2|]. exists e. apply (proj2 (flat_map_spec _ _)). right.
    exists d1. eexists. split; [apply (box_ok i s d1 d2 n); auto|exact Ke].
Qed.
Lemma hf_item : history_free false item.
Proof. apply tidy_history_free. apply td_flat_map, td_then, td_unit. Qed.
Lemma file_reps ws bs : Forall2 box_text ws bs -> forall i r, rest i = concat ws ++ r -> 2 * length (rest i) + 1 < fuel C ->
  exists c, reps (succeeds (fresh item)) i c bs (advance i (concat ws) r) /\ length bs <= length (concat ws).
Proof.
  induction 1 as [|w b ws bs Hw H IH]; intros i r Hr Hf.
  - exists false. cbn [concat] in *. replace (advance i [] r) with i; [split; [constructor|auto]|].
    apply (advanced_by_eq i []); [apply adv_self|apply advance_by; exact Hr].
  - cbn [concat] in *. rewrite <- app_assoc in Hr. destruct (IH (advance i w (concat ws ++ r)) r eq_refl) as [c [K1 K2]].
    { unfold advance. cbn [rest]. rewrite Hr in Hf. rewrite !app_length in *. lia. }
    exists (true || c). split.
    + replace (advance i (w ++ concat ws) r) with (advance (advance i w (concat ws ++ r)) (concat ws) r).
      * econstructor; [apply (item_ok i w b _ Hr Hw Hf)|exact K1].
      * apply (advanced_by_eq i (w ++ concat ws)); [eapply adv_by_trans; apply advance_by; [exact Hr|reflexivity]|apply advance_by; rewrite <- app_assoc; exact Hr].
    + pose proof (box_text_size T code utf8 w b Hw). cbn [length]. rewrite app_length. lia.
Qed.
Lemma many_agrees : stream_agrees (many item).
Proof. apply default_stream_agrees. reflexivity. Qed.
Section Run.
Variable i : input C.
Hypothesis Hf : 2 * length (rest i) + 1 < fuel C.
Hypothesis Hp : ipart i = false.
Notation run := (parse_mp4 code lit utf8 utf8_error p0 i).
Lemma run_ok ws bs r : rest i = concat ws ++ r -> Forall2 box_text ws bs -> length r < 4 -> run = Done (inl bs, advance i (concat ws) r).
Proof.
  intros Hr H Hl. destruct (file_reps ws bs H i r Hr Hf) as [c [R1 R2]]. apply (parse_succeeds _ _ _ _ many_agrees). exists c.
  apply (many_ok _ hf_item). split; [exact R1|]. split; [apply item_short; [exact Hl|exact Hp]|]. rewrite Hr, app_length in Hf. lia.
Qed.
Lemma run_fails ws bs r : rest i = concat ws ++ r -> Forall2 box_text ws bs -> bad_box r \/ small_box r /\ dbg C = false /\ (N.of_nat (length (rest i)) < 2 ^ 64 - 4)%N ->
  exists e j, run = Done (inr e, j).
Proof.
  intros Hr H Hb. destruct (file_reps ws bs H i r Hr Hf) as [c [R1 R2]]. assert (Hl : length r <= length (rest i)) by (rewrite Hr, app_length; lia).
  apply (parse_fails _ _ true many_agrees).
  assert (F : fails (fresh item) (advance i (concat ws) r) true).
  { destruct Hb as [Hb|[Hb [Hd Hn]]]; [apply item_bad; [exact Hb|unfold advance; cbn [rest]; lia]|]. apply item_small_fails; [exact Hb|exact Hd|]. unfold advance. cbn [rest].
    eapply N.le_lt_trans; [|exact Hn]. lia. }
  destruct F as [e F]. exists e. apply (many_fails _ hf_item). split; [reflexivity|]. exists c, bs. eexists. split; [exact R1|]. split; [exact F|]. rewrite Hr, app_length in Hf. lia.
Qed.
Lemma run_panics ws bs r : rest i = concat ws ++ r -> Forall2 box_text ws bs -> small_box r -> dbg C = true -> run = Panic.
Proof.
  intros Hr H Hb Hd. destruct (file_reps ws bs H i r Hr Hf) as [c [R1 R2]]. apply (parse_panics _ _ many_agrees).
  eapply (many_panics _ hf_item); [exact R1|apply item_small_panics; [exact Hb|exact Hd]|]. rewrite Hr, app_length in Hf. lia.
Qed.
End Run.
End File.
