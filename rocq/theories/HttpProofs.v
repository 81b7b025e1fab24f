(** Proofs for C66: the HTTP request parser. *)
From Coq Require Import String List Bool Arith NArith Lia.
Import ListNotations.
From Verif Require Import Base Parser Errors Token Combinator Sequence Choice Repeat RangeP ByteP Instances JsonM JsonSpec HttpM HttpSpec.
From Verif Require Import Spec SeqSpec ChoiceSpec TidySpec RepeatSpec AgreeSpec RangeSpec LibSpec TotalSpec.
From Verif Require Import ResultProofs TokenProofs SeqProofs CombProofs ChoiceProofs CombProofs2 RangeProofs RepeatProofs RepeatProofs2 RepeatProofs4 ByteProofs TidyProofs ForwardProofs AgreeProofs TotalProofs2 LangProofs JsonProofs JsonProofs2 DateProofs IniProofs.
Unset Implicit Arguments.

(** * Generally *)
Section General.
Context {C : Cfg}.
Notation T := (tok C).
Notation E := (Err C).
Lemma longest_span (f : T -> bool) (q : T -> Prop) : (forall t, f t = true <-> q t) -> forall (w r : list T), longest_prefix f (w ++ r) w r <-> span q w r.
Proof.
  intros H w r. unfold longest_prefix, span. assert (F : Forall (fun t => f t = true) w <-> Forall q w) by (split; apply Forall_impl; intros t; apply H).
  rewrite F. split.
  - intros [_ [K1 K2]]. split; [exact K1|]. destruct r as [|t r]; cbn; [exact I|]. intros K. apply H in K. rewrite (K2 _ _ eq_refl) in K. discriminate.
  - intros [K1 K2]. split; [reflexivity|]. split; [exact K1|]. intros t s ->. destruct (f t) eqn:Ef; [|reflexivity]. exfalso. apply K2. apply H. exact Ef.
Qed.
Lemma lang_take_while1 (L : lawful C) n (f : T -> bool) (q : T -> Prop) : (forall t, f t = true <-> q t) ->
  lang n (fresh (take_while1 f)) (fun w r a => a = w /\ w <> [] /\ span q w r) (stops q).
Proof.
  intros H i Hi Hp. destruct (take_while1_spec L f) as [S1 S2]. split.
  - intros c a i'. rewrite S1. split.
    + intros [K1 [K2 [K3 [-> K4]]]]. exists a. split; [exact K1|]. split; [destruct a; [congruence|reflexivity]|]. split; [reflexivity|]. split; [exact K3|].
      destruct K1 as [K1 _]. rewrite K1 in K2. apply (longest_span f q H) in K2. exact K2.
    + intros [w [K1 [-> [-> [K2 K3]]]]]. split; [exact K1|]. split; [destruct K1 as [K1 _]; rewrite K1; apply (longest_span f q H); exact K3|].
      split; [exact K2|]. split; [destruct w; [congruence|reflexivity]|]. congruence.
  - rewrite (S2 i false). split.
    + intros [[_ K]|[t [r [K1 K2]]]]; [rewrite K; exact I|]. rewrite K1. cbn. intros K. apply H in K. congruence.
    + intros K. destruct (rest i) as [|t r]; [auto|]. right. exists t, r. split; [reflexivity|]. cbn in K. destruct (f t) eqn:Ef; [|reflexivity]. exfalso. apply K, H, Ef.
Qed.
Lemma lang_range (L : lawful C) n (l : list T) : l <> [] -> lang n (fresh (range l)) (fun w _ a => w = l /\ a = l) (fun x => forall s, x <> l ++ s).
Proof.
  intros H i Hi Hp. destruct (range_spec L l) as [S1 S2]. split.
  - intros c a i'. rewrite S1. split.
    + intros [-> [-> K]]. exists l. split; [exact K|]. split; [destruct l; [congruence|reflexivity]|auto].
    + intros [w [K1 [-> [-> ->]]]]. split; [destruct l; [congruence|reflexivity]|auto].
  - rewrite S2, Hp. split; [intros [K _]; exact K|auto].
Qed.
End General.

Section Http.
Context {C : Cfg}.
Notation T := (tok C).
Notation E := (Err C).
Variable L : lawful C.
Variable code : T -> N.
Variable lit : N -> T.
Hypothesis code_lit : forall n, (n < 256)%N -> code (lit n) = n.
Hypothesis lit_code : forall t, lit (code t) = t.
Notation chr := (lang_char L code lit code_lit lit_code).
Variable n : nat.
Hypothesis Hn : n <= fuel C.

Lemma code_inj a b : code a = code b -> a = b.
Proof. intros H. rewrite <- (lit_code a), H. apply lit_code. Qed.
Lemma map_code_lit l w : Forall (fun c => (c < 256)%N) l -> (List.map code w = l <-> w = List.map lit l).
Proof.
  intros Hl. split.
  - intros <-. rewrite map_map. rewrite (map_ext _ (fun x => x)), map_id; [reflexivity|apply lit_code].
  - intros ->. rewrite map_map. induction Hl as [|c l Hc Hl IH]; [reflexivity|]. cbn. rewrite (code_lit c Hc), IH. reflexivity.
Qed.
Lemma token_iff t : is_token code t = true <-> token_char code t.
Proof.
  unfold is_token, token_char. rewrite negb_true_iff, !orb_false_iff, !N.leb_gt.
  assert (Q : existsb (N.eqb (code t)) [40; 41; 60; 62; 64; 44; 59; 58; 92; 34; 47; 91; 93; 63; 61; 123; 125; 32]%N = false <-> ~ In (code t) [40; 41; 60; 62; 64; 44; 59; 58; 92; 34; 47; 91; 93; 63; 61; 123; 125; 32]%N).
  { rewrite <- not_true_iff_false, existsb_exists. split; intros K K1; apply K; [exists (code t); split; [exact K1|apply N.eqb_refl]|].
    destruct K1 as [x [K1 K2]]. apply N.eqb_eq in K2. subst. exact K1. }
  rewrite Q. change (chars "()<>@,;:\""/[]?={}") with [40; 41; 60; 62; 64; 44; 59; 58; 92; 34; 47; 91; 93; 63; 61; 123; 125]%N.
  cbn [In]. split; intros [K1 K2].
  - split; [|tauto]. destruct (N.eq_dec (code t) 32); [exfalso; apply K2; rewrite e; tauto|]. lia.
  - split; [lia|]. intros Q0. apply K2. assert (32%N <> code t) by lia. tauto.
Qed.
Lemma hspace_iff t : is_horizontal_space code t = true <-> hspace code t.
Proof. unfold is_horizontal_space, hspace, is_char. rewrite orb_true_iff, !N.eqb_eq. tauto. Qed.
Lemma space_iff t : is_space code t = true <-> is_char code 32 t.
Proof. unfold is_space, is_char. apply N.eqb_eq. Qed.
Lemma not_space_iff t : is_not_space code t = true <-> ~ is_char code 32 t.
Proof. unfold is_not_space, is_char. rewrite negb_true_iff, N.eqb_neq. tauto. Qed.
Lemma version_iff t : is_http_version code t = true <-> version_char code t.
Proof. unfold is_http_version, version_char, is_char. rewrite orb_true_iff, andb_true_iff, !N.leb_le, N.eqb_eq. tauto. Qed.
Lemma line_iff t : negb (code t =? 13)%N && negb (code t =? 10)%N = true <-> line_char code t.
Proof. unfold line_char, is_char. rewrite andb_true_iff, !negb_true_iff, !N.eqb_neq. tauto. Qed.

Lemma eol_ne w : eol code w -> w <> [].
Proof. intros [K|K] ->; discriminate. Qed.
Lemma eol_head w r (f : T -> Prop) : eol code w -> (forall t, f t -> code t <> 13%N /\ code t <> 10%N) -> stops f (w ++ r).
Proof. intros H Hf. destruct w as [|t w]; [destruct H; discriminate|]. cbn. intros K. apply Hf in K. destruct H as [H|H]; injection H; tauto. Qed.

Definition eolP (w : list T) (a : T) : Prop := eol code w /\ exists r, w = a :: r.
Notation stop_eol := (stops (fun t => is_char code 13 t \/ is_char code 10 t)).
Lemma lang_eol : lang n (fresh (end_of_line lit)) (fun w _ a => eolP w a) stop_eol.
Proof.
  eapply lang_ext; [| |apply lang_or; [apply lang_map; eapply lang_cons; [apply (chr n 13); lia|apply lang_tuple1; apply (chr n 10); lia]|apply (chr n 10); lia]].
  - intros w r a _. cbn beta. unfold eolP, eol, is_char. split.
    + intros [[[x y] [[w1 [w2 [-> [[-> K1] [-> K2]]]]] ->]]|[_ [-> K]]].
      * cbn [fst snd] in *. split; [left; cbn; rewrite K1, K2; reflexivity|]. exists [y]. cbn. f_equal. apply code_inj. rewrite K1, code_lit; [reflexivity|lia].
      * split; [right; cbn; rewrite K; reflexivity|]. exists []. reflexivity.
    + intros [[K|K] [s ->]]; cbn in K.
      * injection K as K1 K2. destruct s as [|y [|? ?]]; try discriminate. injection K2 as K2. left. exists (a, y). split; [|apply code_inj; rewrite K1, code_lit; [reflexivity|lia]].
        exists [a], [y]. auto.
      * injection K as K1 K2. destruct s; [|discriminate]. right. split; [|auto]. left. cbn. rewrite K1. discriminate.
  - intros [|t l] _; cbn; [tauto|]. split.
    + intros [[K|[a [[K _] _]]] K2]; [tauto|discriminate].
    + intros K. split; [left|]; tauto.
Qed.

Lemma line_text_ne l : ~ line_text code [] l.
Proof. intros [h [e [K [[K1 _] _]]]]. destruct h; [congruence|discriminate]. Qed.
Lemma lang_line : lang n (fresh (message_header_line code lit)) (fun w _ l => line_text code w l) (stops (hspace code)).
Proof.
  eapply lang_ext; [| |apply lang_map; eapply lang_cons; [apply (lang_take_while1 L n _ _ hspace_iff)|
    eapply lang_cons; [apply (lang_take_while1 L n _ _ line_iff)|apply lang_tuple1, lang_eol]]].
  - intros w r l _. cbn beta. unfold line_text, some_of, span. split.
    + intros [[h [l' e']] [[w1 [w2 [-> [[K0 [K1 [K2 K3]]] [w3 [w4 [-> [[K8 [K4 [K5 K6]]] [K7 _]]]]]]]]] ->]]. cbn [fst snd] in *. subst w1 w3. exists h, w4. split; [reflexivity|].
      split; [auto|]. split; [auto|]. split; [|auto]. destruct l'; [congruence|exact K3].
    + intros [h [e [-> [[K1 K2] [[K3 K4] [K5 K6]]]]]]. destruct e as [|x e]; [destruct K6; discriminate|]. exists (h, (l, x)). split; [|reflexivity]. cbn [fst snd].
      exists h, (l ++ x :: e). split; [reflexivity|]. split; [split; [reflexivity|]; split; [exact K1|]; split; [exact K2|destruct l; [congruence|exact K5]]|].
      exists l, (x :: e). split; [reflexivity|]. split; [|split; [exact K6|exists e; reflexivity]]. split; [reflexivity|]. split; [exact K3|]. split; [exact K4|].
      apply (eol_head (x :: e)); [exact K6|]. unfold line_char, is_char. tauto.
  - intros l _. cbn beta. split; [intros [K|[a [[_ [K _]] _]]]; [exact K|congruence]|auto].
Qed.
Lemma star_texts {A} (P : list T -> A -> Prop) w r l : star (fun w _ a => P w a) w r l <-> exists ws, w = concat ws /\ Forall2 P ws l.
Proof.
  split.
  - intros H. induction H as [r|w1 w2 r a l K1 K2 [ws [-> IH]]]; [exists []; split; [reflexivity|constructor]|]. exists (w1 :: ws). split; [reflexivity|constructor; auto].
  - intros [ws [-> H]]. induction H as [|w1 a ws l K1 K2 IH]; cbn; [constructor|]. apply star_cons; auto.
Qed.
Lemma tidy_eol : tidy false (end_of_line lit).
Proof. apply td_or. Qed.

Lemma tidy_line : tidy false (message_header_line code lit).
Proof. unfold message_header_line. apply td_map, td_tuple, td_TC; [apply td_take_while1|]. apply td_TC; [apply td_take_while1|]. apply td_T1, td_or. Qed.
Definition headerP (w r : list T) (h : header_v T) : Prop := header_text code w h /\ stops (hspace code) r.
Lemma colon_token : forall t, token_char code t -> ~ is_char code 58 t.
Proof. unfold token_char, is_char. intros t [_ H] K. apply H. rewrite K. right; right; right; right; right; right; right. left. reflexivity. Qed.
Lemma lang_header : lang n (fresh (message_header code lit)) headerP (stops (token_char code)).
Proof.
  eapply lang_ext; [| |apply lang_map; eapply lang_cons; [apply (lang_take_while1 L n _ _ token_iff)|
    eapply lang_cons; [apply (chr n 58); lia|apply lang_tuple1; eapply (lang_many1 n _ (fun w _ l => line_text code w l) _ (tidy_history_free _ _ tidy_line) Hn); [intros r a; apply line_text_ne|apply lang_line]]]].
  - intros w r [nm vs] _. cbn beta. unfold headerP, header_text, some_of, span. cbn [h_name h_value]. split.
    + intros [[nm' [c vs']] [[w1 [w2 [-> [[K0 [K1 [K2 K3]]] [w3 [w4 [-> [[-> K4] [K5 [K6 K7]]]]]]]]]] K]]. cbn [fst snd] in *. subst w1. injection K as -> ->.
      apply star_texts in K6. destruct K6 as [ls [-> K6]]. split; [|exact K7]. exists c, ls. auto.
    + intros [[c [ls [-> [[K1 K2] [K3 [K4 K5]]]]]] K6]. exists (nm, (c, vs)). split; [|reflexivity]. cbn [fst snd]. exists nm, (c :: concat ls). split; [reflexivity|].
      split; [split; [reflexivity|]; split; [exact K1|]; split; [exact K2|]|]. { cbn. intros K. exact (colon_token _ K K3). }
      exists [c], (concat ls). split; [reflexivity|]. split; [auto|]. split; [exact K4|]. split; [|exact K6]. apply star_texts. exists ls. auto.
  - intros l _. cbn beta. split; [intros [K|[a [[_ [K _]] _]]]; [exact K|congruence]|auto].
Qed.
Lemma header_ne h r : ~ headerP [] r h.
Proof. intros [[c [ls [K _]]] _]. destruct (h_name h); discriminate. Qed.
Lemma tidy_header : tidy false (message_header code lit).
Proof. unfold message_header. apply td_map, td_tuple, td_TC; [apply td_take_while1|]. apply td_TC; [apply td_unit|]. apply td_T1, td_many1, tidy_line. Qed.

Definition requestLineP (w r : list T) (q : request_v T) : Prop :=
  exists s1 s2 http, w = h_method q ++ s1 ++ h_uri q ++ s2 ++ http ++ h_version q /\
    some_of (token_char code) (h_method q) /\ some_of (is_char code 32) s1 /\ some_of (fun t => ~ is_char code 32 t) (h_uri q) /\ some_of (is_char code 32) s2 /\
    List.map code http = chars "HTTP/" /\ some_of (version_char code) (h_version q) /\ stops (version_char code) r.
Lemma http_lit : Forall (fun c => (c < 256)%N) (chars "HTTP/").
Proof. vm_compute. repeat constructor. Qed.
Lemma lang_version : lang n (fresh (http_version code lit)) (fun w r v => exists http, w = http ++ v /\ List.map code http = chars "HTTP/" /\ v <> [] /\ span (version_char code) v r)
  (fun l => forall s, l <> List.map lit (chars "HTTP/") ++ s).
Proof.
  eapply lang_ext; [| |eapply lang_seq; [apply with_runs|apply (lang_range L n); discriminate|apply (lang_take_while1 L n _ _ version_iff)|lia]].
  - intros w r v _. cbn beta. split.
    + intros [w1 [w2 [a [b [-> [[-> _] [[-> [K1 K2]] ->]]]]]]]. exists (List.map lit (chars "HTTP/")). split; [reflexivity|]. split; [apply map_code_lit; [exact http_lit|reflexivity]|auto].
    + intros [http [-> [K1 [K2 K3]]]]. apply map_code_lit in K1; [|exact http_lit]. exists http, v, http, v. auto 8.
  - intros l _. cbn beta. split; [intros [K|[a [[K _] _]]]; [exact K|discriminate]|]. auto.
Qed.
Lemma lang_request_line : lang n (fresh (request_line code lit)) requestLineP (stops (token_char code)).
Proof.
  eapply lang_ext; [| |apply lang_map; eapply lang_cons; [apply (lang_take_while1 L n _ _ token_iff)|eapply lang_cons; [apply (lang_take_while1 L n _ _ space_iff)|
    eapply lang_cons; [apply (lang_take_while1 L n _ _ not_space_iff)|eapply lang_cons; [apply (lang_take_while1 L n _ _ space_iff)|apply lang_tuple1, lang_version]]]]].
  - intros w r [m u v] _. cbn beta. unfold requestLineP, some_of, span. cbn [h_method h_uri h_version]. split.
    + intros [[m' [x [u' [y v']]]] [[w1 [? [-> [[K0 [K1 [K2 _]]] [w2 [? [-> [[K3 [K4 [K5 _]]] [w3 [? [-> [[K6 [K7 [K8 _]]] [w4 [w5 [-> [[K9 [K10 [K11 _]]] [http [-> [K12 [K13 [K14 K15]]]]]]]]]]]]]]]]]]]]] K]].
      cbn [fst snd] in *. subst w1 w2 w3 w4. injection K as -> -> ->. exists x, y, http. auto 12.
    + intros [s1 [s2 [http [-> [[K1 K2] [[K3 K4] [[K5 K6] [[K7 K8] [K9 [[K10 K11] K12]]]]]]]]]]. exists (m, (s1, (u, (s2, v)))). split; [|reflexivity]. cbn [fst snd].
      eexists m, _. split; [reflexivity|]. split.
      { split; [reflexivity|]. split; [exact K1|]. split; [exact K2|]. destruct s1 as [|t s1]; [congruence|]. cbn. inversion K4; subst. unfold token_char, is_char in *. lia. }
      eexists s1, _. split; [reflexivity|]. split.
      { split; [reflexivity|]. split; [exact K3|]. split; [exact K4|]. destruct u as [|t u]; [congruence|]. cbn. inversion K6; subst. assumption. }
      eexists u, _. split; [reflexivity|]. split.
      { split; [reflexivity|]. split; [exact K5|]. split; [exact K6|]. destruct s2 as [|t s2]; [congruence|]. cbn. inversion K8; subst. tauto. }
      eexists s2, _. split; [reflexivity|]. split.
      { split; [reflexivity|]. split; [exact K7|]. split; [exact K8|]. destruct http as [|t http]; [discriminate|]. injection K9 as K9 _. cbn. unfold is_char. rewrite K9. discriminate. }
      exists http. auto 8.
  - intros l _. cbn beta. split; [intros [K|[a [[_ [K _]] _]]]; [exact K|congruence]|auto].
Qed.

Lemma eol_not_token w r : eol code w -> stops (token_char code) (w ++ r).
Proof. intros H. apply eol_head; [exact H|]. unfold token_char. lia. Qed.
Lemma eol_not_hspace w r : eol code w -> stops (hspace code) (w ++ r).
Proof. intros H. apply eol_head; [exact H|]. unfold hspace, is_char. lia. Qed.
Lemma eol_not_version w r : eol code w -> stops (version_char code) (w ++ r).
Proof. intros H. apply eol_head; [exact H|]. unfold version_char, is_char. lia. Qed.
Lemma headers_star w r l e : eol code e -> (star headerP w (e ++ r) l <-> exists hs, w = concat hs /\ Forall2 (header_text code) hs l).
Proof.
  intros He. remember (e ++ r) as r0 eqn:Er. split.
  - intros H. induction H as [r1|w1 w2 r1 a l [K1 _] K2 IH]; [exists []; split; [reflexivity|constructor]|]. destruct (IH Er) as [hs [-> IH1]]. exists (w1 :: hs). split; [reflexivity|constructor; auto].
  - intros [hs [-> H]]. induction H as [|w1 a hs l K1 K2 IH]; cbn; [constructor|]. apply star_cons; [|exact IH]. split; [exact K1|].
    destruct K2 as [|w2 b hs l [c [ls [-> [[K3 K4] _]]]] K2]; cbn.
    + subst r0. apply eol_not_hspace, He.
    + destruct (h_name b) as [|t nm]; [congruence|]. cbn. inversion K4; subst. unfold token_char, hspace, is_char in *. lia.
Qed.
Lemma lang_request : lang n (fresh (http_request code lit)) (fun w _ v => request_text code w v) (stops (token_char code)).
Proof.
  eapply lang_ext; [| |apply lang_map; eapply lang_cons; [apply lang_request_line|eapply lang_cons; [apply lang_eol|
    eapply lang_cons; [eapply (lang_many n _ headerP _ (tidy_history_free _ _ tidy_header) Hn); [intros r a; apply header_ne|apply lang_header]|apply lang_tuple1, lang_eol]]]].
  - intros w r [q hs] _. cbn beta. unfold request_text, requestLineP. cbn [fst snd]. split.
    + intros [[q' [c1 [hs' c2]]] [[w1 [? [-> [K1 [e1 [? [-> [[K2 _] [w3 [e2 [-> [[K3 K4] [K5 _]]]]]]]]]]]]] K]]. cbn [fst snd] in *. injection K as -> ->.
      destruct K1 as [s1 [s2 [http [-> K1]]]]. apply (headers_star _ _ _ e2 K5) in K3. destruct K3 as [ws [-> K3]]. exists s1, s2, http, e1, ws, e2. split; [rewrite <- !app_assoc; reflexivity|]. tauto.
    + intros [s1 [s2 [http [e1 [ws [e2 [-> [K1 [K2 [K3 [K4 [K5 [K6 [K7 [K8 K9]]]]]]]]]]]]]]].
      destruct e1 as [|c1 e1]; [destruct K7; discriminate|]. destruct e2 as [|c2 e2]; [destruct K9; discriminate|].
      exists (q, (c1, (hs, c2))). split; [|reflexivity]. cbn [fst snd]. exists (h_method q ++ s1 ++ h_uri q ++ s2 ++ http ++ h_version q). eexists. split; [rewrite <- !app_assoc; reflexivity|].
      split; [exists s1, s2, http; repeat (split; [first [reflexivity|assumption]|]); rewrite <- app_assoc; apply eol_not_version, K7|].
      exists (c1 :: e1). eexists. split; [reflexivity|]. split; [split; [exact K7|exists e1; reflexivity]|]. exists (concat ws), (c2 :: e2). split; [reflexivity|].
      split; [split; [apply headers_star; [exact K9|]; exists ws; auto|apply eol_not_token, K9]|]. split; [exact K9|exists e2; reflexivity].
  - intros l _. cbn beta. split; [|auto]. intros [K|[a [[s1 [s2 [http [K [[K1 _] _]]]]] _]]]; [exact K|]. destruct (h_method a); [congruence|discriminate].
Qed.
End Http.

(** * Always returns *)
Section Total.
Context {C : Cfg}.
Variable code : tok C -> N.
Variable lit : N -> tok C.
Lemma sol_eol z : solid z false true (end_of_line lit).
Proof. apply sol_or; [apply sol_map, sol_tuple; apply (sol_TC (n1:=true) (n2:=true)); [apply sol_token|apply sol_T1, sol_token]|apply sol_token]. Qed.
Lemma sol_line z : solid z false true (message_header_line code lit).
Proof.
  apply sol_map, sol_tuple. apply (sol_TC (n1:=true) (n2:=true)); [apply sol_take_while1|]. apply (sol_TC (n1:=true) (n2:=true)); [apply sol_take_while1|]. apply sol_T1, sol_eol.
Qed.
Lemma sol_header z : solid z false true (message_header code lit).
Proof.
  apply sol_map, sol_tuple. apply (sol_TC (n1:=true) (n2:=true)); [apply sol_take_while1|]. apply (sol_TC (n1:=true) (n2:=true)); [apply sol_token|].
  apply sol_T1, sol_many1; [discriminate|apply sol_line].
Qed.
Lemma sol_request_line z : solid z false true (request_line code lit).
Proof.
  apply sol_map, sol_tuple. do 4 (apply (sol_TC (n1:=true) (n2:=true)); [apply sol_take_while1|]). apply sol_T1. rewrite <- (orb_true_r (negb (range_len (List.map lit [72; 84; 84; 80; 47]%N) =? 0))).
  apply sol_with; [apply sol_range|apply sol_take_while1].
Qed.
Lemma sol_request z : solid z false true (http_request code lit).
Proof.
  apply sol_map, sol_tuple. apply (sol_TC (n1:=true) (n2:=true)); [apply sol_request_line|]. apply (sol_TC (n1:=true) (n2:=true)); [apply sol_eol|].
  apply (sol_TC (n1:=false) (n2:=true)); [apply sol_many, sol_header|]. apply sol_T1, sol_eol.
Qed.
End Total.

(** * RFC 9112 *)
Section Rfc.
Context {X : Type}.
Variable code : X -> N.
Lemma rfc_tchar_token t : rfc_tchar code t -> token_char code t.
Proof.
  unfold rfc_tchar, token_char. intros H. change (chars "()<>@,;:\""/[]?={}") with [40; 41; 60; 62; 64; 44; 59; 58; 92; 34; 47; 91; 93; 63; 61; 123; 125]%N.
  change (chars "!#$%&'*+-.^_`|~") with [33; 35; 36; 37; 38; 39; 42; 43; 45; 46; 94; 95; 96; 124; 126]%N in H. cbn [In] in *. lia.
Qed.
Lemma some_impl (f g : X -> Prop) w : (forall t, f t -> g t) -> some_of f w -> some_of g w.
Proof. intros H [K1 K2]. split; [exact K1|]. revert K2. apply Forall_impl. exact H. Qed.
Lemma hspace_line t : hspace code t -> line_char code t.
Proof. unfold hspace, line_char, is_char. lia. Qed.
Lemma rfc_header w f : rfc_field_text code w f -> f_before f <> [] -> f_value f <> [] -> header_text code w (HeaderV (f_name f) [f_value f ++ f_after f]).
Proof.
  intros [[K1 [K2 [[K3 [K4 _]] K5]]] [c [e [-> [K6 K7]]]]] N1 N2. exists c, [f_before f ++ f_value f ++ f_after f ++ e]. cbn [h_name h_value concat]. split; [rewrite app_nil_r; reflexivity|].
  split; [eapply some_impl; [|exact K1]; apply rfc_tchar_token|]. split; [exact K6|]. split; [discriminate|]. constructor; [|constructor].
  exists (f_before f), e. split; [rewrite <- app_assoc; reflexivity|]. split; [split; auto|]. split.
  - split; [destruct (f_value f); [congruence|discriminate]|]. apply Forall_app. split; [|revert K5; apply Forall_impl, hspace_line].
    revert K3. apply Forall_impl. intros t [H|H]; [unfold rfc_vchar, line_char, is_char in *; lia|apply hspace_line, H].
  - split; [destruct (f_value f); [congruence|exact K4]|]. left. exact K7.
Qed.
Lemma rfc_is_request w q fs : rfc_request code w q fs -> Forall (fun f => f_before f <> [] /\ f_value f <> []) fs ->
  request_text code w (q, List.map (fun f => HeaderV (f_name f) [f_value f ++ f_after f]) fs).
Proof.
  intros [s1 [s2 [http [e1 [hs [e2 [-> [K1 [K2 [K3 [K4 [K5 [[a [d [b [K6 [A1 [A2 A3]]]]]] [K7 [K8 K9]]]]]]]]]]]]]]] Hf.
  assert (S32 : forall s, List.map code s = [32]%N -> some_of (is_char code 32) s).
  { intros [|x [|? ?]] K; try discriminate. injection K as K. split; [discriminate|]. constructor; [exact K|constructor]. }
  exists s1, s2, http, e1, hs, e2. cbn [fst snd]. split; [reflexivity|]. split; [eapply some_impl; [|exact K1]; apply rfc_tchar_token|]. split; [auto|].
  split; [eapply some_impl; [|exact K3]; unfold is_char; lia|]. split; [auto|]. split; [exact K5|]. split; [|split; [left; exact K7|split; [|left; exact K9]]].
  - rewrite K6. split; [discriminate|]. repeat apply Forall_cons; [left|right|left|apply Forall_nil]; assumption.
  - clear -K8 Hf. induction K8 as [|w f ws fs K1 K2 IH]; cbn; [constructor|]. inversion Hf as [|? ? [N1 N2] Hf']; subst. constructor; [apply rfc_header; auto|auto].
Qed.
End Rfc.

(** * A series of requests *)
Section Series.
Context {C : Cfg}.
Notation T := (tok C).
Variable L : lawful C.
Variable code : T -> N.
Variable lit : N -> T.
Hypothesis code_lit : forall n, (n < 256)%N -> code (lit n) = n.
Hypothesis lit_code : forall t, lit (code t) = t.

Lemma request_ne v : ~ request_text code [] v.
Proof. intros [s1 [s2 [http [e1 [hs [e2 [K [[K1 _] _]]]]]]]]. destruct (h_method (fst v)); [congruence|discriminate]. Qed.
Lemma request_parse i : length (rest i) < fuel C -> ipart i = false ->
  forall v i', parse_http_request code lit i = Done (inl v, i') <-> exists w, advanced_by i w i' /\ request_text code w v.
Proof.
  intros Hi Hp. pose proof (lang_request L code lit code_lit lit_code (fuel C) (Nat.le_refl _)) as H.
  apply (lang_parse (fuel C) _ _ _ (default_stream_agrees (http_request code lit) eq_refl) H i Hi Hp).
Qed.
Lemma series_eq n i : http_requests code lit (S n) i = match rest i with [] => Done [] | _ =>
  obind (parse_http_request code lit i) (fun x => match x with (inl v, j) => omap (cons v) (http_requests code lit n j) | (inr _, _) => Panic end) end.
Proof. cbn [http_requests]. unfold uncons. destruct (rest i); reflexivity. Qed.
Lemma series_exact : forall n i, 2 * length (rest i) + 1 < fuel C -> ipart i = false -> length (rest i) < n ->
  forall l, http_requests code lit n i = Done l <-> exists ws, rest i = concat ws /\ Forall2 (request_text code) ws l.
Proof.
  induction n as [|n IH]; [lia|]. intros i Hf Hp Hn l. rewrite series_eq. assert (Hi : length (rest i) < fuel C) by lia. pose proof (request_parse i Hi Hp) as RP. split.
  - intros K. destruct (rest i) as [|t r] eqn:Hr; [injection K as <-; exists []; split; [reflexivity|constructor]|]. rewrite <- Hr in *.
    destruct (parse_http_request code lit i) as [[[v|e] j]| |] eqn:Ep; cbn [obind] in K; try discriminate.
    destruct (http_requests code lit n j) as [l'| |] eqn:El; cbn [omap] in K; try discriminate. injection K as <-.
    destruct (proj1 (RP v j) eq_refl) as [w [Ha Hw]]. pose proof (adv_len _ _ _ Ha) as Hl. assert (w <> []) by (intros ->; exact (request_ne v Hw)).
    destruct w as [|x w]; [congruence|]. cbn in Hl. assert (IHn := IH j ltac:(lia) ltac:(rewrite (adv_part _ _ _ Ha); exact Hp) ltac:(lia)). apply IHn in El. destruct El as [ws [K1 K2]].
    exists ((x :: w) :: ws). destruct Ha as [Ha _]. split; [rewrite Ha, K1; reflexivity|]. constructor; auto.
  - intros [ws [K1 K2]]. destruct K2 as [|w v ws l Hw K2]; [rewrite K1; reflexivity|]. cbn in K1. destruct (rest i) as [|t r] eqn:Hr.
    { exfalso. destruct w; [exact (request_ne v Hw)|discriminate]. }
    rewrite <- Hr in *. set (j := @Inp C (concat ws) (pos_after (ipos i) w) (ipart i)).
    assert (Ha : advanced_by i w j) by (split; [exact K1|split; reflexivity]). assert (Ep : parse_http_request code lit i = Done (inl v, j)) by (apply RP; eauto).
    rewrite Ep. cbn [obind]. pose proof (adv_len _ _ _ Ha) as Hl. destruct w as [|x w]; [exfalso; exact (request_ne v Hw)|]. cbn [length] in Hl.
    rewrite (proj2 (IH j ltac:(lia) Hp ltac:(lia) l)); [reflexivity|]. exists ws. split; [reflexivity|exact K2].
Qed.
Lemma series_returns : (forall i, 2 * length (rest i) + 1 < fuel C -> returns (parse_http_request code lit i)) ->
  forall n i, 2 * length (rest i) + 1 < fuel C -> ipart i = false -> length (rest i) < n ->
  (exists l, http_requests code lit n i = Done l) \/ http_requests code lit n i = Panic.
Proof.
  intros Ht. induction n as [|n IH]; [lia|]. intros i Hf Hp Hn. rewrite series_eq. assert (Hi : length (rest i) < fuel C) by lia. pose proof (request_parse i Hi Hp) as RP.
  destruct (rest i) as [|t r] eqn:Hr; [eauto|]. rewrite <- Hr in *. destruct (Ht i Hf) as [[[v|e] j] Ep]; rewrite Ep; cbn [obind]; [|auto].
  apply RP in Ep. destruct Ep as [w [Ha Hw]]. pose proof (adv_len _ _ _ Ha) as Hl. destruct w as [|x w]; [exfalso; exact (request_ne v Hw)|]. cbn in Hl.
  destruct (IH j ltac:(lia) ltac:(rewrite (adv_part _ _ _ Ha); exact Hp) ltac:(lia)) as [[l K]|K]; rewrite K; cbn; eauto.
Qed.
End Series.
