(** From parsers to the texts they read: the language of a parser from those of its parts. *)
From Coq Require Import String List Bool Arith NArith Lia.
Import ListNotations.
From Verif Require Import Base Parser Errors Token Combinator Sequence Choice Repeat RangeP ByteP.
From Verif Require Import Spec SeqSpec ChoiceSpec TidySpec RepeatSpec AgreeSpec RangeSpec LibSpec TotalSpec.
From Verif Require Import ResultProofs TokenProofs SeqProofs CombProofs ChoiceProofs CombProofs2 RepeatProofs RepeatProofs2 RepeatProofs4 ByteProofs TidyProofs ForwardProofs AgreeProofs.
Unset Implicit Arguments.

Section Lang.
Context {C : Cfg}.
Notation T := (tok C).
Notation E := (Err C).
Notation beh := (@Spec.beh C).

(** On inputs shorter than [n]: [P w r a]: the behaviour reads [w] when it is followed by [r], with the value [a];
    [Q l]: on [l] it fails without having committed. *)
Definition lang (n : nat) {A} (b : beh A) (P : list T -> list T -> A -> Prop) (Q : list T -> Prop) : Prop :=
  forall i, length (rest i) < n -> ipart i = false ->
  (forall c a i', succeeds b i c a i' <-> exists w, advanced_by i w i' /\ c = consumed_some w /\ P w (rest i') a) /\
  (fails b i false <-> Q (rest i)).

Lemma lang_weak n m {A} (b : beh A) P Q : m <= n -> lang n b P Q -> lang m b P Q.
Proof. intros H L i Hi Hp. apply L; [lia|auto]. Qed.
Lemma lang_ext n {A} (b : beh A) (P P' : list T -> list T -> A -> Prop) (Q Q' : list T -> Prop) :
  (forall w r a, length (w ++ r) < n -> (P w r a <-> P' w r a)) -> (forall l, length l < n -> (Q l <-> Q' l)) -> lang n b P Q -> lang n b P' Q'.
Proof.
  intros H1 H2 L i Hi Hp. destruct (L i Hi Hp) as [L1 L2]. split.
  - intros c a i'. rewrite L1. split; intros [w [K1 [K2 K3]]]; exists w; (split; [auto|split; [auto|]]); apply H1; auto; destruct K1 as [K1 _]; rewrite <- K1; auto.
  - rewrite L2. apply H2. auto.
Qed.
Lemma lang_same n {A} (b b' : beh A) P Q : (forall i c a i', succeeds b' i c a i' <-> succeeds b i c a i') -> (forall i, fails b' i false <-> fails b i false) ->
  lang n b P Q -> lang n b' P Q.
Proof. intros H1 H2 L i Hi Hp. destruct (L i Hi Hp) as [L1 L2]. split; [intros; rewrite H1; apply L1|rewrite H2; apply L2]. Qed.
Lemma lang_eq n {A} (b b' : beh A) P Q : (forall i, b' i = b i) -> lang n b P Q -> lang n b' P Q.
Proof. intros H. apply lang_same; intros; unfold succeeds, fails, fails_with; rewrite H; tauto. Qed.

Lemma lang_maps n {A B} (f : A -> B) (b : beh A) (b' : beh B) P Q : maps_to f b b' -> lang n b P Q ->
  lang n b' (fun w r v => exists a, P w r a /\ v = f a) Q.
Proof.
  intros H L i Hi Hp. destruct (L i Hi Hp) as [L1 L2]. split.
  - intros c a i'. rewrite (maps_to_succeeds _ _ _ _ _ _ _ H). split.
    + intros [x [K ->]]. apply L1 in K. destruct K as [w [K1 [K2 K3]]]. exists w. eauto.
    + intros [w [K1 [K2 [x [K3 ->]]]]]. exists x. split; auto. apply L1. eauto.
  - rewrite <- L2. unfold fails. split; intros [e K]; exists e; apply (maps_to_fails _ _ _ _ _ _ H); auto.
Qed.
Lemma lang_map n {S A B} (p : parser C S A) (f : A -> B) P Q : lang n (fresh p) P Q -> lang n (fresh (map p f)) (fun w r v => exists a, P w r a /\ v = f a) Q.
Proof. apply lang_maps. apply map_maps. Qed.

Lemma lang_expected n {S A} (p : parser C S A) m P Q : lang n (fresh p) P Q -> lang n (fresh (expected p m)) P Q.
Proof. apply lang_eq. reflexivity. Qed.

Lemma lang_parser_fn0 n {S A} (p : parser C S A) P Q : lang n (fresh p) P Q -> lang n (fresh (parser_fn0 p)) P Q.
Proof. apply lang_eq. intros. apply fresh_parser_fn0. Qed.

(** A single token. *)
Lemma lang_single n {R} (p : parser C unit R) acc : single_token p acc -> (forall t r r', acc t r -> acc t r' -> r = r') -> (forall t, {r | acc t r} + {forall r, ~ acc t r}) ->
  lang n (fresh p) (fun w _ a => exists t, w = [t] /\ acc t a) (fun l => match l with [] => True | t :: _ => forall a, ~ acc t a end).
Proof.
  intros H Hf Hd i _ Hp. split.
  - intros c a i'. rewrite (single_succeeds p acc H Hf Hd). split.
    + intros [t [K1 [K2 ->]]]. exists [t]. split; [auto|]. split; [reflexivity|]. eauto.
    + intros [w [K1 [-> [t [-> K2]]]]]. exists t. auto.
  - destruct (H true i (p_init p)) as [H1 [H2 [H3 H4]]]. unfold fails, fails_with, fresh. destruct (rest i) as [|t l] eqn:Hr.
    + rewrite (H3 eq_refl Hp). cbn. split; [auto|]. intros _. do 3 eexists. split; [reflexivity|]. split; reflexivity.
    + split.
      * intros [e [r [j [K1 [K2 K3]]]]] a Ha. destruct (H1 t l a eq_refl Ha) as [j' [K _]]. rewrite K in K1. inversion K1; subst. discriminate.
      * intros Hn. destruct (H2 t l eq_refl Hn) as [j K]. rewrite K. cbn. do 3 eexists. split; [reflexivity|]. split; reflexivity.
Qed.
Definition tokP (f : T -> bool) (w r : list T) (a : T) : Prop := w = [a] /\ f a = true.
Definition tokQ (f : T -> bool) (l : list T) : Prop := match l with [] => True | t :: _ => f t = false end.
Lemma lang_satisfy_like n (p : parser C unit T) f : single_token p (fun t r => r = t /\ f t = true) -> lang n (fresh p) (tokP f) (tokQ f).
Proof.
  intros H. eapply lang_ext; [| |apply (lang_single n p _ H)].
  - intros w r a _. unfold tokP. split; [intros [t [-> [-> K]]]; auto|intros [-> K]; eauto].
  - intros [|t l] _; [tauto|]. cbn. destruct (f t); split; intros K; auto; [exfalso; eapply K; eauto|discriminate|intros a [_ ?]; discriminate].
  - intros t r r' [-> _] [-> _]. reflexivity.
  - intros t. destruct (f t) eqn:Ef; [left; exists t; auto|right; intros r [_ ?]; discriminate].
Qed.
Lemma lang_satisfy n f : lang n (fresh (satisfy f)) (tokP f) (tokQ f).
Proof. apply lang_satisfy_like. apply satisfy_single. Qed.
Lemma lang_token (L : lawful C) n t : lang n (fresh (token t)) (tokP (fun a => tok_eqb C a t)) (tokQ (fun a => tok_eqb C a t)).
Proof.
  apply lang_satisfy_like. intros first i st. destruct (token_single L t first i st) as [H1 [H2 [H3 H4]]].
  assert (X : forall t0 r, (r = t0 /\ tok_eqb C t0 t = true) <-> (r = t /\ t0 = t)).
  { intros t0 r. rewrite (law_tok L). split; intros [-> ->]; auto. }
  split; [|split; [|split]]; auto.
  - intros t0 l r K K1. apply X in K1. eauto.
  - intros t0 l K K1. eapply H2; [exact K|]. intros r K2. apply X in K2. eapply K1; exact K2.
Qed.
Lemma lang_class n code f name : lang n (fresh (byte_class code f name)) (tokP (fun t => f (code t))) (tokQ (fun t => f (code t))).
Proof. apply lang_satisfy_like. apply byte_class_single. Qed.

Lemma consumed_app (a b : list T) : consumed_some (a ++ b) = consumed_some a || consumed_some b.
Proof. destruct a; reflexivity. Qed.
Lemma adv_nil (i i' : input C) : advanced_by i [] i' -> i' = i.
Proof. intros H. eapply advanced_by_fun; [exact H|]. repeat split. Qed.
Lemma adv_self (i : input C) : advanced_by i [] i.
Proof. repeat split. Qed.
Lemma adv_len (i i' : input C) w : advanced_by i w i' -> length (rest i) = length w + length (rest i').
Proof. intros [H _]. rewrite H, app_length. reflexivity. Qed.
Lemma adv_part (i i' : input C) w : advanced_by i w i' -> ipart i' = ipart i.
Proof. intros [_ [_ H]]. exact H. Qed.
Lemma adv_split (i i' : input C) a b : advanced_by i (a ++ b) i' -> exists j, advanced_by i a j /\ advanced_by j b i' /\ rest j = b ++ rest i'.
Proof.
  intros [H1 [H2 H3]]. exists (Inp (b ++ rest i') (pos_after (ipos i) a) (ipart i)). split; [|split; [|reflexivity]].
  - split; [cbn; rewrite H1, app_assoc; reflexivity|]. split; reflexivity.
  - split; [reflexivity|]. cbn. split; [rewrite H2, pos_after_app; reflexivity|auto].
Qed.

(** One after the other.  What the second reads is shorter if the first reads something. *)
Lemma lang_seq n m {A B D} (b1 : beh A) (b2 : beh B) (out : A -> B -> D) b P1 Q1 P2 Q2 : runs_after b1 (fun _ => b2) out b ->
  lang n b1 P1 Q1 -> lang m b2 P2 Q2 -> (m < n -> n = S m /\ forall r a, ~ P1 [] r a) ->
  lang n b (fun w r d => exists w1 w2 a x, w = w1 ++ w2 /\ P1 w1 (w2 ++ r) a /\ P2 w2 r x /\ d = out a x)
    (fun l => Q1 l \/ exists a, P1 [] l a /\ Q2 l).
Proof.
  intros [R1 R2] L1 L2 Hm i Hi Hp. destruct (L1 i Hi Hp) as [A1 A2].
  assert (X : forall w1 i1 a, advanced_by i w1 i1 -> P1 w1 (rest i1) a -> length (rest i1) < m /\ ipart i1 = false).
  { intros w1 i1 a K1 K2. split; [|rewrite (adv_part _ _ _ K1); auto]. pose proof (adv_len _ _ _ K1).
    destruct (Nat.lt_ge_cases m n) as [Hlt|]; [|lia]. destruct (Hm Hlt) as [-> Hn]. destruct w1; [exfalso; eapply Hn; eauto|cbn in *; lia]. }
  split.
  - intros c d i'. rewrite R1. split.
    + intros [c1 [a [i1 [c2 [x [K1 [K2 [-> ->]]]]]]]]. apply A1 in K1. destruct K1 as [w1 [K1 [-> K1']]].
      destruct (X _ _ _ K1 K1') as [X1 X2]. apply (L2 i1 X1 X2) in K2. destruct K2 as [w2 [K2 [-> K2']]].
      exists (w1 ++ w2). split; [eapply adv_by_trans; eauto|]. split; [rewrite consumed_app; reflexivity|].
      exists w1, w2, a, x. split; [reflexivity|]. split; [|auto]. destruct K2 as [K2 _]. rewrite <- K2. auto.
    + intros [w [K [-> [w1 [w2 [a [x [-> [K1 [K2 ->]]]]]]]]]]. apply adv_split in K. destruct K as [j [J1 [J2 J3]]].
      rewrite <- J3 in K1. exists (consumed_some w1), a, j, (consumed_some w2), x. destruct (X _ _ _ J1 K1) as [X1 X2].
      split; [apply A1; eauto|]. split; [apply (L2 j X1 X2); eauto|]. split; [apply consumed_app|reflexivity].
  - rewrite R2, A2. split; (intros [K|K]; [left; exact K|right]).
    + destruct K as [c1 [a [i1 [c2 [K1 [K2 K3]]]]]]. symmetry in K3. apply orb_false_elim in K3. destruct K3 as [-> ->].
      apply A1 in K1. destruct K1 as [w1 [K1 [K3 K1']]]. destruct w1; [|discriminate].
      destruct (X _ _ _ K1 K1') as [X1 X2]. apply adv_nil in K1. subst i1. exists a. split; auto. apply (L2 i X1 X2). auto.
    + destruct K as [a [K1 K2]]. destruct (X [] i a (adv_self i) K1) as [X1 X2]. exists false, a, i, false.
      split; [apply A1; exists []; split; [apply adv_self|split; auto]|]. split; [apply (L2 i X1 X2); auto|reflexivity].
Qed.

Lemma chosen_cons {A} (b : beh A) bs i r i' : chosen (b :: bs) i r i' <->
  (b i = Done (r, i') /\ backtracks r = false) \/ (fails b i false /\ chosen bs i r i').
Proof.
  split.
  - intros H. inversion H; subst; [auto|]. right. split; auto. destruct r0; try discriminate. do 3 eexists. split; [eassumption|]. split; reflexivity.
  - intros [[H1 H2]|[[e [r0 [i0 [F1 [F2 F3]]]]] H2]]; [apply chosen_here; auto|]. eapply chosen_later; [exact F1|destruct r0; try discriminate; reflexivity|auto].
Qed.
Lemma lang_or n {S1 S2 A} (p : parser C S1 A) (q : parser C S2 A) P1 Q1 P2 Q2 : lang n (fresh p) P1 Q1 -> lang n (fresh q) P2 Q2 ->
  lang n (fresh (or_ p q)) (fun w r a => P1 w r a \/ (Q1 (w ++ r) /\ P2 w r a)) (fun l => Q1 l /\ Q2 l).
Proof.
  intros L1 L2 i Hi Hp. destruct (L1 i Hi Hp) as [A1 A2], (L2 i Hi Hp) as [B1 B2]. destruct (or_ordered p q) as [O1 [O2 O3]]. split.
  - intros c a i'. split.
    + intros K. destruct (O3 _ _ _ K) as [H|H]; [|destruct (fails_not_ok _ _ _ _ _ (O2 _ H) K) as [K1 _]; rewrite okr_is_ok in K1; discriminate].
      rewrite chosen_cons, chosen_one in H. destruct H as [[H _]|[H1 [H3 _]]].
      * apply A1 in H. destruct H as [w [H1 [H2 H3]]]. exists w. auto.
      * apply B1 in H3. destruct H3 as [w [H3 [H4 H5]]]. exists w. split; [auto|]. split; [auto|]. right. split; auto.
        destruct H3 as [H3 _]. rewrite <- H3. apply A2. exact H1.
    + intros [w [K1 [K2 [K3|[K3 K4]]]]]; apply O1; rewrite chosen_cons, chosen_one.
      * left. split; [apply A1; eauto|destruct c; reflexivity].
      * right. destruct K1 as [K0 K1]. rewrite <- K0 in K3. apply A2 in K3. split; [exact K3|].
        split; [apply B1; exists w; split; [split; auto|auto]|destruct c; reflexivity].
  - split.
    + intros [e [r [j [K1 [K2 K3]]]]]. destruct (O3 _ _ _ K1) as [H|H].
      * rewrite chosen_cons, chosen_one in H. destruct r; try discriminate. destruct H as [[_ H]|[_ [_ H]]]; discriminate.
      * inversion H as [|x l H1 H2]; subst. inversion H2 as [|x l H3 H4]; subst. split; [apply A2|apply B2]; auto.
    + intros [K1 K2]. apply O2. constructor; [apply A2; auto|]. constructor; [apply B2; auto|constructor].
Qed.

Fixpoint choiceP {A} (l : list ((list T -> list T -> A -> Prop) * (list T -> Prop))) (w r : list T) (a : A) : Prop :=
  match l with
  | [] => False
  | [(P, _)] => P w r a
  | (P, Q) :: l => P w r a \/ (Q (w ++ r) /\ choiceP l w r a)
  end.
Fixpoint choiceQ {A} (l : list ((list T -> list T -> A -> Prop) * (list T -> Prop))) (t : list T) : Prop :=
  match l with
  | [] => True
  | [(_, Q)] => Q t
  | (_, Q) :: l => Q t /\ choiceQ l t
  end.
Lemma lang_choice_list n {A} : forall (bs : list (beh A)) PQ, Forall2 (fun b pq => lang n b (fst pq) (snd pq)) bs PQ ->
  forall i, length (rest i) < n -> ipart i = false ->
  (forall c a i', chosen bs i (okr c a) i' <-> exists w, advanced_by i w i' /\ c = consumed_some w /\ choiceP PQ w (rest i') a) /\
  (none_matches bs i <-> choiceQ PQ (rest i)).
Proof.
  induction bs as [|b bs IH]; intros PQ H i Hi Hp; inversion H as [|b' [P Q] bs' PQ' H1 H2]; subst.
  - split; [intros c a i'; split; [intros K; inversion K|intros [w [_ [_ []]]]]|]. split; [intros _; exact I|constructor].
  - destruct (H1 i Hi Hp) as [A1 A2]. destruct (IH _ H2 i Hi Hp) as [B1 B2].
    cbn [fst snd] in *. split.
    + intros c a i'. rewrite chosen_cons, B1, A2. destruct PQ' as [|pq PQ''].
      { cbn [choiceP]. rewrite <- A1. split; [intros [[K _]|[_ [w [_ [_ []]]]]]; exact K|intros K; left; split; [exact K|destruct c; reflexivity]]. }
      change (choiceP ((P, Q) :: pq :: PQ'')) with (fun w r a => P w r a \/ (Q (w ++ r) /\ choiceP (pq :: PQ'') w r a)). cbv beta. split.
      * intros [[K _]|[K1 [w [K2 [K3 K4]]]]]; [apply A1 in K; destruct K as [w [K1 [K2 K3]]]; exists w; auto|].
        exists w. split; [auto|]. split; [auto|]. right. split; auto. destruct K2 as [K2 _]. rewrite <- K2. auto.
      * intros [w [K1 [K2 [K3|[K3 K4]]]]]; [left; split; [apply A1; eauto|destruct c; reflexivity]|right].
        split; [destruct K1 as [K1 _]; rewrite K1; auto|eauto].
    + unfold none_matches in *. rewrite Forall_cons_iff, B2, A2. destruct PQ' as [|pq PQ'']; [cbn; tauto|reflexivity].
Qed.
Lemma lang_choice n {A SS} (t : alts (C:=C) A SS) PQ : Forall2 (fun b pq => lang n b (fst pq) (snd pq)) (alts_beh t) PQ ->
  lang n (fresh (choice t)) (choiceP PQ) (choiceQ PQ).
Proof.
  intros H i Hi Hp. destruct (lang_choice_list n _ _ H i Hi Hp) as [A1 A2]. destruct (choice_ordered t) as [O1 [O2 O3]]. split.
  - intros c a i'. rewrite <- A1. split; [|apply O1]. intros K. destruct (O3 _ _ _ K) as [F|F]; [exact F|].
    destruct (fails_not_ok _ _ _ _ _ (O2 _ F) K) as [K1 _]. rewrite okr_is_ok in K1. discriminate.
  - rewrite <- A2. split; [|apply O2]. intros [e [r [j [K1 [K2 K3]]]]]. destruct (O3 _ _ _ K1) as [F|F]; [exfalso|exact F].
    destruct r; try discriminate. clear - F. induction (alts_beh t); inversion F; subst; [discriminate|auto].
Qed.

Lemma lang_optional n {S A} (p : parser C S A) P Q : lang n (fresh p) P Q ->
  lang n (fresh (optional p)) (fun w r o => match o with Some a => P w r a | None => w = [] /\ Q r end) (fun _ => False).
Proof.
  intros L i Hi Hp. destruct (L i Hi Hp) as [A1 A2]. destruct (optional_spec p i) as [O1 [O2 [O3 [O4 O5]]]]. split.
  - intros c o i'. split.
    + intros K. apply O4 in K. destruct K as [[a [-> K]]|[-> [-> [-> K]]]]; [apply A1; auto|]. exists []. split; [apply adv_self|]. split; [reflexivity|].
      split; [reflexivity|]. apply A2. auto.
    + intros [w [K1 [-> K3]]]. destruct o as [a|]; [apply O1, A1; eauto|]. destruct K3 as [-> K3]. apply adv_nil in K1. subst i'.
      apply O2, A2. auto.
  - split; [|intros []]. intros [e K]. apply O5 in K. destruct K as [K _]. discriminate.
Qed.

(** Repetition. *)
Inductive star {A} (P : list T -> list T -> A -> Prop) : list T -> list T -> list A -> Prop :=
| star_nil : forall r, star P [] r []
| star_cons : forall w1 w2 r a l, P w1 (w2 ++ r) a -> star P w2 r l -> star P (w1 ++ w2) r (a :: l).
Lemma lang_reps_gen n {A} (ok : input C -> bool -> A -> input C -> Prop) P :
  (forall i, length (rest i) < n -> ipart i = false -> forall c a i', ok i c a i' <-> exists w, advanced_by i w i' /\ c = consumed_some w /\ P w (rest i') a) ->
  forall i, length (rest i) < n -> ipart i = false -> forall c l i',
  reps ok i c l i' <-> exists w, advanced_by i w i' /\ c = consumed_some w /\ star P w (rest i') l.
Proof.
  intros L i Hi Hp c l i'. split.
  - intros H. induction H as [i|i c a i1 c' l i' H1 H2 IH].
    + exists []. split; [apply adv_self|]. split; [reflexivity|constructor].
    + apply (L i Hi Hp) in H1. destruct H1 as [w1 [K1 [-> K2]]]. pose proof (adv_len _ _ _ K1).
      destruct IH as [w2 [J1 [-> J2]]]; [lia|rewrite (adv_part _ _ _ K1); auto|].
      exists (w1 ++ w2). split; [eapply adv_by_trans; eauto|]. split; [rewrite consumed_app; reflexivity|]. constructor; auto.
      destruct J1 as [J1 _]. rewrite <- J1. auto.
  - intros [w [H1 [-> H2]]]. remember (rest i') as r eqn:Er. revert i Hi Hp i' H1 Er. induction H2 as [r|w1 w2 r a l K1 K2 IH]; intros i Hi Hp i' H1 ->.
    + apply adv_nil in H1. subst. constructor.
    + apply adv_split in H1. destruct H1 as [j [J1 [J2 J3]]]. rewrite consumed_app. rewrite <- J3 in K1. econstructor; [apply (L i Hi Hp); eauto|].
      pose proof (adv_len _ _ _ J1). apply IH; [lia|rewrite (adv_part _ _ _ J1); auto|auto|auto].
Qed.
Lemma lang_reps n {A} (b : beh A) P Q : lang n b P Q -> forall i, length (rest i) < n -> ipart i = false -> forall c l i',
  reps (succeeds b) i c l i' <-> exists w, advanced_by i w i' /\ c = consumed_some w /\ star P w (rest i') l.
Proof. intros L. apply lang_reps_gen. intros i Hi Hp. apply (L i Hi Hp). Qed.
Lemma star_len {A} (P : list T -> list T -> A -> Prop) : (forall r a, ~ P [] r a) -> forall w r l, star P w r l -> length l <= length w.
Proof.
  intros H w r l K. induction K as [|w1 w2 r a l K1 K2 IH]; [reflexivity|]. rewrite app_length. destruct w1; [exfalso; eapply H; eauto|cbn; lia].
Qed.
Lemma lang_many n {S A} (p : parser C S A) P Q : history_free false p -> n <= fuel C -> (forall r a, ~ P [] r a) -> lang n (fresh p) P Q ->
  lang n (fresh (many p)) (fun w r l => star P w r l /\ Q r) (fun _ => False).
Proof.
  intros H Hn HP L i Hi Hp. split.
  - intros c l i'. rewrite (many_ok p H), (lang_reps n _ _ _ L i Hi Hp). split.
    + intros [[w [K1 [K2 K3]]] [K4 K5]]. exists w. split; [auto|]. split; [auto|]. split; [auto|].
      pose proof (adv_len _ _ _ K1). apply (L i'); [lia|rewrite (adv_part _ _ _ K1); auto|auto].
    + intros [w [K1 [K2 [K3 K4]]]]. pose proof (adv_len _ _ _ K1). split; [eauto|]. split.
      * apply (L i'); [lia|rewrite (adv_part _ _ _ K1); auto|auto].
      * pose proof (star_len _ HP _ _ _ K3). lia.
  - split; [|intros []]. intros [e K]. apply (many_fails p H) in K. destruct K as [K _]. discriminate.
Qed.
Lemma lang_many1 n {S A} (p : parser C S A) P Q : history_free false p -> n <= fuel C -> (forall r a, ~ P [] r a) -> lang n (fresh p) P Q ->
  lang n (fresh (many1 p)) (fun w r l => l <> [] /\ star P w r l /\ Q r) Q.
Proof.
  intros H Hn HP L i Hi Hp. split.
  - intros c l i'. rewrite (many1_ok p H), (lang_reps n _ _ _ L i Hi Hp). split.
    + intros [K0 [[w [K1 [K2 K3]]] [K4 K5]]]. exists w. split; [auto|]. split; [auto|]. split; [auto|]. split; [auto|].
      pose proof (adv_len _ _ _ K1). apply (L i'); [lia|rewrite (adv_part _ _ _ K1); auto|auto].
    + intros [w [K1 [K2 [K0 [K3 K4]]]]]. pose proof (adv_len _ _ _ K1). split; [auto|]. split; [eauto|]. split.
      * apply (L i'); [lia|rewrite (adv_part _ _ _ K1); auto|auto].
      * pose proof (star_len _ HP _ _ _ K3). lia.
  - rewrite <- (proj2 (L i Hi Hp)). unfold fails at 1. setoid_rewrite (many1_fails p H). split.
    + intros [e [K|[K _]]]; [exists e; auto|discriminate].
    + intros [e K]. exists e. auto.
Qed.
Lemma lang_skip_many n {S A} (p : parser C S A) P Q : history_free false p -> n <= fuel C -> (forall r a, ~ P [] r a) -> lang n (fresh p) P Q ->
  lang n (fresh (skip_many p)) (fun w r _ => (exists l, star P w r l) /\ Q r) (fun _ => False).
Proof.
  intros H Hn HP L i Hi Hp. pose proof (lang_many n p P Q H Hn HP L i Hi Hp) as [A1 A2]. split.
  - intros c u i'. rewrite (skip_many_ok p H). split.
    + intros [l K]. apply A1 in K. destruct K as [w [K1 [K2 [K3 K4]]]]. exists w. eauto 6.
    + intros [w [K1 [K2 [[l K3] K4]]]]. exists l. apply A1. eauto.
  - split; [|intros []]. intros K. apply A2. destruct K as [e K]. apply (skip_many_fails p H) in K. exists e. exact K.
Qed.

(** Items separated by something. *)
Definition sepP {A B} (P : list T -> list T -> A -> Prop) (Ps : list T -> list T -> B -> Prop) (w r : list T) (a : A) : Prop :=
  exists w1 w2 x, w = w1 ++ w2 /\ Ps w1 (w2 ++ r) x /\ P w2 r a.
Lemma lang_sep_by n {S1 S2 A B} (p : parser C S1 A) (s : parser C S2 B) P Q Ps Qs : history_free false p -> history_free false s -> n <= fuel C ->
  (forall r a, ~ P [] r a) -> (forall r a, ~ Ps [] r a) -> lang n (fresh p) P Q -> lang n (fresh s) Ps Qs ->
  lang n (fresh (sep_by p s)) (fun w r l => (w = [] /\ l = [] /\ Q r) \/
    (exists w1 w2 a l', w = w1 ++ w2 /\ l = a :: l' /\ P w1 (w2 ++ r) a /\ star (sepP P Ps) w2 r l' /\ Qs r)) (fun _ => False).
Proof.
  intros Hp Hs Hn HP HPs L Ls i Hi Hpt. destruct (L i Hi Hpt) as [A1 A2].
  assert (X : forall i, length (rest i) < n -> ipart i = false -> forall c a i', pair_ok (fresh s) (fresh p) i c a i' <->
    exists w, advanced_by i w i' /\ c = consumed_some w /\ sepP P Ps w (rest i') a).
  { intros j Hj Hpj c a i'. unfold pair_ok. split.
    - intros [c1 [x [i1 [c2 [K1 [K2 ->]]]]]]. apply (Ls j Hj Hpj) in K1. destruct K1 as [w1 [K1 [-> K1']]]. pose proof (adv_len _ _ _ K1).
      apply (L i1) in K2; [|lia|rewrite (adv_part _ _ _ K1); auto]. destruct K2 as [w2 [K2 [-> K2']]].
      exists (w1 ++ w2). split; [eapply adv_by_trans; eauto|]. split; [rewrite consumed_app; reflexivity|]. exists w1, w2, x.
      split; [reflexivity|]. split; [|auto]. destruct K2 as [K2 _]. rewrite <- K2. auto.
    - intros [w [K [-> [w1 [w2 [x [-> [K1 K2]]]]]]]]. apply adv_split in K. destruct K as [i1 [J1 [J2 J3]]]. rewrite <- J3 in K1. pose proof (adv_len _ _ _ J1).
      exists (consumed_some w1), x, i1, (consumed_some w2). split; [apply (Ls j Hj Hpj); eauto|].
      split; [apply (L i1); [lia|rewrite (adv_part _ _ _ J1); auto|eauto]|apply consumed_app]. }
  assert (Y : forall i, length (rest i) < n -> ipart i = false -> (pair_fails (fresh s) (fresh p) i false <-> Qs (rest i))).
  { intros j Hj Hpj. unfold pair_fails. rewrite (proj2 (Ls j Hj Hpj)). split; [|auto]. intros [K|[c1 [x [i1 [c2 [K1 [_ K3]]]]]]]; auto.
    destruct c1; [discriminate|]. apply (Ls j Hj Hpj) in K1. destruct K1 as [w [_ [K1 K2]]]. destruct w; [|discriminate]. exfalso. eapply HPs; eauto. }
  split.
  - intros c l i'. rewrite (sep_by_ok p s Hp Hs), (sep_by1_ok p s Hp Hs). split.
    + intros [[c1 [a [i1 [c2 [l' [K1 [K2 [K3 [K4 [-> ->]]]]]]]]]]|[-> [-> [-> K]]]].
      * apply A1 in K1. destruct K1 as [w1 [K1 [-> K1']]]. pose proof (adv_len _ _ _ K1). pose proof (adv_part _ _ _ K1).
        apply (lang_reps_gen n _ _ X) in K2; [|lia|congruence]. destruct K2 as [w2 [K2 [-> K2']]]. pose proof (adv_len _ _ _ K2). pose proof (adv_part _ _ _ K2).
        exists (w1 ++ w2). split; [eapply adv_by_trans; eauto|]. split; [rewrite consumed_app; reflexivity|]. right. exists w1, w2, a, l'.
        split; [reflexivity|]. split; [reflexivity|]. split; [destruct K2 as [K2 _]; rewrite <- K2; auto|]. split; auto.
        apply (Y i'); [lia|congruence|auto].
      * exists []. split; [apply adv_self|]. split; [reflexivity|]. left. split; auto. split; auto. apply A2. auto.
    + intros [w [K [-> [[-> [-> K1]]|[w1 [w2 [a [l' [-> [-> [K1 [K2 K3]]]]]]]]]]]].
      * right. apply adv_nil in K. subst i'. split; auto. split; auto. split; auto. apply A2. auto.
      * left. apply adv_split in K. destruct K as [i1 [J1 [J2 J3]]]. rewrite <- J3 in K1. pose proof (adv_len _ _ _ J1). pose proof (adv_part _ _ _ J1).
        pose proof (adv_len _ _ _ J2). pose proof (adv_part _ _ _ J2).
        exists (consumed_some w1), a, i1, (consumed_some w2), l'. split; [apply A1; eauto|]. split.
        { apply (lang_reps_gen n _ _ X); [lia|congruence|eauto]. }
        split; [apply (Y i'); [lia|congruence|auto]|]. split; [|split; [reflexivity|apply consumed_app]].
        assert (length l' <= length w2); [|lia]. eapply star_len; [|exact K2].
        intros r x [v1 [v2 [y [E0 [E1 E2]]]]]. destruct v1; [eapply HPs; eauto|discriminate].
  - split; [|intros []]. intros K. apply (sep_by_fails p s) in K. destruct K as [K _]. discriminate.
Qed.

(** Tuples. *)
Lemma tuple_cons_runs {S A SS B} (p : parser C S A) (t : tup (C:=C) SS B) : runs_after (fresh p) (fun _ => fresh (tuple t)) pair (fresh (tuple (TC p t))).
Proof.
  split.
  - intros i c d i'. rewrite tuple_succeeds. cbn [seq_ok]. split.
    + intros [c1 [i1 [c2 [H1 [H2 ->]]]]]. exists c1, (fst d), i1, c2, (snd d). split; [exact H1|]. split; [apply tuple_succeeds; exact H2|].
      split; [reflexivity|destruct d; reflexivity].
    + intros [c1 [a [i1 [c2 [x [H1 [H2 [-> ->]]]]]]]]. apply tuple_succeeds in H2. exists c1, i1, c2. auto.
  - intros i c. rewrite tuple_fails. cbn [seq_stop]. split.
    + intros [k [c0 [f [ib [ia [[[-> [-> [-> H]]]|[c1 [a [i1 [k' [c2 [H1 [H2 [-> ->]]]]]]]]] ->]]]]]].
      * left. destruct f; do 3 eexists; (split; [exact H|split; reflexivity]).
      * right. exists c1, a, i1, (c2 || match f with inl _ => true | inr _ => false end). split; [exact H1|]. rewrite orb_assoc. split; [|reflexivity].
        apply tuple_fails. eauto 8.
    + intros [H|[c1 [a [i1 [c2 [H1 [H2 ->]]]]]]].
      * destruct H as [e [r [j [K1 [K2 K3]]]]]. destruct r as [| |e0|e0]; try discriminate.
        { exists 0, false, (inl e0), i, j. split; [left; auto|auto]. }
        { exists 0, false, (inr e0), i, j. split; [left; auto|auto]. }
      * apply tuple_fails in H2. destruct H2 as [k [c0 [f [ib [ia [H2 ->]]]]]].
        exists (Datatypes.S k), (c1 || c0), f, ib, ia. rewrite orb_assoc. split; [|reflexivity]. right. exists c1, a, i1, k, c0. auto.
Qed.
Lemma lang_tuple1 n {S A} (p : parser C S A) P Q : lang n (fresh p) P Q -> lang n (fresh (tuple (T1 p))) P Q.
Proof.
  apply lang_same.
  - intros. rewrite tuple_succeeds. reflexivity.
  - intros i. rewrite tuple_fails. cbn [seq_stop]. split.
    + intros [k [c0 [f [ib [ia [[-> [-> [-> H]]] Hc]]]]]]. destruct f; [discriminate|]. do 3 eexists. split; [exact H|split; reflexivity].
    + intros [e [r [j [K1 [K2 K3]]]]]. destruct r as [| |e0|e0]; try discriminate. exists 0, false, (inr e0), i, j. auto.
Qed.

(** Literals. *)
Lemma lang_tokens_cmp n (l : list T) (L : lawful C) : l <> [] ->
  lang n (fresh (tokens_cmp l (tok_eqb C))) (fun w _ a => w = l /\ a = l) (fun t => match t, l with x :: _, y :: _ => x <> y | _, _ => True end).
Proof.
  intros Hl i _ Hp. pose proof (tokens_cmp_literal (tok_eqb C) l true i tt) as [H1 [H2 H3]].
  assert (F2 : forall (a b : list T), Forall2 (fun x t => tok_eqb C x t = true) a b <-> a = b).
  { induction a as [|x a IH]; intros [|y b]; split; intros K; try (inversion K; fail); try constructor; try discriminate.
    - inversion K; subst. f_equal; [apply (law_tok L); auto|apply IH; auto].
    - inversion K; subst. apply (law_tok L). auto.
    - apply IH. inversion K; auto. }
  unfold fresh, succeeds, fails, fails_with in *. change (p_init (tokens_cmp l (tok_eqb C))) with tt.
  destruct (literal_outcome_total (tok_eqb C) l i) as [ts r H M|l1 l2 x ts r t H Hx M N|l1 l2 x Hx M].
  - destruct (H1 ts r H M) as [j [K1 K2]]. rewrite K1. cbn [omap fst]. apply F2 in M. subst ts.
    destruct l as [|y l']; [congruence|]. split.
    + intros c a i'. split.
      * intros K. apply done_commit in K. destruct K as [-> [-> ->]]. exists (y :: l'). split; [auto|]. split; [reflexivity|]. auto.
      * intros [w [K3 [-> [-> ->]]]]. cbn. rewrite (advanced_by_fun _ _ _ _ K2 K3). reflexivity.
    + rewrite H. cbn. split; [intros [e [r0 [j0 [K3 [K4 K5]]]]]; inversion K3; subst; discriminate|congruence].
  - destruct (H2 l1 x l2 ts t r H Hx M N) as [j K1]. rewrite K1. cbn [omap fst]. apply F2 in M. subst ts. split.
    + intros c a i'. split; [destruct (length l1 =? 0), c; discriminate|]. intros [w [K3 [-> [-> ->]]]]. exfalso.
      destruct K3 as [K3 _]. rewrite H, Hx in K3. rewrite <- app_assoc in K3. apply app_inv_head in K3. inversion K3; subst.
      rewrite (proj2 (law_tok L x x) eq_refl) in N. discriminate.
    + rewrite H, Hx. destruct l1 as [|y l1]; cbn.
      * split; [|intros _; do 3 eexists; split; [reflexivity|split; reflexivity]]. intros _ ->. rewrite (proj2 (law_tok L x x) eq_refl) in N. discriminate.
      * split; [intros [e [r0 [j0 [K3 [K4 K5]]]]]; inversion K3; subst; discriminate|congruence].
  - destruct (H3 l1 x l2 Hx M) as [j [_ K1]]. rewrite K1. cbn [omap fst]. apply F2 in M. split.
    + intros c a i'. split; [destruct ((length l1 =? 0) && negb (ipart i)), c; discriminate|]. intros [w [K3 [-> [-> ->]]]]. exfalso.
      destruct K3 as [K3 _]. rewrite <- M, Hx in K3. apply (f_equal (@length _)) in K3. rewrite !app_length in K3. cbn in K3. lia.
    + rewrite <- M, Hx, Hp. destruct l1 as [|y l1]; cbn.
      * split; [auto|]. intros _. do 3 eexists; split; [reflexivity|split; reflexivity].
      * split; [intros [e [r0 [j0 [K3 [K4 K5]]]]]; inversion K3; subst; discriminate|congruence].
Qed.

(** Through [parse]. *)
Lemma parse_succeeds {S A} (p : parser C S A) i a i' : stream_agrees p -> (parse p i = Done (inl a, i') <-> exists c, succeeds (fresh p) i c a i').
Proof.
  intros HS. specialize (HS i). unfold parse, succeeds.
  destruct (fresh p i) as [[r j]| |], (p_stream p i) as [[r2 j2]| |]; try destruct HS; cbn [omap fst snd].
  2,3: split; [discriminate|intros [c K]; discriminate].
  destruct H0 as [H1 H2]. unfold shape in H. injection H as Hc Hv. split.
  - intros Q. injection Q as Q1 Q2. subst j2.
    assert (V : value_of r2 = Some a) by (destruct r2; cbn in *; congruence). rewrite V in Hv.
    assert (O : is_ok r = true) by (destruct r; cbn in *; congruence). destruct (H1 O) as [-> ->]. exists (committed r). destruct r; cbn in *; congruence.
  - intros [c Q]. injection Q as -> ->. destruct (H1 (okr_is_ok _ _)) as [-> ->]. destruct c; reflexivity.
Qed.
Lemma lang_parse n {S A} (p : parser C S A) P Q : stream_agrees p -> lang n (fresh p) P Q -> forall i, length (rest i) < n -> ipart i = false ->
  forall a i', parse p i = Done (inl a, i') <-> exists w, advanced_by i w i' /\ P w (rest i') a.
Proof.
  intros H L i Hi Hp a i'. destruct (L i Hi Hp) as [H1 _]. rewrite (parse_succeeds p i a i' H). split.
  - intros [c K]. apply H1 in K. destruct K as [w [K1 [_ K2]]]. eauto.
  - intros [w [K1 K2]]. exists (consumed_some w). apply H1. eauto.
Qed.
Lemma macro_agrees {S A} (p : parser C S A) : stream_agrees (parser_fn0 p).
Proof. apply default_stream_agrees. reflexivity. Qed.
Lemma rec_macro_agrees {S A} (F : parser C unit A -> parser C S A) k : 0 < k -> stream_agrees (rec_macro F k).
Proof. destruct k as [|k]; [lia|]. intros _. apply macro_agrees. Qed.
End Lang.
