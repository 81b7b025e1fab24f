(** Grammars without left recursion always have a result; LL(1) grammars are parsed without backtracking. *)
From Coq Require Import String List Bool Arith NArith Lia.
Import ListNotations.
From Verif Require Import Base Parser GrammarSpec GrammarProofs.
Unset Implicit Arguments.

Section Ev.
Context {C : Cfg}.
Notation T := (tok C).
Notation tree := (tree C).
Notation gram := (gram C).
Variable G : nat -> gram.
Notation ev := (ev G).
Notation derives := (derives G).

Lemma left_below_mono nu rank (g : gram) : forall m m', m <= m' -> left_below nu rank m g -> left_below nu rank m' g.
Proof. induction g; cbn; intros m m' Hm H; intuition eauto; lia. Qed.
Lemma left_below_ex nu rank (g : gram) : exists m, left_below nu rank m g.
Proof.
  induction g; cbn; auto; try (exists 0; exact I).
  - destruct IHg1 as [m1 H1], IHg2 as [m2 H2]. exists (max m1 m2). split; [|intros _]; eapply left_below_mono; try eassumption; lia.
  - destruct IHg1 as [m1 H1], IHg2 as [m2 H2]. exists (max m1 m2). split; eapply left_below_mono; try eassumption; lia.
  - exists (S (rank n)). lia.
Qed.

Section Total.
Variables (nu : nat -> bool) (rank : nat -> nat).
Hypothesis WF : well_founded_grammar G nu rank.
Lemma ev_consumes g l c r : ev g l c r -> forall x, r = Some (x, l) -> nullable nu g = true.
Proof.
  induction 1; cbn [nullable]; intros z E; try discriminate; auto.
  - injection E as _ E. exfalso. apply (f_equal (@length T)) in E. cbn in E. lia.
  - injection E as _ E. subst l2. pose proof (ev_suffix _ _ _ _ _ H) as [v Hv]. pose proof (ev_suffix _ _ _ _ _ H0) as [w Hw].
    assert (length v + length w = 0) by (apply (f_equal (@length T)) in Hv; apply (f_equal (@length T)) in Hw; rewrite app_length in *; lia).
    destruct v; [|cbn in *; lia]. cbn in Hv. subst l1. rewrite (IHev1 x), (IHev2 y); auto.
  - rewrite (IHev _ E). reflexivity.
  - rewrite (IHev2 _ E). apply orb_true_r.
  - apply (IHev _ E).
  - destruct (WF n) as [W _]. apply W. apply (IHev _ E).
Qed.
Lemma ev_nonnull g l c x l1 : nullable nu g = false -> ev g l c (Some (x, l1)) -> length l1 < length l.
Proof.
  intros Hn H. apply (ev_shorter _ _ _ _ _ _ H). intros ->. rewrite (ev_consumes _ _ _ _ H x eq_refl) in Hn. discriminate.
Qed.
Lemma ev_many_shape a l c r : ev (GMany a) l c r -> (exists xs l1, r = Some (Items xs, l1)) \/ (r = None /\ c = true).
Proof. intros H. inversion H; subst; eauto. Qed.
Lemma total_aux : forall N m g l, length l < N -> left_below nu rank m g -> loops_consume nu g -> exists c r, ev g l c r.
Proof.
  induction N as [|N IHN]; [intros; lia|]. intros m. induction m as [m IHm] using lt_wf_ind. 
  induction g as [f| |a IHa b IHb|a IHa b IHb|a IHa|a IHa|a IHa|a IHa|n]; cbn [left_below loops_consume]; intros l Hl Hb Hc.
  - destruct l as [|t l]; [eexists _, _; apply ev_tok_end|]. destruct (f t) eqn:E; eexists _, _; [apply ev_tok|apply ev_tok_no]; auto.
  - eexists _, _. apply ev_eps.
  - destruct Hb as [Ha Hb], Hc as [Ca Cb]. destruct (IHa l Hl Ha Ca) as [c1 [[[x l1]|] H1]]; [|eexists _, _; eapply ev_seq_first; eauto].
    assert (K : exists c2 r2, ev b l1 c2 r2).
    { destruct (nullable nu a) eqn:Hn.
      - apply IHb; auto. apply ev_suffix in H1. destruct H1 as [w ->]. rewrite app_length in Hl. lia.
      - destruct (left_below_ex nu rank b) as [m' Hm']. apply (IHN m'); auto. apply ev_nonnull in H1; auto. lia. }
    destruct K as [c2 [[[y l2]|] K]]; eexists _, _; [eapply ev_seq|eapply ev_seq_second]; eauto.
  - destruct Hb as [Ha Hb], Hc as [Ca Cb]. destruct (IHa l Hl Ha Ca) as [c1 [[x|] H1]]; [eexists _, _; eapply ev_alt_first; eauto|].
    destruct c1; [eexists _, _; eapply ev_alt_committed; eauto|]. destruct (IHb l Hl Hb Cb) as [c2 [r2 H2]]. eexists _, _. eapply ev_alt_second; eauto.
  - destruct Hc as [Hn Ca]. destruct (IHa l Hl Hb Ca) as [c1 [[[x l1]|] H1]].
    + destruct (IHN m (GMany a) l1) as [c2 [r2 H2]]; [apply ev_nonnull in H1; auto; lia|exact Hb|split; auto|].
      destruct (ev_many_shape _ _ _ _ H2) as [[xs [l2 ->]]|[-> ->]]; eexists _, _; [eapply ev_many_more|eapply ev_many_fails]; eauto.
    + destruct c1; eexists _, _; [eapply ev_many_committed|eapply ev_many_stop]; eauto.
  - destruct (IHa l Hl Hb Hc) as [c1 [[x|] H1]]; eexists _, _; [eapply ev_try|eapply ev_try_no]; eauto.
  - destruct (IHa l Hl Hb Hc) as [c1 [[x|] H1]]; eexists _, _; [eapply ev_not_no|eapply ev_not]; eauto.
  - destruct (IHa l Hl Hb Hc) as [c1 [[[x l1]|] H1]]; eexists _, _; [eapply ev_look|eapply ev_look_no]; eauto.
  - destruct (WF n) as [_ [W1 W2]]. destruct (IHm (rank n) Hb (G n) l Hl W1 W2) as [c [r H]]. eexists _, _. apply ev_call. eauto.
Qed.
Lemma total g l : loops_consume nu g -> exists c r, ev g l c r.
Proof. intros H. destruct (left_below_ex nu rank g) as [m Hm]. eapply (total_aux (S (length l)) m); eauto. Qed.
End Total.

(** * Soundness for context free grammars *)
Section Plain.
Hypothesis RP : forall n, plain (G n) = true.
Lemma ev_derives g l c r : ev g l c r -> plain g = true -> forall x l1, r = Some (x, l1) -> exists w, l = w ++ l1 /\ derives g w x.
Proof.
  induction 1; cbn [plain]; rewrite ?andb_true_iff; intros HP z l' E; try discriminate.
  - injection E as <- <-. exists [t]. split; auto. constructor; auto.
  - injection E as <- <-. exists []. split; auto. constructor.
  - injection E as <- <-. destruct (IHev1 (proj1 HP) _ _ eq_refl) as [v [-> Hv]]. destruct (IHev2 (proj2 HP) _ _ eq_refl) as [w [-> Hw]].
    exists (v ++ w). split; [apply app_assoc|constructor; auto].
  - destruct (IHev (proj1 HP) _ _ E) as [v [-> Hv]]. exists v. split; auto. apply de_left; auto.
  - destruct (IHev2 (proj2 HP) _ _ E) as [v [-> Hv]]. exists v. split; auto. apply de_right; auto.
  - injection E as <- <-. exists []. split; auto. constructor.
  - injection E as <- <-. destruct (IHev1 HP _ _ eq_refl) as [v [-> Hv]]. destruct (IHev2 HP _ _ eq_refl) as [w [-> Hw]].
    exists (v ++ w). split; [apply app_assoc|constructor; auto].
  - destruct (IHev HP _ _ E) as [v [-> Hv]]. exists v. split; auto. apply de_try; auto.
  - destruct (IHev (RP n) _ _ E) as [v [-> Hv]]. exists v. split; auto. apply de_call; auto.
Qed.
End Plain.

(** * LL(1) *)
Section LL1.
Variables (nu : nat -> bool) (fi fo : nat -> T -> bool) (rank : nat -> nat).
Hypothesis LL : ll1_grammar G nu fi fo rank.
Notation nullable := (nullable nu).
Notation first := (first nu fi).
Notation ll1 := (ll1 nu fi fo).
Lemma ll1_plain g : forall fol, ll1 fol g -> plain g = true.
Proof. induction g; cbn; intros fol H; auto; rewrite ?andb_true_iff; intuition eauto. Qed.
Lemma rules_plain n : plain (G n) = true.
Proof. destruct (LL n) as [_ [_ [_ H]]]. eapply ll1_plain; eauto. Qed.
Lemma derives_nullable g w x : derives g w x -> w = [] -> nullable g = true.
Proof.
  induction 1; cbn; intros E; try discriminate; auto.
  - apply app_eq_nil in E. destruct E. rewrite IHderives1, IHderives2; auto.
  - rewrite IHderives; auto.
  - rewrite IHderives; auto. apply orb_true_r.
  - destruct (LL n) as [<- _]. auto.
Qed.
Lemma derives_first g w x : derives g w x -> forall t w', w = t :: w' -> first g t = true.
Proof.
  induction 1; cbn; intros t0 w' E; try discriminate; auto.
  - injection E as -> _. auto.
  - destruct v as [|t1 v]; cbn in E.
    + subst w. rewrite (derives_nullable _ _ _ H eq_refl), (IHderives2 t0 w') by auto. apply orb_true_r.
    + injection E as -> <-. rewrite (IHderives1 t0 v); auto.
  - rewrite (IHderives t0 w'); auto.
  - rewrite (IHderives t0 w') by auto. apply orb_true_r.
  - destruct v as [|t1 v]; cbn in E; [apply (IHderives2 t0 w'); auto|]. injection E as -> <-. rewrite (IHderives1 t0 v); auto.
  - eapply IHderives; eauto.
  - destruct (LL n) as [_ [H1 _]]. apply H1. eauto.
Qed.
Lemma next_not_in_or p q (l : list T) : next_not_in (fun t => p t || q t) l -> next_not_in p l /\ next_not_in q l.
Proof. destruct l; cbn; auto. apply orb_false_iff. Qed.
(** The next token decides. *)
Lemma predict : forall m g l fol, left_below nu rank m g -> ll1 fol g -> next_not_in (first g) l ->
  if nullable g then exists x, ev g l false (Some (x, l)) else ev g l false None.
Proof.
  intros m. induction m as [m IHm] using lt_wf_ind.
  induction g as [f| |a IHa b IHb|a IHa b IHb|a IHa|a IHa|a IHa|a IHa|n]; cbn [left_below GrammarSpec.ll1 GrammarSpec.nullable]; intros l fol Hb HL Hl.
  - destruct l as [|t l]; [apply ev_tok_end|apply ev_tok_no; exact Hl].
  - eexists. apply ev_eps.
  - destruct Hb as [Ba Bb], HL as [La Lb]. cbn [GrammarSpec.first] in Hl. apply next_not_in_or in Hl. destruct Hl as [H1 H2]. specialize (IHa l _ Ba La H1).
    destruct (nullable a); cbn [andb] in *.
    + specialize (IHb l _ (Bb eq_refl) Lb H2). destruct IHa as [x Hx]. destruct (nullable b); [destruct IHb as [y Hy]; eexists; apply (ev_seq Hx Hy)|apply (ev_seq_second (b:=b) Hx IHb)].
    + apply ev_seq_first; auto.
  - destruct Hb as [Ba Bb], HL as [Hn [_ [_ [La Lb]]]]. cbn [GrammarSpec.first] in Hl. apply next_not_in_or in Hl. destruct Hl as [H1 H2].
    specialize (IHa l _ Ba La H1). specialize (IHb l _ Bb Lb H2). rewrite Hn in *. cbn [orb].
    destruct (nullable b); [destruct IHb as [y Hy]; exists y; apply ev_alt_second; auto|apply ev_alt_second; auto].
  - destruct HL as [Hn [_ La]]. specialize (IHa l _ Hb La Hl). rewrite Hn in IHa. eexists. apply ev_many_stop; auto.
  - specialize (IHa l _ Hb HL Hl). destruct (nullable a); [destruct IHa as [x Hx]; exists x; apply ev_try; auto|eapply ev_try_no; eauto].
  - destruct HL.
  - destruct HL.
  - destruct (LL n) as [W1 [W2 [W3 W4]]]. specialize (IHm (rank n) Hb (G n) l (fo n) W3 W4). rewrite W1 in IHm.
    assert (K : next_not_in (first (G n)) l).
    { destruct l as [|t l]; cbn in *; auto. destruct (first (G n) t) eqn:E; auto. rewrite (W2 t E) in Hl. discriminate. }
    specialize (IHm K). destruct (nu n); [destruct IHm as [x Hx]; exists x; apply ev_call; auto|apply ev_call; auto].
Qed.
Lemma predict_fail g l fol : ll1 fol g -> nullable g = false -> next_not_in (first g) l -> ev g l false None.
Proof.
  intros HL Hn Hl. destruct (left_below_ex nu rank g) as [m Hm]. pose proof (predict m g l fol Hm HL Hl) as K. rewrite Hn in K. auto.
Qed.
Definition some (w : list T) : bool := match w with [] => false | _ => true end.
Lemma some_app v w : some (v ++ w) = some v || some w.
Proof. destruct v; auto. Qed.
Lemma derives_ev g w x : derives g w x -> forall fol r, ll1 fol g -> next_in fol r -> ev g (w ++ r) (some w) (Some (x, r)).
Proof.
  induction 1; cbn [GrammarSpec.ll1]; intros fol r HL Hr.
  - apply ev_tok; auto.
  - apply ev_eps.
  - destruct HL as [La Lb]. rewrite some_app, <- app_assoc. eapply ev_seq; [eapply IHderives1; [exact La|]|eapply IHderives2; eauto].
    destruct w as [|t w]; cbn [app].
    + destruct r as [|t r]; cbn in *; auto. rewrite (derives_nullable _ _ _ H0 eq_refl), Hr. cbn. apply orb_true_r.
    + cbn. rewrite (derives_first _ _ _ H0 t w eq_refl). reflexivity.
  - destruct HL as [_ [_ [_ [La _]]]]. apply ev_alt_first. eauto.
  - destruct HL as [Hn [Hab [Haf [La Lb]]]]. apply ev_alt_second; [|eauto]. apply (predict_fail _ _ _ La Hn).
    destruct w as [|t w]; cbn [app].
    + destruct r as [|t r]; cbn in *; auto. destruct (first a t) eqn:E; auto. destruct (Haf (derives_nullable _ _ _ H eq_refl) t E Hr).
    + cbn. destruct (first a t) eqn:E; auto. destruct (Hab t E (derives_first _ _ _ H t w eq_refl)).
  - destruct HL as [Hn [Haf La]]. cbn. apply ev_many_stop. apply (predict_fail _ _ _ La Hn). destruct r as [|t r]; cbn in *; auto.
    destruct (first a t) eqn:E; auto. destruct (Haf t E Hr).
  - rewrite some_app, <- app_assoc. eapply ev_many_more; [eapply IHderives1; [apply HL|]|eapply IHderives2; eauto].
    destruct w as [|t w]; cbn [app].
    + destruct r as [|t r]; cbn in *; auto. rewrite Hr. apply orb_true_r.
    + cbn. pose proof (derives_first _ _ _ H0 t w eq_refl) as K. cbn in K. rewrite K. reflexivity.
  - apply ev_try. eauto.
  - apply ev_call. destruct (LL n) as [_ [_ [_ W]]]. apply (IHderives (fo n)); auto. destruct r; cbn in *; auto.
Qed.
Lemma ll1_exact g fol l x r : ll1 fol g -> next_in fol r -> 
  (forall c, ev g l c (Some (x, r)) -> exists w, l = w ++ r /\ derives g w x) /\ (forall w, l = w ++ r -> derives g w x -> ev g l (some w) (Some (x, r))).
Proof.
  intros HL Hr. split.
  - intros c H. eapply ev_derives; eauto; [apply rules_plain|eapply ll1_plain; eauto].
  - intros w -> H. eapply derives_ev; eauto.
Qed.
Lemma ll1_unambiguous g fol w x y : ll1 fol g -> derives g w x -> derives g w y -> x = y.
Proof.
  intros HL H1 H2. pose proof (derives_ev _ _ _ H1 fol [] HL I) as K1. pose proof (derives_ev _ _ _ H2 fol [] HL I) as K2.
  destruct (ev_det _ _ _ _ _ K1 _ _ K2) as [_ E]. congruence.
Qed.
End LL1.
End Ev.
