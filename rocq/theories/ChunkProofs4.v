(** Proofs for C29: sequences. *)
From Coq Require Import String List Bool Arith NArith Lia.
Import ListNotations.
From Verif Require Import Base Parser Token Combinator Sequence Choice Repeat RangeP Spec SeqSpec ChoiceSpec TidySpec RepeatSpec AgreeSpec.
From Verif Require Import ResultProofs SeqProofs CombProofs ChoiceProofs CombProofs2 RepeatProofs ChunkSpec ChunkProofs ChunkProofs2 ChunkProofs3.
Unset Implicit Arguments.

Section SeqChunk.
Context {C : Cfg}.
Notation T := (tok C).
Notation E := (Err C).
Notation nonempty := consumed_some.

(** [b] runs [b1] and then [k a]; only what the comparison needs. *)
Definition after {A B D} (b1 : @beh C A) (k : A -> @beh C B) (out : A -> B -> D) (b : @beh C D) : Prop :=
  forall i res i', b i = Done (res, i') -> exists r1 i1, b1 i = Done (r1, i1) /\
    match value_of r1 with
    | Some a => exists r2 i2, k a i1 = Done (r2, i2) /\ committed res = committed r1 || committed r2 /\
                  value_of res = option_map (out a) (value_of r2) /\ (is_ok r2 = true -> i' = i2)
    | None => is_ok res = false /\ committed res = committed r1
    end.

Lemma fails_done {A} (b : @beh C A) i r i' : b i = Done (r, i') -> is_ok r = false -> fails b i (committed r).
Proof.
  intros H1 H2. destruct r as [v|v|e|e]; try discriminate.
  - exists e. eexists; eexists; split; [exact H1|]. auto.
  - exists (terr e). eexists; eexists; split; [exact H1|]. auto.
Qed.
Lemma fails_inv {A} (b : @beh C A) i c : fails b i c -> exists r i', b i = Done (r, i') /\ is_ok r = false /\ committed r = c /\ value_of r = None.
Proof.
  intros [e [r [i' [H1 [H2 H3]]]]]. exists r, i'. split; [exact H1|]. destruct r; try discriminate; auto.
Qed.
Lemma runs_after_after {A B D} (b1 : @beh C A) (k : A -> @beh C B) (out : A -> B -> D) (b : @beh C D) :
  runs_after b1 k out b -> after b1 k out b.
Proof.
  intros [H1 H2] i res i' Q. destruct (value_of res) as [d|] eqn:V.
  - pose proof (okr_value _ _ V) as O. rewrite O in Q. apply H1 in Q. destruct Q as [c1 [a [i1 [c2 [x [K1 [K2 [K3 K4]]]]]]]].
    exists (okr c1 a), i1. split; [exact K1|]. rewrite value_okr. exists (okr c2 x), i'. split; [exact K2|]. rewrite !committed_okr, value_okr.
    split; [exact K3|]. split; [simpl; subst; reflexivity|]. auto.
  - assert (Hn : is_ok res = false) by (rewrite value_ok, V; reflexivity).
    destruct (proj1 (H2 _ _) (fails_done _ _ _ _ Q Hn)) as [F|[c1 [a [i1 [c2 [K1 [K2 K3]]]]]]].
    + destruct (fails_inv _ _ _ F) as [r [i0 [F1 [F2 [F3 F4]]]]]. exists r, i0. split; [exact F1|]. rewrite F4. auto.
    + destruct (fails_inv _ _ _ K2) as [r [i0 [F1 [F2 [F3 F4]]]]]. exists (okr c1 a), i1. split; [exact K1|]. rewrite value_okr.
      exists r, i0. split; [exact F1|]. rewrite committed_okr, F3, F4. split; [exact K3|]. split; [reflexivity|]. congruence.
Qed.

Section After.
Context {A B D : Type} (b1 : @beh C A) (k : A -> @beh C B) (out : A -> B -> D) (b : @beh C D).
Hypothesis AF : after b1 k out b.

Lemma after_ok f pos w1 w2 w3 a v : always_ok f b1 pos w1 (w2 ++ w3) a -> always_ok f (k a) (pos_after pos w1) w2 w3 v ->
  always_ok f b pos (w1 ++ w2) w3 (out a v).
Proof.
  intros H1 H2 m Hm r i' Q. rewrite <- app_assoc in Q. destruct (AF _ _ _ Q) as [r1 [i1 [K1 K2]]].
  rewrite app_assoc in K1. rewrite <- (app_assoc w1), (app_assoc w2) in K1. destruct (H1 m Hm _ _ K1) as [K3 K4]. subst r1 i1. rewrite value_okr in K2.
  destruct K2 as [r2 [i2 [K5 [K6 [K7 K8]]]]]. rewrite <- app_assoc in K5. destruct (H2 m Hm _ _ K5) as [K9 K10]. subst r2 i2.
  rewrite !committed_okr in K6. rewrite value_okr in K7. rewrite value_ok, value_okr in K8.
  split; [rewrite nonempty_app, <- K6; apply okr_value; exact K7|]. rewrite pos_after_app. auto.
Qed.
Lemma after_err1 f pos w c : always_err f b1 pos w c -> always_err f b pos w c.
Proof.
  intros H1 m Hm r i' Q. destruct (AF _ _ _ Q) as [r1 [i1 [K1 K2]]]. destruct (H1 m Hm _ _ K1) as [K3 K4].
  rewrite value_ok in K3. destruct (value_of r1); [discriminate|]. destruct K2 as [K5 K6]. split; [exact K5|congruence].
Qed.
Lemma after_err2 f pos w1 w2 a c : always_ok f b1 pos w1 w2 a -> always_err f (k a) (pos_after pos w1) w2 c ->
  always_err f b pos (w1 ++ w2) (nonempty w1 || c).
Proof.
  intros H1 H2 m Hm r i' Q. rewrite <- app_assoc in Q. destruct (AF _ _ _ Q) as [r1 [i1 [K1 K2]]].
  destruct (H1 m Hm _ _ K1) as [K3 K4]. subst r1 i1. rewrite value_okr in K2.
  destruct K2 as [r2 [i2 [K5 [K6 [K7 K8]]]]]. destruct (H2 m Hm _ _ K5) as [K9 K10].
  rewrite committed_okr, K10 in K6. rewrite value_ok in K9. destruct (value_of r2); [discriminate|]. split; [|exact K6].
  rewrite value_ok, K7. reflexivity.
Qed.
End After.

(** * Tuples *)
Lemma tuple_one {S A} (p : parser C S A) : maps_beh (fun x => x) (fresh p) (fresh (tuple (T1 p))).
Proof.
  intros i r i' Q. destruct (fresh_tuple_cases _ _ _ _ Q) as [[c [b [H1 H2]]]|[k [c [f [ib [ia [H1 H2]]]]]]].
  - simpl in H2. exists (okr c b), i'. split; [exact H2|]. subst r. destruct c; simpl; auto.
  - assert (H1' := H1). simpl in H1. destruct H1 as [-> [-> [-> H1]]]. destruct f as [e|e].
    + exists (CommitErr e), ia. split; [exact H1|]. pose proof (fresh_tuple_commit _ _ _ _ _ _ _ H1') as K. rewrite Q in K. inversion K; subst. simpl; auto.
    + exists (PeekErr e), ia. split; [exact H1|]. destruct (fresh_tuple_peek _ _ _ _ _ _ _ H1') as [x K]. rewrite Q in K. inversion K; subst. simpl; auto.
Qed.

Lemma tuple_after {S A SS B} (p : parser C S A) (t : tup SS B) :
  after (fresh p) (fun _ => fresh (tuple t)) (fun a b => (a, b)) (fresh (tuple (TC p t))).
Proof.
  intros i r i' Q. destruct (fresh_tuple_cases _ _ _ _ Q) as [[c [b [H1 H2]]]|[k [c [f [ib [ia [H1 H2]]]]]]].
  - simpl in H2. destruct H2 as [c1 [i1 [c2 [H2 [H3 H4]]]]]. exists (okr c1 (fst b)), i1. split; [exact H2|]. rewrite value_okr.
    exists (okr c2 (snd b)), i'. split; [apply fresh_tuple_ok; exact H3|]. rewrite H1, !committed_okr, !value_okr. split; [exact H4|].
    split; [destruct b; reflexivity|auto].
  - assert (H1' := H1). simpl in H1. destruct H1 as [[-> [-> [-> H1]]]|[c1 [a [i1 [k' [c2 [H3 [H4 [-> ->]]]]]]]]].
    + destruct f as [e|e].
      * exists (CommitErr e), ia. split; [exact H1|]. pose proof (fresh_tuple_commit _ _ _ _ _ _ _ H1') as K. rewrite Q in K. inversion K; subst. simpl; auto.
      * exists (PeekErr e), ia. split; [exact H1|]. destruct (fresh_tuple_peek _ _ _ _ _ _ _ H1') as [x K]. rewrite Q in K. inversion K; subst. simpl; auto.
    + exists (okr c1 a), i1. split; [exact H3|]. rewrite value_okr, committed_okr. destruct f as [e|e].
      * exists (CommitErr e), ia. split; [apply (fresh_tuple_commit _ _ _ _ _ _ _ H4)|]. pose proof (fresh_tuple_commit _ _ _ _ _ _ _ H1') as K.
        rewrite Q in K. inversion K; subst. simpl. rewrite orb_true_r. repeat split; auto; discriminate.
      * destruct (fresh_tuple_peek _ _ _ _ _ _ _ H4) as [x K]. eexists; eexists; split; [exact K|].
        destruct (fresh_tuple_peek _ _ _ _ _ _ _ H1') as [x' K']. rewrite Q in K'. inversion K'; subst.
        destruct c1, c2; simpl; repeat split; auto; discriminate.
Qed.

(** What running (part of) a sequence tells. *)
Definition tout (hd x n h f : bool) {SS B} (Clnt : bool -> SS -> Prop) (Rest : bool -> Pos C -> list T -> list T -> SS -> Prop)
    (t : tup (C:=C) SS B) (pos : Pos C) (l r : list T) (fep : nat) (out : seqk * input C * SS * N) : Prop :=
  match out with (kk, i', s', _) =>
    match kk with
    | KOk _ _ fep' => exists r1 v s2, r = r1 ++ rest i' /\ i' = Inp (rest i') (pos_after (pos_after pos l) r1) f /\
        tup_take t s' = Some (v, s2) /\ Clnt f s2 /\ always_ok f (fresh (tuple t)) pos (l ++ r1) (rest i') v /\
        (l = [] -> (fep' =? 0) = (fep =? 0) && negb (nonempty r1)) /\ (h = true -> f = true -> r <> [])
    | KCommit e =>
        (f = true /\ e_is_eoi C e = true /\ exists r1, r = r1 ++ rest i' /\
           i' = Inp (rest i') (pos_after (pos_after pos l) r1) f /\ forall g, Rest g pos (l ++ r1) (rest i') s') \/
        ((f = true -> e_is_eoi C e = false /\ (h = true -> r <> [])) /\ always_err f (fresh (tuple t)) pos (l ++ r) true)
    | KHead e => hd = true /\ n = false /\ (f = true -> e_is_eoi C (terr e) = false /\ r <> []) /\ (l = [] \/ x = false) /\
        (x = true -> Clnt f s') /\ always_err f (fresh (tuple t)) pos (l ++ r) (nonempty l)
    | KPeek e fep' => n = false /\ (hd = true -> x = false) /\ exists r1, r = r1 ++ rest i' /\
        (f = true -> e_is_eoi C (terr e) = false /\ rest i' <> []) /\
        always_err f (fresh (tuple t)) pos (l ++ r) (nonempty (l ++ r1)) /\
        (l = [] -> (fep' =? 0) = (fep =? 0) && negb (nonempty r1))
    end
  end.

Record tail_by (x n h : bool) {SS B} (Clnt : bool -> SS -> Prop) (Rest : bool -> Pos C -> list T -> list T -> SS -> Prop)
    (t : tup (C:=C) SS B) : Prop := {
  tb_init : forall f, Clnt f (tup_init t);
  tb_cln : forall s, Clnt true s -> Clnt false s;
  tb_res : forall f pos s, Clnt f s -> Rest f pos [] [] s;
  tb_err : Forall (fun g => noneoi (ef_add g) /\ noneoi (ef_cexp g)) (tup_errfns t);
  tb_rest : forall f first cur fep pos l k r' s off, started Clnt Rest f first pos l k s -> forall out,
    seq_rest t first cur fep (Inp (k ++ r') (pos_after pos l) f) s off = Done out ->
    tout false x n h f Clnt Rest t pos l (k ++ r') fep out;
  tb_all : forall f first pos l k r' s off, started Clnt Rest f first pos l k s -> forall out,
    seq_all t first (Inp (k ++ r') (pos_after pos l) f) s off = Done out ->
    tout true x n h f Clnt Rest t pos l (k ++ r') 0 out
}.

Definition q1cln {S A} (Cln : bool -> S -> Prop) (f : bool) (st : option A * S) : Prop := fst st = None /\ Cln f (snd st).
Definition q1res {S A} (Res : bool -> Pos C -> list T -> list T -> S -> Prop) (f : bool) (pos : Pos C) (l k : list T) (st : option A * S) : Prop :=
  fst st = None /\ Res f pos l k (snd st).

Lemma started1 {S A} Cln Res f first pos l k (st : option A * S) :
  started (q1cln Cln) (q1res Res) f first pos l k st -> fst st = None /\ started Cln Res f first pos l k (snd st).
Proof. destruct first; simpl; unfold q1cln, q1res; tauto. Qed.

Lemma tail_one x a n h {S A} Cln Res (p : parser C S A) : chunk_by x a n h Cln Res p -> tail_by x n h (q1cln Cln) (q1res Res) (T1 p).
Proof.
  intros H. pose proof (tuple_one p) as W. constructor.
  - intros f. split; [reflexivity|apply (cb_init H)].
  - intros s [H1 H2]. split; [exact H1|apply (cb_cln H); exact H2].
  - intros f pos s [H1 H2]. split; [exact H1|apply (cb_res H); exact H2].
  - constructor; [|constructor]. split; [apply (cb_adderr H)|apply (cb_cexp H)].
  - intros f first cur fep pos l k r' s off St out E0. destruct (started1 _ _ _ _ _ _ _ _ St) as [Hv Sc]. destruct s as [v s]. simpl in Hv, Sc. subst v.
    simpl in E0. rewrite orb_true_r in E0. destruct (p_run p first (Inp (k ++ r') (pos_after pos l) f) s) as [[[r i'] s']| |] eqn:E1; try discriminate.
    pose proof (cb_run H _ _ _ _ _ _ _ Sc _ E1) as F. destruct r as [v|v|e|e]; inversion E0; subst out; unfold fits in F; unfold tout.
    + destruct F as [[r1 [F1 [F2 [F3 F4]]]] [F5 F6]]. exists r1, v, (None, s'). split; [exact F1|]. split; [exact F2|]. split; [reflexivity|].
      split; [split; [reflexivity|exact F5]|]. split; [apply (maps_always_ok (fun x => x) _ _ _ _ _ _ _ W F3)|]. split; [|exact F6].
      intros Hl. rewrite <- (F4 Hl), andb_false_r. apply Nat.eqb_neq. lia.
    + destruct F as [[r1 [F1 [F2 [F3 F4]]]] [F5 F6]]. exists r1, v, (None, s'). split; [exact F1|]. split; [exact F2|]. split; [reflexivity|].
      split; [split; [reflexivity|exact F5]|]. split; [apply (maps_always_ok (fun x => x) _ _ _ _ _ _ _ W F3)|]. split; [|exact F6].
      intros Hl. rewrite <- (F4 Hl). simpl. rewrite andb_true_r. reflexivity.
    + destruct F as [[F1 [F2 [r1 [F3 [F4 [F5 F6]]]]]]|[F1 F2]].
      * left. split; [exact F1|]. split; [exact F2|]. exists r1. split; [exact F3|]. split; [exact F4|]. intros g. split; [reflexivity|apply F6].
      * right. split; [exact F1|]. apply (maps_always_err (fun x => x) _ _ _ _ _ _ W F2).
    + destruct F as [F1 [F2 [F3 [F4 F5]]]]. split; [exact F1|]. split; [discriminate|]. exists []. simpl. rewrite app_nil_r.
      split; [reflexivity|]. split; [exact F2|]. split; [apply (maps_always_err (fun x => x) _ _ _ _ _ _ W F5)|]. rewrite andb_true_r. reflexivity.
  - intros f first pos l k r' s off St out E0. destruct (started1 _ _ _ _ _ _ _ _ St) as [Hv Sc]. destruct s as [v s]. simpl in Hv, Sc. subst v.
    simpl in E0. rewrite orb_true_r in E0. destruct (p_run p first (Inp (k ++ r') (pos_after pos l) f) s) as [[[r i'] s']| |] eqn:E1; try discriminate.
    pose proof (cb_run H _ _ _ _ _ _ _ Sc _ E1) as F. destruct r as [v|v|e|e]; inversion E0; subst out; unfold fits in F; unfold tout.
    + destruct F as [[r1 [F1 [F2 [F3 F4]]]] [F5 F6]]. exists r1, v, (None, s'). split; [exact F1|]. split; [exact F2|]. split; [reflexivity|].
      split; [split; [reflexivity|exact F5]|]. split; [apply (maps_always_ok (fun x => x) _ _ _ _ _ _ _ W F3)|]. split; [|exact F6].
      intros Hl. rewrite <- (F4 Hl). reflexivity.
    + destruct F as [[r1 [F1 [F2 [F3 F4]]]] [F5 F6]]. exists r1, v, (None, s'). split; [exact F1|]. split; [exact F2|]. split; [reflexivity|].
      split; [split; [reflexivity|exact F5]|]. split; [apply (maps_always_ok (fun x => x) _ _ _ _ _ _ _ W F3)|]. split; [|exact F6].
      intros Hl. rewrite <- (F4 Hl). reflexivity.
    + destruct F as [[F1 [F2 [r1 [F3 [F4 [F5 F6]]]]]]|[F1 F2]].
      * left. split; [exact F1|]. split; [exact F2|]. exists r1. split; [exact F3|]. split; [exact F4|]. intros g. split; [reflexivity|apply F6].
      * right. split; [exact F1|]. apply (maps_always_err (fun x => x) _ _ _ _ _ _ W F2).
    + destruct F as [F1 [F2 [F3 [F4 F5]]]]. split; [reflexivity|]. split; [exact F1|]. split; [exact F2|]. split; [exact F3|].
      split; [intros Hx; split; [reflexivity|auto]|]. apply (maps_always_err (fun x => x) _ _ _ _ _ _ W F5).
Qed.

Section Cons.
Context {S A SS B : Type} (x1 a1 n1 h1 x2 n2 h2 : bool) (Cln : bool -> S -> Prop) (Res : bool -> Pos C -> list T -> list T -> S -> Prop)
  (Clnt : bool -> SS -> Prop) (Rest : bool -> Pos C -> list T -> list T -> SS -> Prop) (p : parser C S A) (t : tup (C:=C) SS B).
Hypothesis H : chunk_by x1 a1 n1 h1 Cln Res p.
Hypothesis HT : tail_by x2 n2 h2 Clnt Rest t.

Definition qcln (f : bool) (st : (option A * S) * SS) : Prop := fst (fst st) = None /\ Cln f (snd (fst st)) /\ Clnt f (snd st).
Definition qres (f : bool) (pos : Pos C) (l k : list T) (st : (option A * S) * SS) : Prop :=
  (fst (fst st) = None /\ Res f pos l k (snd (fst st)) /\ Clnt f (snd st)) \/
  (exists v w1 l2, fst (fst st) = Some v /\ Cln f (snd (fst st)) /\ l = w1 ++ l2 /\
     always_ok true (fresh p) pos w1 (l2 ++ k) v /\ Rest f (pos_after pos w1) l2 k (snd st)).

Lemma cln_all f (s : S) : f = true -> Cln f s -> forall g, Cln g s.
Proof. intros -> K [|]; [exact K|apply (cb_cln H); exact K]. Qed.
Lemma clnt_all f (s : SS) : f = true -> Clnt f s -> forall g, Clnt g s.
Proof. intros -> K [|]; [exact K|apply (tb_cln _ _ _ _ _ _ HT); exact K]. Qed.

(** After the head succeeded, in this chunk or an earlier one. *)
Lemma cons_go hd f pos l0 q rr w1 l2 a s1 fep fep1 k2 i2 s2 off2 :
  l0 ++ q = w1 ++ l2 -> (l0 = [] -> l2 = [] /\ (fep1 =? 0) = (fep =? 0) && negb (nonempty q)) ->
  always_ok f (fresh p) pos w1 (l2 ++ rr) a -> Cln f s1 ->
  tout false x2 n2 h2 f Clnt Rest t (pos_after pos w1) l2 rr fep1 (k2, i2, s2, off2) ->
  tout hd (x1 && n2) (n1 && n2) (h1 && h2) f qcln qres (TC p t) pos l0 (q ++ rr) fep (k2, i2, ((Some a, s1), s2), off2).
Proof.
  intros HL HF HA HC HO. pose proof (tuple_after p t) as AF. unfold tout in *. destruct k2 as [fs cur fep'|e|e|e fep'].
  - destruct HO as [r1 [v [s3 [O1 [O2 [O3 [O4 [O5 [O6 O7]]]]]]]]]. exists (q ++ r1), (a, v), ((None, s1), s3).
    split; [rewrite O1, app_assoc; reflexivity|].
    split; [rewrite O2 at 1; f_equal; rewrite <- !pos_after_app; f_equal; rewrite !app_assoc, HL; reflexivity|].
    split; [simpl; rewrite O3; reflexivity|]. split; [split; [reflexivity|split; [exact HC|exact O4]]|].
    split; [rewrite app_assoc, HL, <- app_assoc; refine (after_ok _ _ _ _ AF _ _ _ _ _ _ _ _ O5); rewrite <- app_assoc, <- O1; exact HA|].
    split; [|intros Hh Hf Hn; apply andb_true_iff in Hh; apply app_eq_nil in Hn; apply (O7 (proj2 Hh) Hf); apply Hn].
    intros Hl. destruct (HF Hl) as [K1 K2]. rewrite (O6 K1), K2, nonempty_app. destruct (fep =? 0), (nonempty q); reflexivity.
  - destruct HO as [[O1 [O2 [r1 [O3 [O4 O5]]]]]|[O1 O2]].
    + left. split; [exact O1|]. split; [exact O2|]. exists (q ++ r1). split; [rewrite O3, app_assoc; reflexivity|].
      split; [rewrite O4 at 1; f_equal; rewrite <- !pos_after_app; f_equal; rewrite !app_assoc, HL; reflexivity|].
      intros g. right. exists a, w1, (l2 ++ r1). simpl. split; [reflexivity|]. split; [apply (cln_all f); auto|].
      split; [rewrite app_assoc, HL, app_assoc; reflexivity|]. subst f. split; [rewrite <- app_assoc, <- O3; exact HA|]. apply O5.
    + right. split.
      * intros Hf. destruct (O1 Hf) as [K1 K2]. split; [exact K1|]. intros Hh Hn. apply andb_true_iff in Hh. apply app_eq_nil in Hn.
        apply (K2 (proj2 Hh)). apply Hn.
      * rewrite app_assoc, HL, <- app_assoc. rewrite <- (orb_true_r (nonempty w1)). apply (after_err2 _ _ _ _ AF _ _ _ _ _ _ HA O2).
  - destruct HO as [O _]. discriminate.
  - destruct HO as [O1 [O2 [r1 [O3 [O4 [O5 O6]]]]]]. split; [rewrite O1; apply andb_false_r|]. split; [intros _; rewrite O1; apply andb_false_r|].
    exists (q ++ r1). split; [rewrite O3, app_assoc; reflexivity|]. split; [exact O4|]. split.
    + rewrite !app_assoc, HL, <- !app_assoc, (nonempty_app w1). apply (after_err2 _ _ _ _ AF _ _ _ _ _ _ HA O5).
    + intros Hl. destruct (HF Hl) as [K1 K2]. rewrite (O6 K1), K2, nonempty_app. destruct (fep =? 0), (nonempty q); reflexivity.
Qed.

Lemma started_q f first pos l k st : started qcln qres f first pos l k st ->
  (fst (fst st) = None /\ started Cln Res f first pos l k (snd (fst st)) /\ Clnt f (snd st)) \/
  (exists v w1 l2, fst (fst st) = Some v /\ first = false /\ Cln f (snd (fst st)) /\ l = w1 ++ l2 /\
     always_ok true (fresh p) pos w1 (l2 ++ k) v /\ Rest f (pos_after pos w1) l2 k (snd st)).
Proof.
  destruct first; simpl.
  - intros [H1 [H2 [H3 [H4 H5]]]]. left. auto 6.
  - intros [K|[v [w1 [l2 [K1 [K2 [K3 [K4 K5]]]]]]]]; [left; exact K|]. right. exists v, w1, l2. auto 6.
Qed.

Lemma tail_cons : tail_by (x1 && n2) (n1 && n2) (h1 && h2) qcln qres (TC p t).
Proof.
  pose proof (tuple_after p t) as AF. constructor.
  - intros f. split; [reflexivity|]. split; [apply (cb_init H)|apply (tb_init _ _ _ _ _ _ HT)].
  - intros s [K1 [K2 K3]]. split; [exact K1|]. split; [apply (cb_cln H); exact K2|apply (tb_cln _ _ _ _ _ _ HT); exact K3].
  - intros f pos s [K1 [K2 K3]]. left. split; [exact K1|]. split; [apply (cb_res H); exact K2|exact K3].
  - simpl. constructor; [|apply (tb_err _ _ _ _ _ _ HT)]. split; [apply (cb_adderr H)|apply (cb_cexp H)].
  - intros f first cur fep pos l k r' [[v s] ss] off St out E0. destruct (started_q _ _ _ _ _ _ St) as [[K1 [K2 K3]]|[v1 [w1 [l2 [K1 [K2 [K3 [K4 [K5 K6]]]]]]]]]; simpl in *.
    + subst v. rewrite orb_true_r in E0. destruct (p_run p first (Inp (k ++ r') (pos_after pos l) f) s) as [[[r i'] s']| |] eqn:E1; try discriminate.
      pose proof (cb_run H _ _ _ _ _ _ _ K2 _ E1) as F. simpl in E0. destruct r as [v|v|e|e]; unfold fits in F; simpl in E0.
      * destruct F as [[r1 [F1 [F2 [F3 F4]]]] [F5 F6]].
        destruct (seq_rest t true (cur + 1) (cur + 1 + 1) i' ss (sat_add off (p_count p))) as [[[[k2 i2] s2] off2]| |] eqn:E2; try discriminate.
        inversion E0; subst out. rewrite F1. apply (cons_go false f pos l r1 (rest i') (l ++ r1) [] v s' fep (cur + 1 + 1)); auto.
        -- rewrite app_nil_r. reflexivity.
        -- intros Hl. split; [reflexivity|]. rewrite <- (F4 Hl), andb_false_r. apply Nat.eqb_neq. lia.
        -- rewrite F2, <- pos_after_app in E2. apply (tb_rest _ _ _ _ _ _ HT f true (cur + 1) (cur + 1 + 1) (pos_after pos (l ++ r1)) [] [] (rest i') ss (sat_add off (p_count p))); [|exact E2].
           simpl. auto.
      * destruct F as [[r1 [F1 [F2 [F3 F4]]]] [F5 F6]].
        destruct (seq_rest t true (cur + 1) fep i' ss (sat_add off (p_count p))) as [[[[k2 i2] s2] off2]| |] eqn:E2; try discriminate.
        inversion E0; subst out. rewrite F1. apply (cons_go false f pos l r1 (rest i') (l ++ r1) [] v s' fep fep); auto.
        -- rewrite app_nil_r. reflexivity.
        -- intros Hl. split; [reflexivity|]. rewrite <- (F4 Hl). simpl. rewrite andb_true_r. reflexivity.
        -- rewrite F2, <- pos_after_app in E2. apply (tb_rest _ _ _ _ _ _ HT f true (cur + 1) fep (pos_after pos (l ++ r1)) [] [] (rest i') ss (sat_add off (p_count p))); [|exact E2].
           simpl. auto.
      * inversion E0; subst out. unfold tout. destruct F as [[F1 [F2 [r1 [F3 [F4 [F5 F6]]]]]]|[F1 F2]].
        -- left. split; [exact F1|]. split; [exact F2|]. exists r1. split; [exact F3|]. split; [exact F4|]. intros g. left. split; [reflexivity|].
           split; [apply F6|]. apply (clnt_all f); auto.
        -- right. split; [|apply (after_err1 _ _ _ _ AF _ _ _ _ F2)]. intros Hf. destruct (F1 Hf) as [G1 G2]. split; [exact G1|].
           intros Hh. apply G2. apply andb_true_iff in Hh. apply Hh.
      * inversion E0; subst out. unfold tout. destruct F as [F1 [F2 [F3 [F4 F5]]]]. split; [rewrite F1; reflexivity|]. split; [discriminate|].
        exists []. simpl. rewrite app_nil_r. split; [reflexivity|]. split; [exact F2|]. split; [apply (after_err1 _ _ _ _ AF _ _ _ _ F5)|].
        rewrite andb_true_r. reflexivity.
    + subst v first l. simpl in E0. 
      destruct (seq_rest t false cur fep (Inp (k ++ r') (pos_after pos (w1 ++ l2)) f) ss off) as [[[[k2 i2] s2] off2]| |] eqn:E2; try discriminate.
      inversion E0; subst out. change (k ++ r') with ([] ++ (k ++ r')). apply (cons_go false f pos (w1 ++ l2) [] (k ++ r') w1 l2 v1 s fep fep); auto.
      * rewrite app_nil_r. reflexivity.
      * intros Hl. apply app_eq_nil in Hl. split; [apply Hl|]. simpl. rewrite andb_true_r. reflexivity.
      * rewrite app_assoc. apply always_ok_ext. exact K5.
      * rewrite pos_after_app in E2. apply (tb_rest _ _ _ _ _ _ HT f false cur fep (pos_after pos w1) l2 k r' ss off); [exact K6|exact E2].
  - intros f first pos l k r' [[v s] ss] off St out E0. destruct (started_q _ _ _ _ _ _ St) as [[K1 [K2 K3]]|[v1 [w1 [l2 [K1 [K2 [K3 [K4 [K5 K6]]]]]]]]]; simpl in *.
    + subst v. rewrite orb_true_r in E0. destruct (p_run p first (Inp (k ++ r') (pos_after pos l) f) s) as [[[r i'] s']| |] eqn:E1; try discriminate.
      pose proof (cb_run H _ _ _ _ _ _ _ K2 _ E1) as F. simpl in E0. destruct r as [v|v|e|e]; unfold fits in F; simpl in E0.
      * destruct F as [[r1 [F1 [F2 [F3 F4]]]] [F5 F6]].
        destruct (seq_rest t true 0 1 i' ss (sat_add (p_count p) 1)) as [[[[k2 i2] s2] off2]| |] eqn:E2; try discriminate.
        inversion E0; subst out. rewrite F1. apply (cons_go true f pos l r1 (rest i') (l ++ r1) [] v s' 0 1); auto.
        -- rewrite app_nil_r. reflexivity.
        -- intros Hl. split; [reflexivity|]. rewrite <- (F4 Hl). reflexivity.
        -- rewrite F2, <- pos_after_app in E2. apply (tb_rest _ _ _ _ _ _ HT f true 0 1 (pos_after pos (l ++ r1)) [] [] (rest i') ss (sat_add (p_count p) 1)); [|exact E2].
           simpl. auto.
      * destruct F as [[r1 [F1 [F2 [F3 F4]]]] [F5 F6]].
        destruct (seq_rest t true 0 0 i' ss (sat_add (p_count p) 1)) as [[[[k2 i2] s2] off2]| |] eqn:E2; try discriminate.
        inversion E0; subst out. rewrite F1. apply (cons_go true f pos l r1 (rest i') (l ++ r1) [] v s' 0 0); auto.
        -- rewrite app_nil_r. reflexivity.
        -- intros Hl. split; [reflexivity|]. rewrite <- (F4 Hl). reflexivity.
        -- rewrite F2, <- pos_after_app in E2. apply (tb_rest _ _ _ _ _ _ HT f true 0 0 (pos_after pos (l ++ r1)) [] [] (rest i') ss (sat_add (p_count p) 1)); [|exact E2].
           simpl. auto.
      * inversion E0; subst out. unfold tout. destruct F as [[F1 [F2 [r1 [F3 [F4 [F5 F6]]]]]]|[F1 F2]].
        -- left. split; [exact F1|]. split; [exact F2|]. exists r1. split; [exact F3|]. split; [exact F4|]. intros g. left. split; [reflexivity|].
           split; [apply F6|]. apply (clnt_all f); auto.
        -- right. split; [|apply (after_err1 _ _ _ _ AF _ _ _ _ F2)]. intros Hf. destruct (F1 Hf) as [G1 G2]. split; [exact G1|].
           intros Hh. apply G2. apply andb_true_iff in Hh. apply Hh.
      * inversion E0; subst out. unfold tout. destruct F as [F1 [F2 [F3 [F4 F5]]]]. split; [reflexivity|]. split; [rewrite F1; reflexivity|]. split; [exact F2|].
        split; [destruct F3 as [F3|F3]; [left; exact F3|right; rewrite F3; reflexivity]|].
        split; [intros Hx; apply andb_true_iff in Hx; split; [reflexivity|split; [apply F4; apply Hx|exact K3]]|]. apply (after_err1 _ _ _ _ AF _ _ _ _ F5).
    + subst v first l. simpl in E0. 
      destruct (seq_rest t false 0 0 (Inp (k ++ r') (pos_after pos (w1 ++ l2)) f) ss off) as [[[[k2 i2] s2] off2]| |] eqn:E2; try discriminate.
      inversion E0; subst out. change (k ++ r') with ([] ++ (k ++ r')). apply (cons_go true f pos (w1 ++ l2) [] (k ++ r') w1 l2 v1 s 0 0); auto.
      * rewrite app_nil_r. reflexivity.
      * intros Hl. apply app_eq_nil in Hl. split; [apply Hl|]. reflexivity.
      * rewrite app_assoc. apply always_ok_ext. exact K5.
      * rewrite pos_after_app in E2. apply (tb_rest _ _ _ _ _ _ HT f false 0 0 (pos_after pos w1) l2 k r' ss off); [exact K6|exact E2].
Qed.
End Cons.

Variable EL : eoi_laws C.
Notation good := (fun g : errfns (C:=C) => noneoi (ef_add g) /\ noneoi (ef_cexp g)).

Lemma add_sequence_errors_ok fep inner : forall l i err, Forall good l -> e_is_eoi C (terr err) = false ->
  e_is_eoi C (terr (add_sequence_errors i fep inner err l)) = false.
Proof.
  induction l as [|g l IH]; simpl; intros i err HG He; auto. inversion HG as [|? ? [G1 G2] G3]; subst.
  destruct (add_sequence_error i fep inner err g) as [err' go] eqn:Q.
  assert (K : e_is_eoi C (terr err') = false).
  { unfold add_sequence_error in Q. remember (if i + 1 =? fep then ef_cexp g err else err) as err1.
    assert (K1 : e_is_eoi C (terr err1) = false) by (subst err1; destruct (i + 1 =? fep); auto).
    destruct (fep <=? i); simpl in Q.
    - remember (ef_add g (if (toff err1 <=? 1)%N then set_off err1 inner else err1)) as err2.
      assert (K2 : e_is_eoi C (terr err2) = false) by (subst err2; apply G1; destruct (toff err1 <=? 1)%N; exact K1).
      destruct (toff err2 <=? 1)%N; inversion Q; subst err'; exact K2.
    - inversion Q; subst err'; exact K1. }
  destruct go; auto.
Qed.

Lemma add_errors_ok {A} i err fep off l (r : PR A E) i' : add_errors i err fep off l = (r, i') ->
  (fep =? 0) = true /\ (exists e, r = PeekErr e /\ terr e = terr err) \/
  (fep =? 0) = false /\ exists e, r = CommitErr e /\ (Forall good l -> e_is_eoi C (terr err) = false -> e_is_eoi C e = false).
Proof.
  unfold add_errors. destruct (fep =? 0).
  - intros Q. inversion Q. left. split; [reflexivity|]. eexists. split; reflexivity.
  - intros Q. right. split; [reflexivity|]. destruct (uncons i) as [[t|] i2]; inversion Q; subst; (eexists; split; [reflexivity|]); intros HG He;
      apply add_sequence_errors_ok; auto. simpl. rewrite (el_add EL), He, (el_unexpected EL). reflexivity.
Qed.

Lemma tuple_adderr_rest_ok : forall l errors, Forall good l -> e_is_eoi C (terr errors) = false -> e_is_eoi C (terr (tuple_adderr_rest errors l)) = false.
Proof.
  induction l as [|g l IH]; simpl; intros errors HG He; auto. inversion HG as [|? ? [G1 G2] G3]; subst.
  pose proof (G1 _ He) as K. destruct (toff (ef_add g errors) <=? 1)%N; [exact K|].
  destruct l; [exact K|]. apply IH; auto. destruct (toff (ef_add g errors) =? toff errors)%N; exact K.
Qed.
Lemma tuple_adderr_ok l : Forall good l -> noneoi (tuple_adderr l).
Proof.
  intros HG u Hu. destruct l as [|g l]; simpl; auto. inversion HG as [|? ? [G1 G2] G3]; subst.
  pose proof (G1 _ Hu) as K. destruct (toff (ef_add g u) <=? 1)%N; [exact K|].
  apply tuple_adderr_rest_ok; auto. destruct (toff (ef_add g u) =? toff u)%N; exact K.
Qed.
Lemma last_ok : forall l d, Forall good l -> noneoi (ef_cexp d) -> noneoi (ef_cexp (last l d)).
Proof.
  induction l as [|g l IH]; simpl; intros d HG Hd; auto. inversion HG as [|? ? [G1 G2] G3]; subst. destruct l; auto.
Qed.

Lemma chunk_tuple x n h {SS B} Clnt Rest (t : tup (C:=C) SS B) : tail_by x n h Clnt Rest t ->
  chunk_by x false n h (fun f st => Clnt f (fst st)) (fun f pos l k st => Rest f pos l k (fst st)) (tuple t).
Proof.
  intros HT. pose proof (tb_err _ _ _ _ _ _ HT) as HG. constructor.
  - intros f. apply (tb_init _ _ _ _ _ _ HT).
  - intros s. apply (tb_cln _ _ _ _ _ _ HT).
  - intros f pos s. apply (tb_res _ _ _ _ _ _ HT).
  - discriminate.
  - apply tuple_adderr_ok. exact HG.
  - simpl. unfold tuple_addcexp. intros u Hu. apply last_ok; auto. intros v Hv. exact Hv.
  - left. reflexivity.
  - left. reflexivity.
  - intros f first pos l k r' [s off] St out E0. simpl in E0. unfold tuple_run in E0. simpl in E0.
    destruct (seq_all t first (Inp (k ++ r') (pos_after pos l) f) s off) as [[[[kk i'] s'] off']| |] eqn:E1; try discriminate.
    assert (St' : started Clnt Rest f first pos l k s) by (destruct first; exact St).
    pose proof (tb_all _ _ _ _ _ _ HT _ _ _ _ _ _ _ _ St' _ E1) as F. unfold tout in F. simpl in E0. destruct kk as [fs cur fep|e|e|e fep].
    + destruct F as [r1 [v [s2 [F1 [F2 [F3 [F4 [F5 [F6 F7]]]]]]]]]. rewrite F3 in E0.
      assert (Fin : (exists r1, k ++ r' = r1 ++ rest i' /\ i' = Inp (rest i') (pos_after (pos_after pos l) r1) f /\
           always_ok f (fresh (tuple t)) pos (l ++ r1) (rest i') v /\ (l = [] -> negb (fep =? 0) = nonempty r1)) /\
        Clnt f s2 /\ (h = true -> f = true -> k ++ r' <> [])).
      { split; [|split; [exact F4|exact F7]]. exists r1. split; [exact F1|]. split; [exact F2|]. split; [exact F5|].
        intros Hl. rewrite (F6 Hl). simpl. apply negb_involutive. }
      unfold fits. destruct (fep =? 0); simpl in E0; inversion E0; subst out; exact Fin.
    + inversion E0; subst out. unfold fits. destruct F as [[F1 [F2 [r1 [F3 [F4 F5]]]]]|F].
      * left. split; [exact F1|]. split; [exact F2|]. exists r1. split; [exact F3|]. split; [exact F4|]. split; [discriminate|exact F5].
      * right. exact F.
    + inversion E0; subst out. unfold fits. destruct F as [_ F]. exact F.
    + destruct F as [F1 [F2 [r1 [F3 [F4 [F5 F6]]]]]]. destruct (add_errors i' e fep off' (tup_errfns t)) as [rr i2] eqn:Q. inversion E0; subst out.
      specialize (F2 eq_refl). destruct (add_errors_ok _ _ _ _ _ _ _ Q) as [[Z [e2 [Q1 Q2]]]|[Z [e2 [Q1 Q2]]]]; subst rr; unfold fits.
      * split; [exact F1|]. split; [intros Hf; destruct (F4 Hf) as [G1 G2]; split; [rewrite Q2; exact G1|rewrite F3; intros Hn; apply app_eq_nil in Hn; apply G2; apply Hn]|].
        split; [right; exact F2|]. split; [rewrite F2; discriminate|]. replace (nonempty l) with (nonempty (l ++ r1)); [exact F5|].
        rewrite nonempty_app. destruct l; [|reflexivity]. rewrite (F6 eq_refl) in Z. simpl in Z. destruct (nonempty r1); [discriminate|reflexivity].
      * right. split.
        -- intros Hf. destruct (F4 Hf) as [G1 G2]. split; [apply Q2; auto|]. intros _. rewrite F3. intros Hn. apply app_eq_nil in Hn. apply G2. apply Hn.
        -- replace true with (nonempty (l ++ r1)); [exact F5|]. rewrite nonempty_app. destruct l; [|reflexivity]. rewrite (F6 eq_refl) in Z. simpl in Z.
           destruct (nonempty r1); [reflexivity|discriminate].
Qed.

(** * with, skip, then *)
Lemma chunk_with x1 a1 n1 h1 x2 a2 n2 h2 {S1 A S2 B} Cln1 Res1 Cln2 Res2 (p : parser C S1 A) (q : parser C S2 B) :
  chunk_by x1 a1 n1 h1 Cln1 Res1 p -> chunk_by x2 a2 n2 h2 Cln2 Res2 q ->
  chunk_by (x1 && n2) false (n1 && n2) (h1 && h2) (fun f st => qcln Cln1 (q1cln Cln2) f (fst st))
    (fun f pos l k st => qres Cln1 Res1 (q1cln Cln2) (q1res Res2) (ignore p) f pos l k (fst st)) (with_ p q).
Proof.
  intros H1 H2. pose proof (chunk_tuple _ _ _ _ _ _ (tail_cons _ _ _ _ _ _ _ _ _ _ _ _ _ (ltac:(eapply chunk_ignore; exact H1)) (tail_one _ _ _ _ _ _ _ H2))) as HT.
  apply (chunk_post _ _ _ _ _ _ (pair2 (ignore p) q) (with_ p q) snd HT).
  - reflexivity.
  - exact (cb_adderr HT).
  - exact (cb_cexp HT).
  - left. reflexivity.
  - left. simpl. unfold default_lazy. simpl. destruct (tuple_run (TC (ignore p) (T1 q)) true i _) as [[[r i'] s']| |]; try reflexivity. destruct r; reflexivity.
  - intros first i st. exists (fun _ r => pr_map snd r). split; [reflexivity|]. intros i' r. destruct r; simpl; auto.
Qed.

Lemma chunk_skip x1 a1 n1 h1 x2 a2 n2 h2 {S1 A S2 B} Cln1 Res1 Cln2 Res2 (p : parser C S1 A) (q : parser C S2 B) :
  chunk_by x1 a1 n1 h1 Cln1 Res1 p -> chunk_by x2 a2 n2 h2 Cln2 Res2 q ->
  chunk_by (x1 && n2) false (n1 && n2) (h1 && h2) (fun f st => qcln Cln1 (q1cln Cln2) f (fst st))
    (fun f pos l k st => qres Cln1 Res1 (q1cln Cln2) (q1res Res2) p f pos l k (fst st)) (skip p q).
Proof.
  intros H1 H2. pose proof (chunk_tuple _ _ _ _ _ _ (tail_cons _ _ _ _ _ _ _ _ _ _ _ _ _ H1 (tail_one _ _ _ _ _ _ _ (ltac:(eapply chunk_ignore; exact H2))))) as HT.
  apply (chunk_post _ _ _ _ _ _ (pair2 p (ignore q)) (skip p q) fst HT).
  - reflexivity.
  - exact (cb_adderr HT).
  - exact (cb_cexp HT).
  - left. reflexivity.
  - left. reflexivity.
  - intros first i st. exists (fun _ r => pr_map fst r). split; [reflexivity|]. intros i' r. destruct r; simpl; auto.
Qed.

Lemma chunk_cmode_agrees x a n h {S A} Cln Res (p : parser C S A) : chunk_by x a n h Cln Res p -> cmode_agrees p.
Proof.
  intros H first i st. destruct (cb_cmode H first i st) as [Q|Q]; rewrite Q; clear Q.
  - unfold default_cmode. destruct (p_run p first i st) as [[[r i'] s']| |]; simpl; auto. destruct r; simpl; auto.
  - destruct (p_run p first i st) as [[[r i'] s']| |]; simpl; auto. destruct r; simpl; auto.
Qed.

Lemma chunk_cmode x a n h {S A} Cln Res (p : parser C S A) : chunk_by x a n h Cln Res p ->
  forall f first pos l k r' s, started Cln Res f first pos l k s -> forall out,
    p_cmode p first (Inp (k ++ r') (pos_after pos l) f) s = Done out -> fits x a n h f Cln Res (fresh p) pos l (k ++ r') out.
Proof.
  intros H f first pos l k r' s St out E0. destruct (cb_cmode H first (Inp (k ++ r') (pos_after pos l) f) s) as [Q|Q]; rewrite Q in E0; clear Q;
    [|apply (cb_run H _ _ _ _ _ _ _ St _ E0)].
  unfold default_cmode in E0. destruct (p_run p first (Inp (k ++ r') (pos_after pos l) f) s) as [[[r i'] s']| |] eqn:E1; try discriminate.
  pose proof (cb_run H _ _ _ _ _ _ _ St _ E1) as F. destruct r as [v|v|e|e]; simpl in E0; inversion E0; subst out; try exact F.
  unfold fits in *. destruct F as [F1 [F2 [F3 [F4 F5]]]]. split; [exact F1|]. split; [|split; [exact F3|split; [exact F4|exact F5]]].
  intros Hf. destruct (F2 Hf) as [K1 K2]. split; [|exact K2]. unfold augment_err. apply (cb_adderr H). unfold uncons. simpl.
  destruct (k ++ r') as [|t w]; [congruence|]. simpl. unfold e_add_unexpected. rewrite (el_add EL), K1, (el_unexpected EL). reflexivity.
Qed.

Section Then.
Context {S1 A S2 B : Type} (x1 a1 n1 h1 x2 a2 n2 h2 : bool) (Cln1 : bool -> S1 -> Prop) (Res1 : bool -> Pos C -> list T -> list T -> S1 -> Prop)
  (Cln2 : bool -> S2 -> Prop) (Res2 : A -> bool -> Pos C -> list T -> list T -> S2 -> Prop) (p : parser C S1 A) (s0 : S2) (q : A -> parser C S2 B).
Hypothesis H1 : chunk_by x1 a1 n1 h1 Cln1 Res1 p.
Hypothesis H2 : forall v, chunk_by x2 a2 n2 h2 Cln2 (Res2 v) (q v).
Hypothesis HI : forall v, p_init (q v) = s0.

Definition thcln (f : bool) (st : S1 * option (bool * A) * S2) : Prop :=
  match st with (sp, cache, sn) => cache = None /\ Cln1 f sp /\ (sn = s0 \/ (Cln2 f sn /\ inhabited A)) end.
Definition thres (f : bool) (pos : Pos C) (l k : list T) (st : S1 * option (bool * A) * S2) : Prop :=
  match st with (sp, cache, sn) =>
    (cache = None /\ Res1 f pos l k sp /\ (sn = s0 \/ (Cln2 f sn /\ inhabited A))) \/
    (exists c v w1 l2, cache = Some (c, v) /\ Cln1 f sp /\ l = w1 ++ l2 /\ (c = true -> w1 <> []) /\
       always_ok true (fresh p) pos w1 (l2 ++ k) v /\ Res2 v f (pos_after pos w1) l2 k sn)
  end.

Lemma then_after : after (fresh p) (fun v => fresh (q v)) (fun _ b => b) (fresh (then_ p s0 q)).
Proof. apply runs_after_after. apply then_runs; auto. intros v. apply (chunk_cmode_agrees _ _ _ _ _ _ _ (H2 v)). Qed.

Lemma then_go f pos l0 w rr w1 l2 c v sp r i2 s2 :
  l0 ++ w = w1 ++ l2 -> (c = true -> w1 <> []) -> (l0 = [] -> l2 = [] /\ c = nonempty w) ->
  always_ok f (fresh p) pos w1 (l2 ++ rr) v -> Cln1 f sp ->
  fits x2 a2 n2 h2 f Cln2 (Res2 v) (fresh (q v)) (pos_after pos w1) l2 rr (r, i2, s2) ->
  fits (x1 && n2) false (n1 && n2) (h1 && h2) f thcln thres (fresh (then_ p s0 q)) pos l0 (w ++ rr) (then_finish c sp (Some (c, v)) (r, i2, s2)).
Proof.
  intros HL HC HF HA HS HO. pose proof then_after as AF.
  assert (NL : nonempty w1 || nonempty l2 = nonempty l0 || nonempty w) by (rewrite <- !nonempty_app, HL; reflexivity).
  assert (OK : forall b (cr : bool), (exists r1, rr = r1 ++ rest i2 /\ i2 = Inp (rest i2) (pos_after (pos_after (pos_after pos w1) l2) r1) f /\
           always_ok f (fresh (q v)) (pos_after pos w1) (l2 ++ r1) (rest i2) b /\ (l2 = [] -> cr = nonempty r1)) /\
        Cln2 f s2 /\ (h2 = true -> f = true -> rr <> []) ->
     (exists r1, w ++ rr = r1 ++ rest i2 /\ i2 = Inp (rest i2) (pos_after (pos_after pos l0) r1) f /\
           always_ok f (fresh (then_ p s0 q)) pos (l0 ++ r1) (rest i2) b /\ (l0 = [] -> c || cr = nonempty r1)) /\
        thcln f (sp, None, s2) /\ (h1 && h2 = true -> f = true -> w ++ rr <> [])).
  { intros b cr [[r1 [O1 [O2 [O3 O4]]]] [O5 O6]]. split; [|split; [simpl; split; [reflexivity|]; split; [exact HS|]; right; split; [exact O5|constructor; exact v]|]].
    - exists (w ++ r1). split; [rewrite O1, app_assoc; reflexivity|].
      split; [rewrite O2 at 1; f_equal; rewrite <- !pos_after_app; f_equal; rewrite !app_assoc, HL; reflexivity|].
      split; [rewrite app_assoc, HL, <- app_assoc; apply (after_ok _ _ _ _ AF _ _ _ _ _ v); [rewrite <- app_assoc, <- O1; exact HA|exact O3]|].
      intros Hl. destruct (HF Hl) as [K1 K2]. rewrite (O4 K1), K2, nonempty_app. reflexivity.
    - intros Hh Hf Hn. apply andb_true_iff in Hh. apply app_eq_nil in Hn. apply (O6 (proj2 Hh) Hf). apply Hn. }
  unfold then_finish. destruct r as [b|b|e|e].
  - pose proof (OK b true HO) as K. rewrite orb_true_r in K. exact K.
  - pose proof (OK b false HO) as K. rewrite orb_false_r in K. destruct c; exact K.
  - unfold fits in *. destruct HO as [[O1 [O2 [r1 [O3 [O4 [O5 O6]]]]]]|[O1 O2]].
    + left. split; [exact O1|]. split; [exact O2|]. exists (w ++ r1). split; [rewrite O3, app_assoc; reflexivity|].
      split; [rewrite O4 at 1; f_equal; rewrite <- !pos_after_app; f_equal; rewrite !app_assoc, HL; reflexivity|].
      split; [discriminate|]. intros g. simpl. right. exists c, v, w1, (l2 ++ r1). split; [reflexivity|].
      subst f. split; [destruct g; [exact HS|apply (cb_cln H1); exact HS]|].
      split; [rewrite app_assoc, HL, app_assoc; reflexivity|]. split; [exact HC|]. split; [rewrite <- app_assoc, <- O3; exact HA|]. apply O6.
    + right. split.
      * intros Hf. destruct (O1 Hf) as [K1 K2]. split; [exact K1|]. intros Hh Hn. apply andb_true_iff in Hh. apply app_eq_nil in Hn.
        apply (K2 (proj2 Hh)). apply Hn.
      * rewrite app_assoc, HL, <- app_assoc. rewrite <- (orb_true_r (nonempty w1)). apply (after_err2 _ _ _ _ AF _ _ _ _ _ _ HA O2).
  - unfold fits in HO. destruct HO as [O1 [O2 [O3 [O4 O5]]]]. pose proof (after_err2 _ _ _ _ AF _ _ _ _ _ _ HA O5) as W.
    rewrite app_assoc, <- HL, <- app_assoc in W. destruct c.
    + right. split; [|replace true with (nonempty w1 || nonempty l2); [exact W|]].
      * intros Hf. destruct (O2 Hf) as [K1 K2]. split; [exact K1|]. intros _ Hn. apply app_eq_nil in Hn. apply K2. apply Hn.
      * destruct w1; [destruct (HC eq_refl eq_refl)|reflexivity].
    + split; [rewrite O1; apply andb_false_r|]. 
      split; [intros Hf; destruct (O2 Hf) as [K1 K2]; split; [exact K1|]; intros Hn; apply app_eq_nil in Hn; apply K2; apply Hn|].
      split; [right; rewrite O1; apply andb_false_r|]. split; [rewrite O1, andb_false_r; discriminate|].
      replace (nonempty l0) with (nonempty w1 || nonempty l2); [exact W|]. rewrite NL. destruct l0; [|reflexivity]. simpl. destruct (HF eq_refl) as [_ K]. auto.
Qed.

Lemma chunk_then : chunk_by (x1 && n2) false (n1 && n2) (h1 && h2) thcln thres (then_ p s0 q).
Proof.
  pose proof then_after as AF. constructor.
  - intros f. simpl. split; [reflexivity|]. split; [apply (cb_init H1)|left; reflexivity].
  - intros [[sp cache] sn] [K1 [K2 K3]]. split; [exact K1|]. split; [apply (cb_cln H1); exact K2|].
    destruct K3 as [K3|[K3 [v]]]; [left; exact K3|]. right. split; [apply (cb_cln (H2 v)); exact K3|constructor; exact v].
  - intros f pos [[sp cache] sn] [K1 [K2 K3]]. left. split; [exact K1|]. split; [apply (cb_res H1); exact K2|exact K3].
  - discriminate.
  - apply (cb_adderr H1).
  - apply noneoi_no.
  - left. reflexivity.
  - left. reflexivity.
  - intros f first pos l k r' [[sp cache] sn] St out E0.
    assert (K : (cache = None /\ started Cln1 Res1 f first pos l k sp /\ (sn = s0 \/ (Cln2 f sn /\ inhabited A))) \/
      (exists c v w1 l2, cache = Some (c, v) /\ first = false /\ Cln1 f sp /\ l = w1 ++ l2 /\ (c = true -> w1 <> []) /\
       always_ok true (fresh p) pos w1 (l2 ++ k) v /\ Res2 v f (pos_after pos w1) l2 k sn)).
    { destruct first; simpl in St.
      - destruct St as [K1 [K2 [K3 [K4 K5]]]]. left. simpl. auto 6.
      - destruct St as [K|[c [v [w1 [l2 [K1 [K2 [K3 [K4 [K5 K6]]]]]]]]]]; [left; exact K|]. right. exists c, v, w1, l2. auto 8. }
    simpl in E0. destruct K as [[K1 [K2 K3]]|[c [v [w1 [l2 [K1 [K2 [K3 [K4 [K5 [K6 K7]]]]]]]]]]].
    + subst cache. simpl in E0. rewrite orb_true_r, andb_false_r in E0.
      destruct (p_run p first (Inp (k ++ r') (pos_after pos l) f) sp) as [[[r i'] s']| |] eqn:E1; try discriminate.
      pose proof (cb_run H1 _ _ _ _ _ _ _ K2 _ E1) as F.
      assert (SN : forall v : A, Cln2 f sn). { intros v. destruct K3 as [K3|[K3 _]]; [|exact K3]. subst sn. rewrite <- (HI v). apply (cb_init (H2 v)). }
      simpl in E0. destruct r as [v|v|e|e]; unfold fits in F.
      * destruct F as [[r1 [F1 [F2 [F3 F4]]]] [F5 F6]]. destruct (p_cmode (q v) true i' sn) as [[[r2 i2] s2]| |] eqn:E2; try discriminate. inversion E0; subst out.
        rewrite F1. apply (then_go f pos l r1 (rest i') (l ++ r1) [] true v s' r2 i2 s2); auto.
        -- rewrite app_nil_r. reflexivity.
        -- intros _ Hn. apply app_eq_nil in Hn. destruct Hn as [Hn1 Hn2]. specialize (F4 Hn1). subst r1. discriminate.
        -- rewrite F2, <- pos_after_app in E2. apply (chunk_cmode _ _ _ _ _ _ _ (H2 v) f true (pos_after pos (l ++ r1)) [] [] (rest i') sn); [|exact E2].
           simpl. split; [reflexivity|]. split; [reflexivity|]. apply (SN v).
      * destruct F as [[r1 [F1 [F2 [F3 F4]]]] [F5 F6]]. destruct (p_cmode (q v) true i' sn) as [[[r2 i2] s2]| |] eqn:E2; try discriminate. inversion E0; subst out.
        rewrite F1. apply (then_go f pos l r1 (rest i') (l ++ r1) [] false v s' r2 i2 s2); auto.
        -- rewrite app_nil_r. reflexivity.
        -- discriminate.
        -- rewrite F2, <- pos_after_app in E2. apply (chunk_cmode _ _ _ _ _ _ _ (H2 v) f true (pos_after pos (l ++ r1)) [] [] (rest i') sn); [|exact E2].
           simpl. split; [reflexivity|]. split; [reflexivity|]. apply (SN v).
      * inversion E0; subst out. unfold fits. destruct F as [[F1 [F2 [r1 [F3 [F4 [F5 F6]]]]]]|[F1 F2]].
        -- left. split; [exact F1|]. split; [exact F2|]. exists r1. split; [exact F3|]. split; [exact F4|]. split; [discriminate|]. intros g. left.
           split; [reflexivity|]. split; [apply F6|]. destruct K3 as [K3|[K3 [v]]]; [left; exact K3|]. right. split; [|constructor; exact v].
           subst f. destruct g; [exact K3|apply (cb_cln (H2 v)); exact K3].
        -- right. split; [|apply (after_err1 _ _ _ _ AF _ _ _ _ F2)]. intros Hf. destruct (F1 Hf) as [G1 G2]. split; [exact G1|].
           intros Hh. apply G2. apply andb_true_iff in Hh. apply Hh.
      * inversion E0; subst out. unfold fits. destruct F as [F1 [F2 [F3 [F4 F5]]]]. split; [rewrite F1; reflexivity|]. split; [exact F2|].
        split; [destruct F3 as [F3|F3]; [left; exact F3|right; rewrite F3; reflexivity]|].
        split; [intros Hx; apply andb_true_iff in Hx; simpl; split; [reflexivity|split; [apply F4; apply Hx|exact K3]]|]. apply (after_err1 _ _ _ _ AF _ _ _ _ F5).
    + subst cache first l. simpl in E0. rewrite pos_after_app in E0.
      destruct (p_cmode (q v) false (Inp (k ++ r') (pos_after (pos_after pos w1) l2) f) sn) as [[[r2 i2] s2]| |] eqn:E2; try discriminate. inversion E0; subst out.
      change (k ++ r') with ([] ++ (k ++ r')). apply (then_go f pos (w1 ++ l2) [] (k ++ r') w1 l2 c v sp r2 i2 s2); auto.
      * rewrite app_nil_r. reflexivity.
      * intros Hn. apply app_eq_nil in Hn. split; [apply Hn|]. destruct c; [|reflexivity]. destruct (K5 eq_refl). apply Hn.
      * rewrite app_assoc. apply always_ok_ext. exact K6.
      * apply (chunk_cmode _ _ _ _ _ _ _ (H2 v) f false (pos_after pos w1) l2 k r' sn); [exact K7|exact E2].
Qed.
End Then.

End SeqChunk.
