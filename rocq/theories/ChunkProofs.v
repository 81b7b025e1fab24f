(** Proofs for C29: resuming on chunks against parsing everything at once. *)
From Coq Require Import String List Bool Arith NArith Lia.
Import ListNotations.
From Verif Require Import Base Parser Token Combinator Sequence Choice Repeat RangeP Spec SeqSpec ChoiceSpec TidySpec RepeatSpec AgreeSpec.
From Verif Require Import ResultProofs SeqProofs CombProofs ChoiceProofs CombProofs2 RepeatProofs ChunkSpec.
Unset Implicit Arguments.

Section Chunk.
Context {C : Cfg}.
Notation T := (tok C).
Notation E := (Err C).
Notation nonempty := consumed_some.

Lemma nonempty_app {X} (a b : list X) : nonempty (a ++ b) = nonempty a || nonempty b.
Proof. destruct a, b; reflexivity. Qed.
Lemma nonempty_nil {X} (a : list X) : nonempty a = false <-> a = [].
Proof. destruct a; simpl; split; congruence. Qed.

(** The continuations of the data that are possible: none if the end was seen. *)
Definition exts (f : bool) (m : list T) : Prop := f = true \/ m = [].

Definition always_ok {A} (f : bool) (b : @beh C A) (pos : Pos C) (w1 w2 : list T) (v : A) : Prop :=
  forall m, exts f m -> forall r i', b (Inp (w1 ++ w2 ++ m) pos false) = Done (r, i') ->
    r = okr (nonempty w1) v /\ i' = Inp (w2 ++ m) (pos_after pos w1) false.

Definition always_err {A} (f : bool) (b : @beh C A) (pos : Pos C) (w : list T) (c : bool) : Prop :=
  forall m, exts f m -> forall r i', b (Inp (w ++ m) pos false) = Done (r, i') -> is_ok r = false /\ committed r = c.

Lemma pos_after_app (p : Pos C) a b : pos_after p (a ++ b) = pos_after (pos_after p a) b.
Proof. unfold pos_after. apply fold_left_app. Qed.

Lemma always_ok_ext {A} f (b : @beh C A) pos w1 w2 v x : always_ok true b pos w1 w2 v -> always_ok f b pos w1 (w2 ++ x) v.
Proof.
  intros H m Hm r i' E0. rewrite <- app_assoc in E0. destruct (H (x ++ m) (or_introl eq_refl) r i' E0) as [H1 H2].
  split; auto. rewrite H2. rewrite app_assoc. reflexivity.
Qed.
Lemma always_err_ext {A} f (b : @beh C A) pos w c x : always_err true b pos w c -> always_err f b pos (w ++ x) c.
Proof. intros H m Hm r i' E0. rewrite <- app_assoc in E0. apply (H (x ++ m) (or_introl eq_refl) r i' E0). Qed.
Lemma always_ok_weak {A} f (b : @beh C A) pos w1 w2 v : always_ok true b pos w1 w2 v -> always_ok f b pos w1 w2 v.
Proof. intros H m Hm. apply H. left. reflexivity. Qed.
Lemma always_err_weak {A} f (b : @beh C A) pos w c : always_err true b pos w c -> always_err f b pos w c.
Proof. intros H m Hm. apply H. left. reflexivity. Qed.

(** Same behaviour but for the contents of errors and the input after them. *)
Definition maps_beh {A B} (g : A -> B) (b : @beh C A) (b' : @beh C B) : Prop :=
  forall i r i', b' i = Done (r, i') -> exists r0 i0, b i = Done (r0, i0) /\ committed r = committed r0 /\
    value_of r = option_map g (value_of r0) /\ (is_ok r0 = true -> i' = i0).
Lemma okr_value {A} (r : PR A E) v : value_of r = Some v -> r = okr (committed r) v.
Proof. destruct r; simpl; intros H; inversion H; reflexivity. Qed.
Lemma value_ok {A} (r : PR A E) : is_ok r = match value_of r with Some _ => true | None => false end.
Proof. destruct r; reflexivity. Qed.
Lemma committed_okr {A} c (v : A) : committed (@okr A E c v) = c.
Proof. destruct c; reflexivity. Qed.
Lemma value_okr {A} c (v : A) : value_of (@okr A E c v) = Some v.
Proof. destruct c; reflexivity. Qed.
Lemma maps_always_ok {A B} (g : A -> B) b b' f pos w1 w2 v : maps_beh g b b' -> always_ok f b pos w1 w2 v ->
  always_ok f b' pos w1 w2 (g v).
Proof.
  intros M H m Hm r i' E0. destruct (M _ _ _ E0) as [r0 [i0 [H1 [H2 [H3 H4]]]]]. destruct (H m Hm _ _ H1) as [K1 K2].
  subst r0 i0. rewrite value_okr in H3. rewrite committed_okr in H2. split; [rewrite <- H2; apply okr_value; exact H3|].
  apply H4. rewrite value_ok, value_okr. reflexivity.
Qed.
Lemma maps_always_err {A B} (g : A -> B) b b' f pos w c : maps_beh g b b' -> always_err f b pos w c -> always_err f b' pos w c.
Proof.
  intros M H m Hm r i' E0. destruct (M _ _ _ E0) as [r0 [i0 [H1 [H2 [H3 H4]]]]]. destruct (H m Hm _ _ H1) as [K1 K2].
  rewrite value_ok in K1. rewrite value_ok, H3. destruct (value_of r0); [discriminate K1|]. split; [reflexivity|congruence].
Qed.

Definition noneoi (t : trk E -> trk E) : Prop := forall u, e_is_eoi C (terr u) = false -> e_is_eoi C (terr (t u)) = false.

(** What a run on a chunk tells about the run on everything: [l] was consumed in earlier chunks since [pos], [r] is the
    chunk. *)
Definition fits (x a n h f : bool) {S A} (Cln : bool -> S -> Prop) (Res : bool -> Pos C -> list T -> list T -> S -> Prop)
    (b : @beh C A) (pos : Pos C) (l r : list T) (out : PR A E * input C * S) : Prop :=
  match out with (res, i', s') =>
    match res with
    | CommitOk v | PeekOk v =>
        (exists r1, r = r1 ++ rest i' /\ i' = Inp (rest i') (pos_after (pos_after pos l) r1) f /\
           always_ok f b pos (l ++ r1) (rest i') v /\ (l = [] -> committed res = nonempty r1)) /\
        Cln f s' /\ (h = true -> f = true -> r <> [])
    | PeekErr e =>
        n = false /\ (f = true -> e_is_eoi C (terr e) = false /\ r <> []) /\ (l = [] \/ x = false) /\ (x = true -> Cln f s') /\
        always_err f b pos (l ++ r) (nonempty l)
    | CommitErr e =>
        (f = true /\ e_is_eoi C e = true /\ exists r1, r = r1 ++ rest i' /\
           i' = Inp (rest i') (pos_after (pos_after pos l) r1) f /\ (a = true -> r1 = []) /\
           forall g, Res g pos (l ++ r1) (rest i') s') \/
        ((f = true -> e_is_eoi C e = false /\ (h = true -> r <> [])) /\ always_err f b pos (l ++ r) true)
    end
  end.

Definition started {S} (Cln : bool -> S -> Prop) (Res : bool -> Pos C -> list T -> list T -> S -> Prop) (f first : bool) pos
    (l k : list T) s : Prop := if first then l = [] /\ k = [] /\ Cln f s else Res f pos l k s.

Record chunk_by (x a n h : bool) {S A} (Cln : bool -> S -> Prop) (Res : bool -> Pos C -> list T -> list T -> S -> Prop)
    (p : parser C S A) : Prop := {
  cb_init : forall f, Cln f (p_init p);
  cb_cln : forall s, Cln true s -> Cln false s;
  cb_res : forall f pos s, Cln f s -> Res f pos [] [] s;
  cb_atomic : a = true -> forall f pos l k s, Res f pos l k s -> l = [];
  cb_adderr : noneoi (p_adderr p);
  cb_cexp : noneoi (p_addcexp p);
  cb_cmode : forall first i st, p_cmode p first i st = default_cmode (p_run p) (p_adderr p) first i st \/
    p_cmode p first i st = p_run p first i st;
  cb_lazy : forall i, p_lazy p i = default_lazy (p_init p) (p_run p) i \/ p_lazy p i = fresh p i;
  cb_run : forall f first pos l k r' s, started Cln Res f first pos l k s -> forall out,
    p_run p first (Inp (k ++ r') (pos_after pos l) f) s = Done out -> fits x a n h f Cln Res (fresh p) pos l (k ++ r') out
}.

Lemma fits_weak x a n h x' a' n' h' f {S A} (Cln : bool -> S -> Prop) Res (b : @beh C A) pos l r out :
  (x' = true -> x = true) -> (a' = true -> a = true) -> (n' = true -> n = true) -> (h' = true -> h = true) ->
  fits x a n h f Cln Res b pos l r out -> fits x' a' n' h' f Cln Res b pos l r out.
Proof.
  intros X A0 N0 H0. destruct out as [[res i'] s']. unfold fits. destruct res.
  - intros [H1 [H2 H3]]. auto.
  - intros [H1 [H2 H3]]. auto.
  - intros [[H1 [H2 [r1 [H3 [H4 [H5 H6]]]]]]|[H1 H2]].
    + left. split; [auto|]. split; [auto|]. exists r1. split; [exact H3|]. split; [exact H4|]. split; [auto|exact H6].
    + right. split; [|auto]. intros F. destruct (H1 F) as [K1 K2]. auto.
  - intros [H1 [H2 [H3 [H4 H5]]]]. split; [destruct n'; auto; rewrite N0 in H1; congruence|]. split; [auto|]. split; [|auto].
    destruct H3 as [H3|H3]; auto. right. destruct x'; auto. rewrite X in H3; congruence.
Qed.

Lemma chunk_weak x a n h x' a' n' h' {S A} Cln Res (p : parser C S A) :
  (x' = true -> x = true) -> (a' = true -> a = true) -> (n' = true -> n = true) -> (h' = true -> h = true) ->
  chunk_by x a n h Cln Res p -> chunk_by x' a' n' h' Cln Res p.
Proof.
  intros X A0 N0 H0 H. destruct H. constructor; auto.
  - intros H. apply (cb_atomic0 (A0 H)).
  - intros. eapply fits_weak; eauto.
Qed.

(** Parsers which run another and change values and errors only. *)
Lemma chunk_post x a n h {S A B} Cln Res (p : parser C S A) (q : parser C S B) (g : A -> B) :
  chunk_by x a n h Cln Res p ->
  p_init q = p_init p -> noneoi (p_adderr q) -> noneoi (p_addcexp q) ->
  (forall first i st, p_cmode q first i st = default_cmode (p_run q) (p_adderr q) first i st \/ p_cmode q first i st = p_run q first i st) ->
  (forall i, p_lazy q i = default_lazy (p_init q) (p_run q) i \/ p_lazy q i = fresh q i) ->
  (forall first i st, exists g2, p_run q first i st = omap (fun y => match y with (r, i', s') => (g2 i' r, i', s') end) (p_run p first i st) /\
     forall i' r, committed (g2 i' r) = committed r /\ value_of (g2 i' r) = option_map g (value_of r) /\
       match r, g2 i' r with
       | CommitErr e, CommitErr e' => e_is_eoi C e' = e_is_eoi C e
       | PeekErr e, PeekErr e' => e_is_eoi C (terr e') = e_is_eoi C (terr e)
       | _, _ => True
       end) ->
  chunk_by x a n h Cln Res q.
Proof.
  intros H HI HA HC HM HL HR. destruct H. 
  assert (MB : maps_beh g (fresh p) (fresh q)).
  { intros i r i' E0. unfold fresh in *. rewrite HI in E0. destruct (HR true i (p_init p)) as [g2 [H1 H2]]. rewrite H1 in E0.
    destruct (p_run p true i (p_init p)) as [[[r0 i0] s0]| |]; try discriminate. inversion E0; subst.
    destruct (H2 i' r0) as [K1 [K2 K3]]. exists r0, i'. auto. }
  constructor; auto.
  - rewrite HI. auto.
  - intros f first pos l k r' s St out E0. destruct (HR first (Inp (k ++ r') (pos_after pos l) f) s) as [g2 [H1 H2]]. rewrite H1 in E0.
    destruct (p_run p first (Inp (k ++ r') (pos_after pos l) f) s) as [[[r0 i0] s0]| |] eqn:E1; try discriminate. inversion E0; subst.
    specialize (cb_run0 _ _ _ _ _ _ _ St _ E1). destruct (H2 i0 r0) as [K1 [K2 K3]].
    unfold fits in *. destruct r0 as [v|v|e|e]; destruct (g2 i0 _) as [v'|v'|e'|e'] eqn:G; simpl in K1, K2, K3; try discriminate.
    + inversion K2; subst. destruct cb_run0 as [[r1 [R1 [R2 [R3 R4]]]] R5]. split; [|auto].
      exists r1. split; [exact R1|]. split; [exact R2|]. split; [eapply maps_always_ok; eauto|exact R4].
    + inversion K2; subst. destruct cb_run0 as [[r1 [R1 [R2 [R3 R4]]]] R5]. split; [|auto].
      exists r1. split; [exact R1|]. split; [exact R2|]. split; [eapply maps_always_ok; eauto|exact R4].
    + rewrite K3. destruct cb_run0 as [R|[R1 R2]]; [left; auto|right; split; auto]. eapply maps_always_err; eauto.
    + rewrite K3. destruct cb_run0 as [R1 [R2 [R3 [R4 R5]]]]. split; [exact R1|]. split; [exact R2|]. split; [exact R3|]. split; [exact R4|]. eapply maps_always_err; eauto.
Qed.

(** * Leaves *)
Variable EL : eoi_laws C.
Variable L : lawful C.
Variable D : pos_distinct C.

Lemma fits_beh x a n h f {S A} (Cln : bool -> S -> Prop) Res (b b' : @beh C A) pos l r out :
  (forall i, b i = b' i) -> fits x a n h f Cln Res b pos l r out -> fits x a n h f Cln Res b' pos l r out.
Proof.
  intros Q. destruct out as [[res i'] s']. unfold fits, always_ok, always_err. destruct res.
  - intros [[r1 [H1 [H2 [H3 H4]]]] H5]. split; [|exact H5]. exists r1. split; [exact H1|]. split; [exact H2|]. split; [|exact H4].
    intros m Hm r0 i0. rewrite <- Q. apply H3. exact Hm.
  - intros [[r1 [H1 [H2 [H3 H4]]]] H5]. split; [|exact H5]. exists r1. split; [exact H1|]. split; [exact H2|]. split; [|exact H4].
    intros m Hm r0 i0. rewrite <- Q. apply H3. exact Hm.
  - intros [H|[H1 H2]]; [left; exact H|right; split; [exact H1|]]. intros m Hm r0 i0. rewrite <- Q. apply H2. exact Hm.
  - intros [H1 [H2 [H3 [H4 H5]]]]. split; [exact H1|]. split; [exact H2|]. split; [exact H3|]. split; [exact H4|].
    intros m Hm r0 i0. rewrite <- Q. apply H5. exact Hm.
Qed.

Lemma noneoi_no : noneoi no_err.
Proof. intros u H. exact H. Qed.
Lemma noneoi_add s : se_is_eoi C s = false -> noneoi (on_err (fun e => e_add C e s)).
Proof. intros H u Hu. simpl. rewrite (el_add EL), Hu, H. reflexivity. Qed.
Lemma noneoi_comp f g : noneoi f -> noneoi g -> noneoi (fun t => f (g t)).
Proof. intros H1 H2 u H. apply H1. apply H2. exact H. Qed.

Lemma fresh_mk_lazy {A} (lz : input C -> outcome (PR A E * input C)) ad ce cnt i : fresh (mk_lazy lz ad ce cnt) i = lz i.
Proof. unfold fresh. simpl. unfold lazy_run. destruct (lz i) as [[r j]| |]; reflexivity. Qed.

Definition ucln (_ : bool) (_ : unit) : Prop := True.
Definition ures (_ : bool) (_ : Pos C) (l _ : list T) (_ : unit) : Prop := l = [].

Lemma chunk_unit {A} x n h (p : parser C unit A) :
  noneoi (p_adderr p) -> noneoi (p_addcexp p) ->
  (forall first i st, p_cmode p first i st = default_cmode (p_run p) (p_adderr p) first i st \/ p_cmode p first i st = p_run p first i st) ->
  (forall i, p_lazy p i = default_lazy (p_init p) (p_run p) i \/ p_lazy p i = fresh p i) ->
  (forall first i, p_run p first i tt = p_run p true i tt) ->
  (forall f pos r res i', p_run p true (Inp r pos f) tt = Done (res, i', tt) ->
     fits x true n h f ucln ures (fresh p) pos [] r (res, i', tt)) ->
  chunk_by x true n h ucln ures p.
Proof.
  intros H1 H2 H3 H4 H5 H6. constructor; auto.
  - intros. exact I.
  - intros f pos s _. reflexivity.
  - intros f first pos l k r' [] St out E0.
    assert (Hl : l = []) by (destruct first; [apply St|exact St]). subst l. rewrite H5 in E0. destruct out as [[res i'] []].
    apply H6. exact E0.
Qed.

Lemma chunk_lazy {A} x n h (lz : input C -> outcome (PR A E * input C)) ad ce cnt :
  noneoi ad -> noneoi ce ->
  (forall f pos r res i', lz (Inp r pos f) = Done (res, i') -> fits x true n h f ucln ures lz pos [] r (res, i', tt)) ->
  chunk_by x true n h ucln ures (mk_lazy lz ad ce cnt).
Proof.
  intros H1 H2 H3. apply chunk_unit; auto.
  - intros i. right. rewrite fresh_mk_lazy. reflexivity.
  - intros f pos r res i' E0. simpl in E0. unfold lazy_run in E0. destruct (lz (Inp r pos f)) as [[r0 j]| |] eqn:E1; try discriminate.
    inversion E0; subst. eapply fits_beh; [|apply H3; exact E1]. intros i. symmetry. apply fresh_mk_lazy.
Qed.

Lemma chunk_satisfy_impl {R} (g : T -> option R) ad cnt : noneoi ad ->
  chunk_by true true false true ucln ures (mk_lazy (satisfy_impl g) ad no_err cnt).
Proof.
  intros HA. apply chunk_lazy; [exact HA|apply noneoi_no|]. intros f pos r res i'. unfold satisfy_impl, s_uncons, uncons. simpl.
  destruct r as [|t r]; simpl.
  - unfold wrap_stream_error. simpl. destruct f; intros H; inversion H; subst.
    + left. split; [reflexivity|]. split; [rewrite (el_from EL); apply (el_se EL)|]. exists []. simpl. repeat split; auto.
    + simpl. split; [reflexivity|]. split; [discriminate|]. split; [auto|]. split; [intros; exact I|].
      intros m [Hm|Hm]; [discriminate|]. subst m. simpl. intros r i'. unfold s_uncons, uncons, wrap_stream_error. simpl.
      intros H0. inversion H0. auto.
  - destruct (g t) as [v|] eqn:G; intros H; inversion H; subst.
    + simpl. split; [|split; [exact I|intros _ _; discriminate]]. exists [t]. split; [reflexivity|]. split; [reflexivity|]. split; [|reflexivity].
      intros m Hm r0 i0. simpl. rewrite G. intros H0. inversion H0. auto.
    + simpl. split; [reflexivity|]. split; [intros _; split; [apply (el_empty EL)|discriminate]|]. split; [auto|]. split; [intros; exact I|].
      intros m Hm r0 i0. simpl. rewrite G. intros H0. inversion H0. auto.
Qed.

Lemma noneoi_expected x : noneoi (on_err (fun e => e_add_expected e x)).
Proof. apply noneoi_add. apply (el_expected EL). Qed.
Lemma noneoi_expecteds l : noneoi (fun t => fold_left (fun t c => on_err (fun e => e_add_expected e (IToken c)) t) l t).
Proof. induction l as [|c l IH]; intros u H; [exact H|]. simpl. apply (IH (on_err _ u)). apply noneoi_expected. exact H. Qed.

Lemma chunk_any : chunk_by true true false true ucln ures (@any C).
Proof.
  apply chunk_lazy; [apply noneoi_no|apply noneoi_no|]. intros f pos r res i'. unfold s_uncons, uncons. simpl.
  destruct r as [|t r]; simpl.
  - unfold wrap_stream_error. simpl. destruct f; intros H; inversion H; subst.
    + left. split; [reflexivity|]. split; [rewrite (el_from EL); apply (el_se EL)|]. exists []. simpl. repeat split; auto.
    + simpl. split; [reflexivity|]. split; [discriminate|]. split; [auto|]. split; [intros; exact I|].
      intros m [Hm|Hm]; [discriminate|]. subst m. simpl. intros r i'. unfold s_uncons, uncons, wrap_stream_error. simpl.
      intros H0. inversion H0. auto.
  - intros H; inversion H; subst. simpl. split; [|split; [exact I|intros _ _; discriminate]]. exists [t]. split; [reflexivity|].
    split; [reflexivity|]. split; [|reflexivity]. intros m Hm r0 i0. simpl. intros H0. inversion H0. auto.
Qed.
Lemma chunk_satisfy g : chunk_by true true false true ucln ures (@satisfy C g).
Proof. apply chunk_satisfy_impl. apply noneoi_no. Qed.
Lemma chunk_satisfy_map {R} (g : T -> option R) : chunk_by true true false true ucln ures (satisfy_map g).
Proof. apply chunk_satisfy_impl. apply noneoi_no. Qed.
Lemma chunk_token t : chunk_by true true false true ucln ures (@token C t).
Proof. apply chunk_satisfy_impl. apply noneoi_expected. Qed.
Lemma chunk_one_of l : chunk_by true true false true ucln ures (@one_of C l).
Proof. apply chunk_satisfy_impl. apply noneoi_expecteds. Qed.
Lemma chunk_none_of l : chunk_by true true false true ucln ures (@none_of C l).
Proof. apply chunk_satisfy_impl. apply noneoi_no. Qed.

Lemma chunk_instant {A} (v : Pos C -> A) cnt : chunk_by true true true false ucln ures (mk_lazy (fun i => Done (PeekOk (v (ipos i)), i)) no_err no_err cnt).
Proof.
  apply chunk_lazy; [apply noneoi_no|apply noneoi_no|]. intros f pos r res i' H. simpl in H. inversion H; subst. simpl.
  split; [|split; [exact I|discriminate]]. exists []. split; [reflexivity|]. split; [reflexivity|]. split; [|reflexivity].
  intros m Hm r0 i0 H0. simpl in H0. inversion H0. auto.
Qed.
Lemma chunk_value {A} (v : A) : chunk_by true true true false ucln ures (@value C A v).
Proof. apply (chunk_instant (fun _ => v)). Qed.
Lemma chunk_produce {A} (v : unit -> A) : chunk_by true true true false ucln ures (@produce C A v).
Proof. apply (chunk_instant (fun _ => v tt)). Qed.
Lemma chunk_position : chunk_by true true true false ucln ures (@position C).
Proof. apply (chunk_instant (fun q => q)). Qed.

End Chunk.
Arguments cb_init {C x a n h S A Cln Res p} _.
Arguments cb_cln {C x a n h S A Cln Res p} _.
Arguments cb_res {C x a n h S A Cln Res p} _.
Arguments cb_atomic {C x a n h S A Cln Res p} _.
Arguments cb_adderr {C x a n h S A Cln Res p} _.
Arguments cb_cexp {C x a n h S A Cln Res p} _.
Arguments cb_cmode {C x a n h S A Cln Res p} _.
Arguments cb_lazy {C x a n h S A Cln Res p} _.
Arguments cb_run {C x a n h S A Cln Res p} _.
