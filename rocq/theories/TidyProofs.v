(** C28: tidy parsers are history free. *)
From Coq Require Import String List Bool Arith NArith Lia.
Import ListNotations.
From Verif Require Import Base Parser Token Combinator Sequence Choice Repeat RangeP ByteP Spec SeqProofs TidySpec.
Unset Implicit Arguments.

(** Two computations agree. *)
Definition orel {X Y} (R : X -> Y -> Prop) (o1 : outcome X) (o2 : outcome Y) : Prop :=
  match o1, o2 with
  | Done x, Done y => R x y
  | Panic, Panic | OOF, OOF => True
  | _, _ => False
  end.
Lemma orel_bind {X Y X' Y'} (R : X -> Y -> Prop) (Q : X' -> Y' -> Prop) o1 o2 f g :
  orel R o1 o2 -> (forall x y, R x y -> orel Q (f x) (g y)) -> orel Q (obind o1 f) (obind o2 g).
Proof. intros H K. destruct o1, o2; simpl in *; auto; contradiction. Qed.
Lemma orel_map {X Y X' Y'} (R : X -> Y -> Prop) (Q : X' -> Y' -> Prop) o1 o2 f g :
  orel R o1 o2 -> (forall x y, R x y -> Q (f x) (g y)) -> orel Q (omap f o1) (omap g o2).
Proof. intros H K. destruct o1, o2; simpl in *; auto; contradiction. Qed.
Lemma orel_mono {X Y} (R Q : X -> Y -> Prop) o1 o2 : orel R o1 o2 -> (forall x y, R x y -> Q x y) -> orel Q o1 o2.
Proof. intros H K. destruct o1, o2; simpl in *; auto. Qed.
Lemma orel_refl {X} (R : X -> X -> Prop) o : (forall x, o = Done x -> R x x) -> orel R o o.
Proof. destruct o; simpl; auto. Qed.

Section Tidy.
Context {C : Cfg}.
Notation T := (tok C).
Notation E := (Err C).

Definition agree {S A} (b : bool) (Clean : S -> Prop) (x y : PR A E * input C * S) : Prop :=
  match x, y with (r, i, s), (r2, i2, s2) => r = r2 /\ i = i2 /\ (b = true \/ not_commit_err r -> Clean s /\ Clean s2) end.

Definition run_hyg {S A} b (Clean : S -> Prop) (run : bool -> input C -> S -> outcome (PR A E * input C * S)) : Prop :=
  forall i s s2, Clean s -> Clean s2 -> orel (agree b Clean) (run true i s) (run true i s2).

Record hyg {S A} (b : bool) (Clean : S -> Prop) (p : parser C S A) : Prop := {
  h_init : Clean (p_init p);
  h_run : run_hyg b Clean (p_run p);
  h_cmode : run_hyg b Clean (p_cmode p)
}.
Arguments h_init {S A b Clean p}.
Arguments h_run {S A b Clean p}.
Arguments h_cmode {S A b Clean p}.

Lemma agree_weak {S A} b (Clean : S -> Prop) (x y : PR A E * input C * S) : agree true Clean x y -> agree b Clean x y.
Proof. destruct x as [[r i] s], y as [[r2 i2] s2]. intros [H1 [H2 H3]]. repeat split; auto; apply H3; auto. Qed.
Lemma hyg_weak {S A} b (Clean : S -> Prop) (p : parser C S A) : hyg true Clean p -> hyg b Clean p.
Proof.
  intros H. constructor.
  - apply (h_init H).
  - intros i s s2 H1 H2. eapply orel_mono; [apply (h_run H); auto|]. intros x y. apply agree_weak.
  - intros i s s2 H1 H2. eapply orel_mono; [apply (h_cmode H); auto|]. intros x y. apply agree_weak.
Qed.

Lemma run_hyg_cmode {S A} b (Clean : S -> Prop) (run : bool -> input C -> S -> outcome (PR A E * input C * S)) a :
  run_hyg b Clean run -> run_hyg b Clean (default_cmode run a).
Proof.
  intros H i s s2 H1 H2. eapply orel_map. { apply H; auto. }
  intros [[r j] t] [[r2 j2] t2] [-> [-> Hc]]. destruct r2; simpl in *; repeat split; auto; apply Hc; simpl in *; intuition.
Qed.
Lemma hyg_mk_mode {S A} b (Clean : S -> Prop) init (run : bool -> input C -> S -> outcome (PR A E * input C * S)) a x n :
  Clean init -> run_hyg b Clean run -> hyg b Clean (mk_mode init run a x n).
Proof. intros H1 H2. constructor; simpl; auto. apply run_hyg_cmode. auto. Qed.
Lemma hyg_mk_both {S A} b (Clean : S -> Prop) init (run : bool -> input C -> S -> outcome (PR A E * input C * S)) lz a x n :
  Clean init -> run_hyg b Clean run -> hyg b Clean (mk_both init run lz a x n).
Proof. intros H1 H2. constructor; simpl; auto. apply run_hyg_cmode. auto. Qed.

Lemma hyg_unit {A} b (p : parser C unit A) : hyg b (fun _ => True) p.
Proof.
  constructor; auto; intros i [] [] _ _; apply orel_refl; intros [[r j] s] _; repeat split; auto.
Qed.

(** Parsers whose run only post-processes the result. *)
Lemma run_hyg_post {S A B} b (Clean : S -> Prop) (run : bool -> input C -> S -> outcome (PR A E * input C * S))
    (g : input C -> PR A E * input C -> PR B E * input C) :
  run_hyg b Clean run ->
  (forall i r j, (b = true \/ not_commit_err (fst (g i (r, j)))) -> b = true \/ not_commit_err r) ->
  run_hyg b Clean (fun first i st => omap (fun x => match x with (r, j, s) => let (r', j') := g i (r, j) in (r', j', s) end) (run first i st)).
Proof.
  intros H Hg i s s2 H1 H2. eapply orel_map. { apply H; auto. }
  intros [[r j] t] [[r2 j2] t2] [-> [-> Hc]]. specialize (Hg i r2 j2). destruct (g i (r2, j2)) as [r' j']. simpl in *.
  repeat split; auto; apply Hc; auto.
Qed.

Lemma run_hyg_ext {S A} b (Clean : S -> Prop) (run run' : bool -> input C -> S -> outcome (PR A E * input C * S)) :
  (forall i s, run' true i s = run true i s) -> run_hyg b Clean run -> run_hyg b Clean run'.
Proof. intros He H i s s2 H1 H2. rewrite !He. apply H; auto. Qed.

Section Unary.
Context {S A : Type} (b : bool) (Clean : S -> Prop) (p : parser C S A) (H : hyg b Clean p).

Ltac post := intros i0 s0 s02 Hs1 Hs2; eapply orel_map; [apply (h_run H); auto|];
  intros [[r j] t] [[r2 j2] t2] [-> [-> Hc]].

Lemma hyg_message m : hyg b Clean (message p m).
Proof. apply hyg_mk_mode; [apply (h_init H)|]. post. destruct r2; simpl in *; repeat split; auto; apply Hc; intuition. Qed.
Lemma hyg_expected m : hyg b Clean (expected p m).
Proof. apply hyg_mk_mode; [apply (h_init H)|]. apply (h_run H). Qed.
Lemma hyg_silent : hyg b Clean (silent p).
Proof. apply hyg_mk_mode; [apply (h_init H)|]. post. destruct r2; simpl in *; repeat split; auto; apply Hc; intuition. Qed.
Lemma hyg_map {B} (f : A -> B) : hyg b Clean (map p f).
Proof. apply hyg_mk_mode; [apply (h_init H)|]. post. destruct r2; simpl in *; repeat split; auto; apply Hc; intuition. Qed.
Lemma hyg_map_input {B} (f : A -> input C -> B * input C) : hyg b Clean (map_input p f).
Proof.
  apply hyg_mk_mode; [apply (h_init H)|]. post. destruct r2 as [a|a|e|e]; simpl in *; try destruct (f a j2); repeat split; auto; apply Hc; intuition.
Qed.
Lemma hyg_flat_map {B} (f : A -> B + E) : hyg b Clean (flat_map p f).
Proof.
  apply hyg_mk_mode; [apply (h_init H)|]. post. destruct r2 as [a|a|e|e]; simpl in *; try destruct (f a); repeat split; auto; apply Hc; simpl; intuition.
Qed.
Lemma run_hyg_and_then {B} (f : A -> B + SErr C) : run_hyg b Clean (p_run (and_then p f)).
Proof.
  simpl. post. destruct r2 as [a|a|e|e]; simpl in *; try (repeat split; auto; apply Hc; simpl; intuition; fail);
    destruct (f a); try destruct (ipart j2 && input_at_eof j2); simpl in *; repeat split; auto; apply Hc; simpl; intuition.
Qed.
Lemma hyg_and_then {B} (f : A -> B + SErr C) : hyg b Clean (and_then p f).
Proof. apply hyg_mk_mode; [apply (h_init H)|]. apply run_hyg_and_then. Qed.
Lemma hyg_from_str {B} (f : A -> option (B + string)) : hyg b Clean (from_str p f).
Proof. apply hyg_mk_mode; [apply (h_init H)|]. apply run_hyg_and_then. Qed.
Lemma hyg_ignore : hyg b Clean (ignore p).
Proof. apply hyg_mk_both; [apply (h_init H)|]. post. destruct r2; simpl in *; repeat split; auto; apply Hc; intuition. Qed.
Lemma hyg_lazy : hyg b Clean (lazy p).
Proof. constructor; simpl; [apply (h_init H)|apply (h_run H)|apply (h_run H)]. Qed.
Lemma hyg_factory : hyg b Clean (factory p).
Proof. apply hyg_mk_mode; [apply (h_init H)|]. apply (h_run H). Qed.
Lemma hyg_opaque : hyg b Clean (opaque p).
Proof. constructor; simpl; [apply (h_init H)|apply (h_run H)|]. apply run_hyg_cmode. apply (h_run H). Qed.
Lemma hyg_spanned {Q} (q : Q -> Q -> bool) x y m : hyg b Clean (spanned q x y m p).
Proof. apply hyg_mk_mode; [apply (h_init H)|]. post. destruct r2; simpl in *; repeat split; auto; apply Hc; intuition. Qed.
Lemma hyg_by_ref : hyg b Clean (by_ref p).
Proof. apply hyg_mk_mode; [apply (h_init H)|]. apply (h_run H). Qed.
Lemma hyg_parser_fn : hyg b Clean (parser_fn p).
Proof. apply hyg_mk_mode; [apply (h_init H)|]. apply (h_run H). Qed.
Lemma hyg_optional : hyg b Clean (optional p).
Proof. apply hyg_mk_mode; [apply (h_init H)|]. post. destruct r2; simpl in *; repeat split; auto; apply Hc; intuition. Qed.

Definition opt_clean (o : option S) : Prop := match o with None => True | Some s => Clean s end.
Lemma hyg_any_partial_state : hyg b opt_clean (any_partial_state p).
Proof.
  apply hyg_mk_both; [exact I|]. intros i s s2 H1 H2. unfold any_partial_run.
  assert (Hd : forall s, opt_clean s -> Clean (match s with Some x => x | None => p_init p end)).
  { intros [x|] Hx; auto. apply (h_init H). }
  destruct s as [s|], s2 as [s2|]; simpl in *; (eapply orel_map; [apply (h_run H); auto; apply (h_init H)|]);
    intros [[r j] t] [[r2 j2] t2] [-> [-> Hc]]; (split; [auto|split; [auto|]]); intros Hb; destruct (Hc Hb); destruct r2; simpl; auto.
Qed.

Definition left_clean {S2} (o : option (S + S2)) : Prop := match o with Some (inl s) => Clean s | _ => True end.
Definition right_clean {S2} (o : option (S2 + S)) : Prop := match o with Some (inr s) => Clean s | _ => True end.
Lemma hyg_left {S2} : hyg b left_clean (@either C S S2 A (inl p)).
Proof.
  apply hyg_mk_both; [exact I|]. intros i s s2 H1 H2. unfold either_run. eapply orel_map.
  - apply (h_run H); [destruct s as [[x|x]|]|destruct s2 as [[x|x]|]]; simpl in *; auto; apply (h_init H).
  - intros [[r j] t] [[r2 j2] t2] [-> [-> Hc]]. repeat split; auto; apply Hc; auto.
Qed.
Lemma hyg_right {S2} : hyg b right_clean (@either C S2 S A (inr p)).
Proof.
  apply hyg_mk_both; [exact I|]. intros i s s2 H1 H2. unfold either_run. eapply orel_map.
  - apply (h_run H); [destruct s as [[x|x]|]|destruct s2 as [[x|x]|]]; simpl in *; auto; apply (h_init H).
  - intros [[r j] t] [[r2 j2] t2] [-> [-> Hc]]. repeat split; auto; apply Hc; auto.
Qed.

Lemma hyg_dispatch_here {SS} : hyg b left_clean (dispatch (@DC C A S SS p)).
Proof.
  apply hyg_mk_mode; [exact I|]. intros i s s2 H1 H2. cbn [disp_run]. eapply orel_map.
  - apply (h_run H); [destruct s as [[x|x]|]|destruct s2 as [[x|x]|]]; simpl in *; auto; apply (h_init H).
  - intros [[r j] t] [[r2 j2] t2] [-> [-> Hc]]. repeat split; auto; apply Hc; auto.
Qed.

Lemma hyg_recognize_with_value : hyg b (fun st => Clean (snd st)) (recognize_with_value p).
Proof.
  apply hyg_mk_mode; [apply (h_init H)|]. intros i [d s] [d2 s2] H1 H2. unfold recognize_with_value_run. simpl.
  eapply orel_bind. { apply (h_run H); auto. }
  intros [[r j] t] [[r2 j2] t2] [-> [-> Hc]]. destruct r2 as [a|a|e|e]; simpl in *.
  - destruct (s_uncons_range i (distance j2 i)) as [r3 i3]. simpl. repeat split; auto; apply Hc; simpl; auto.
  - destruct (s_uncons_range i (distance j2 i)) as [r3 i3]. simpl. repeat split; auto; apply Hc; simpl; auto.
  - repeat split; auto; apply Hc; auto.
  - repeat split; auto; apply Hc; auto.
Qed.
End Unary.

Lemma hyg_dispatch_later b {S SS A} Clean (d : disp (C:=C) A SS) : hyg b Clean (dispatch d) ->
  hyg b (fun o => match o with Some (inr s) => Clean (Some s) | _ => True end) (dispatch (@DN C A S SS d)).
Proof.
  intros H. apply hyg_mk_mode; [exact I|]. intros i s s2 H1 H2. cbn [disp_run]. eapply orel_map.
  - apply (h_run H); [destruct s as [[x|x]|]|destruct s2 as [[x|x]|]]; simpl in *; auto; apply (h_init H).
  - intros [[r j] t] [[r2 j2] t2] [-> [-> Hc]]. repeat split; auto; destruct t, t2; cbn; try exact I; apply Hc; auto.
Qed.

Lemma hyg_recognize {S A} Clean (p : parser C S A) :
  (forall first i st a i' st', p_run p first i st = Done (PeekOk a, i', st') -> pos_eqb C (ipos i) (ipos i') = true) ->
  hyg false Clean p -> hyg false (fun st => fst st = [] /\ Clean (snd st)) (recognize p).
Proof.
  intros Hp H. apply hyg_mk_mode; [split; [reflexivity|apply (h_init H)]|]. intros i [d s] [d2 s2] [E1 H1] [E2 H2]. simpl in E1, E2, H1, H2. subst.
  unfold recognize_run. pose proof (h_run H i s s2 H1 H2) as Hr.
  assert (Hq : forall j, pos_eqb C (ipos i) (ipos j) = true -> replay (ipos j) (rest i) (ipos i) = ([], rest i, ipos i, true)).
  { intros j Hj. destruct (rest i); simpl; rewrite Hj; reflexivity. }
  pose proof (Hp true i s2) as Hs. destruct (p_run p true i s) as [[[r j] t]| |], (p_run p true i s2) as [[[r2 j2] t2]| |]; simpl in *; try tauto.
  destruct Hr as [-> [-> Hc]]. destruct r2 as [a|a|e|e].
  - destruct (replay (ipos j2) (rest i) (ipos i)) as [[[x l'] p'] ok]. destruct ok; simpl; repeat split; auto; try (apply Hc; simpl; auto).
    all: intros; intuition discriminate.
  - rewrite (Hq j2); [|eauto]. simpl. repeat split; auto; apply Hc; simpl; auto.
  - destruct (replay (ipos j2) (rest i) (ipos i)) as [[[x l'] p'] ok]. destruct ok; simpl; repeat split; auto; intuition discriminate.
  - destruct (replay (ipos j2) (rest i) (ipos i)) as [[[x l'] p'] ok]. simpl. repeat split; auto; apply Hc; simpl; auto.
Qed.

Lemma hyg_attempt {S A} b Clean (p : parser C S A) : hyg true Clean p -> hyg b Clean (attempt p).
Proof.
  intros H. assert (Hr : run_hyg b Clean (attempt_run p)).
  { intros i s s2 H1 H2. eapply orel_map; [apply (h_cmode H); auto|]. intros [[r j] t] [[r2 j2] t2] [-> [-> Hc]].
    destruct r2 as [a|a|e|e]; simpl; try (repeat split; auto; apply Hc; auto; fail).
    destruct (ipart j2 && e_is_eoi C e); simpl; repeat split; auto; apply Hc; auto. }
  constructor; simpl; auto. apply (h_init H).
Qed.
Lemma hyg_not_followed_by {S A} b Clean (p : parser C S A) : hyg true Clean p -> hyg b Clean (not_followed_by p).
Proof.
  intros H. apply hyg_mk_mode; [apply (h_init H)|]. intros i s s2 H1 H2. eapply orel_map; [apply (h_run H); auto|].
  intros [[r j] t] [[r2 j2] t2] [-> [-> Hc]]. simpl. repeat split; auto; apply Hc; auto.
Qed.

(** ** tuples *)
Definition seq_agree {SS B} (b : bool) (t : tup (C:=C) SS B) (CT : SS -> Prop)
    (x y : @seqk C * input C * SS * N) : Prop :=
  match x, y with (k, i, s, o), (k2, i2, s2, o2) =>
    k = k2 /\ i = i2 /\
    match k with
    | KOk _ _ _ => o = o2 /\ (exists v s' s2', tup_take t s = Some (v, s') /\ tup_take t s2 = Some (v, s2') /\ CT s' /\ CT s2')
    | KCommit _ => b = true -> CT s /\ CT s2
    | KHead _ => CT s /\ CT s2
    | KPeek _ _ => o = o2 /\ CT s /\ CT s2
    end end.
Definition tup_hyg {SS B} (b : bool) (t : tup (C:=C) SS B) (CT : SS -> Prop) : Prop :=
  CT (tup_init t) /\
  forall cur fep i off s s2, CT s -> CT s2 -> orel (seq_agree b t CT) (seq_rest t true cur fep i s off) (seq_rest t true cur fep i s2 off).

Lemma seq_elem_agree {S A} b Clean (p : parser C S A) : hyg b Clean p ->
  forall cur fep i off (s s2 : option A * S), Clean (snd s) -> Clean (snd s2) ->
  orel (fun x y => match x, y with (k, j, u, o), (k2, j2, u2, o2) =>
     k = k2 /\ j = j2 /\ o = o2 /\ match k with
       | KOk f _ _ => f = true /\ exists v, fst u = Some v /\ fst u2 = Some v /\ Clean (snd u) /\ Clean (snd u2)
       | KCommit _ => b = true -> Clean (snd u) /\ Clean (snd u2)
       | _ => Clean (snd u) /\ Clean (snd u2) end end)
    (seq_elem p true cur fep i s off) (seq_elem p true cur fep i s2 off).
Proof.
  intros H cur fep i off [v s] [v2 s2] H1 H2. unfold seq_elem. simpl. eapply orel_map; [apply (h_run H); auto|].
  intros [[r j] t] [[r2 j2] t2] [-> [-> Hc]]. destruct r2 as [a|a|e|e]; simpl in *; repeat split; auto;
    try (apply Hc; auto; fail); try (exists a; repeat split; auto; apply Hc; auto).
Qed.
Lemma seq_head_agree {S A} b Clean (p : parser C S A) : hyg b Clean p ->
  forall i off off2 (s s2 : option A * S), Clean (snd s) -> Clean (snd s2) ->
  orel (fun x y => match x, y with (k, j, u, o), (k2, j2, u2, o2) =>
     k = k2 /\ j = j2 /\ match k with
       | KOk f _ _ => f = true /\ o = o2 /\ exists v, fst u = Some v /\ fst u2 = Some v /\ Clean (snd u) /\ Clean (snd u2)
       | KCommit _ => b = true -> Clean (snd u) /\ Clean (snd u2)
       | KHead _ => Clean (snd u) /\ Clean (snd u2)
       | KPeek _ _ => False end end)
    (seq_head p true i s off) (seq_head p true i s2 off2).
Proof.
  intros H i off off2 [v s] [v2 s2] H1 H2. unfold seq_head. simpl. eapply orel_map; [apply (h_run H); auto|].
  intros [[r j] t] [[r2 j2] t2] [-> [-> Hc]]. destruct r2 as [a|a|e|e]; simpl in *; repeat split; auto;
    try (apply Hc; auto; fail); try (exists a; repeat split; auto; apply Hc; auto).
Qed.

Lemma tup_hyg_T1 {S A} b Clean (p : parser C S A) : hyg b Clean p -> tup_hyg b (T1 p) (fun st => Clean (snd st)).
Proof.
  intros H. split; [apply (h_init H)|]. intros cur fep i off s s2 H1 H2. simpl.
  eapply orel_mono; [apply (seq_elem_agree b Clean p H); auto|]. intros [[[k j] u] o] [[[k2 j2] u2] o2] [-> [-> [-> Hk]]].
  simpl. split; auto. split; auto. destruct k2; auto. destruct Hk as [_ [v [Hv1 [Hv2 [Hc1 Hc2]]]]]. rewrite Hv1, Hv2. split; auto.
  exists v, (None, snd u), (None, snd u2). auto.
Qed.
Lemma tup_hyg_TC {S A SS B} b Clean (p : parser C S A) (t : tup (C:=C) SS B) CT : hyg b Clean p -> tup_hyg b t CT ->
  tup_hyg b (TC p t) (fun st => Clean (snd (fst st)) /\ CT (snd st)).
Proof.
  intros H [Hi Ht]. split; [split; [apply (h_init H)|auto]|]. intros cur fep i off s s2 [H1 K1] [H2 K2]. simpl.
  eapply orel_bind; [apply (seq_elem_agree b Clean p H); auto|]. intros [[[k j] u] o] [[[k2 j2] u2] o2] [-> [-> [-> Hk]]].
  destruct k2 as [f c n|e|e|e n].
  - destruct Hk as [-> [v [Hv1 [Hv2 [Hc1 Hc2]]]]]. eapply orel_map; [apply Ht; auto|].
    intros [[[k j] w] o] [[[k2 j3] w2] o3] [-> [-> Hk]]. simpl. split; auto. split; auto. destruct k2 as [f2 c2 n2|e|e|e n2].
    + destruct Hk as [-> [v' [s' [s2' [Hw1 [Hw2 [Hc3 Hc4]]]]]]]. split; auto. rewrite Hv1, Hv2, Hw1, Hw2.
      do 3 eexists. split; [reflexivity|]. split; [reflexivity|]. simpl. auto.
    + intros Hb. destruct (Hk Hb). auto.
    + destruct Hk. auto.
    + destruct Hk as [-> [? ?]]. auto.
  - simpl. split; auto. split; auto. intros Hb. destruct (Hk Hb). auto.
  - simpl. destruct Hk. repeat split; auto.
  - simpl. destruct Hk. repeat split; auto.
Qed.

Definition tup_hyg_all {SS B} (b : bool) (t : tup (C:=C) SS B) (CT : SS -> Prop) : Prop :=
  tup_hyg b t CT /\
  forall i off off2 s s2, CT s -> CT s2 -> orel (seq_agree b t CT) (seq_all t true i s off) (seq_all t true i s2 off2).

Lemma tup_hyg_all_T1 {S A} b Clean (p : parser C S A) : hyg b Clean p -> tup_hyg_all b (T1 p) (fun st => Clean (snd st)).
Proof.
  intros H. split; [apply tup_hyg_T1; auto|]. intros i off off2 s s2 H1 H2. simpl.
  eapply orel_mono; [apply (seq_head_agree b Clean p H); auto|]. intros [[[k j] u] o] [[[k2 j2] u2] o2] [-> [-> Hk]].
  simpl. split; auto. split; auto. destruct k2; auto; try contradiction.
  destruct Hk as [_ [-> [v [Hv1 [Hv2 [Hc1 Hc2]]]]]]. rewrite Hv1, Hv2. split; auto.
  exists v, (None, snd u), (None, snd u2). auto.
Qed.
Lemma tup_hyg_all_TC {S A SS B} b Clean (p : parser C S A) (t : tup (C:=C) SS B) CT : hyg b Clean p -> tup_hyg_all b t CT ->
  tup_hyg_all b (TC p t) (fun st => Clean (snd (fst st)) /\ CT (snd st)).
Proof.
  intros H [Ht' Ht2]. split; [apply tup_hyg_TC; auto|]. destruct Ht' as [Hi Ht].
  intros i off off2 s s2 [H1 K1] [H2 K2]. simpl.
  eapply orel_bind; [apply (seq_head_agree b Clean p H); auto|]. intros [[[k j] u] o] [[[k2 j2] u2] o2] [-> [-> Hk]].
  destruct k2 as [f c n|e|e|e n].
  - destruct Hk as [-> [-> [v [Hv1 [Hv2 [Hc1 Hc2]]]]]]. eapply orel_map; [apply Ht; auto|].
    intros [[[k j] w] o] [[[k2 j3] w2] o3] [-> [-> Hk]]. simpl. split; auto. split; auto. destruct k2 as [f2 c2 n2|e|e|e n2].
    + destruct Hk as [-> [v' [s' [s2' [Hw1 [Hw2 [Hc3 Hc4]]]]]]]. split; auto. rewrite Hv1, Hv2, Hw1, Hw2.
      do 3 eexists. split; [reflexivity|]. split; [reflexivity|]. simpl. auto.
    + intros Hb. destruct (Hk Hb). auto.
    + destruct Hk. auto.
    + destruct Hk as [-> [? ?]]. auto.
  - simpl. split; auto. split; auto. intros Hb. destruct (Hk Hb). auto.
  - simpl. destruct Hk. repeat split; auto.
  - contradiction.
Qed.

Lemma hyg_tuple {SS B} b (t : tup (C:=C) SS B) CT : tup_hyg_all b t CT -> hyg b (fun st => CT (fst st)) (tuple t).
Proof.
  intros [[Hi _] Ha]. apply hyg_mk_mode; [exact Hi|]. intros i [s o] [s2 o2] H1 H2. unfold tuple_run. simpl in *.
  eapply orel_bind; [apply Ha; auto|]. intros [[[k j] u] oo] [[[k2 j2] u2] oo2] [-> [-> Hk]]. destruct k2 as [f c n|e|e|e n].
  - destruct Hk as [-> [v [s' [s2' [Hw1 [Hw2 [Hc3 Hc4]]]]]]]. rewrite Hw1, Hw2. simpl. auto.
  - simpl. split; auto. split; auto. intros [Hb|[]]. auto.
  - simpl. auto.
  - destruct Hk as [-> Hk]. destruct (add_errors j2 e n oo2 (tup_errfns t)) as [r2 j3]. simpl. auto.
Qed.

Definition pair_clean {S1 S2 A B} (C1 : S1 -> Prop) (C2 : S2 -> Prop) (st : ((option A * S1) * (option B * S2)) * N) : Prop :=
  C1 (snd (fst (fst st))) /\ C2 (snd (snd (fst st))).
Lemma hyg_pair2 {S1 S2 A B} b (C1 : S1 -> Prop) (C2 : S2 -> Prop) (p : parser C S1 A) (q : parser C S2 B) :
  hyg b C1 p -> hyg b C2 q -> hyg b (pair_clean C1 C2) (pair2 p q).
Proof.
  intros H1 H2. apply (hyg_tuple b (TC p (T1 q)) (fun st => C1 (snd (fst st)) /\ C2 (snd (snd st)))).
  apply (tup_hyg_all_TC b C1 p (T1 q) (fun st => C2 (snd st))); auto. apply tup_hyg_all_T1. auto.
Qed.
Lemma hyg_with {S1 S2 A B} b (C1 : S1 -> Prop) (C2 : S2 -> Prop) (p : parser C S1 A) (q : parser C S2 B) :
  hyg b C1 p -> hyg b C2 q -> hyg b (pair_clean C1 C2) (with_ p q).
Proof.
  intros H1 H2. pose proof (hyg_pair2 b C1 C2 (ignore p) q (hyg_ignore _ _ _ H1) H2) as H.
  apply hyg_mk_both; [apply (h_init H)|]. intros i s s2 K1 K2. eapply orel_map; [apply (h_run H); auto|].
  intros [[r j] t] [[r2 j2] t2] [-> [-> Hc]]. destruct r2; simpl in *; repeat split; auto; apply Hc; intuition.
Qed.
Lemma hyg_skip {S1 S2 A B} b (C1 : S1 -> Prop) (C2 : S2 -> Prop) (p : parser C S1 A) (q : parser C S2 B) :
  hyg b C1 p -> hyg b C2 q -> hyg b (pair_clean C1 C2) (skip p q).
Proof.
  intros H1 H2. pose proof (hyg_pair2 b C1 C2 p (ignore q) H1 (hyg_ignore _ _ _ H2)) as H.
  apply hyg_mk_mode; [apply (h_init H)|]. intros i s s2 K1 K2. eapply orel_map; [apply (h_run H); auto|].
  intros [[r j] t] [[r2 j2] t2] [-> [-> Hc]]. destruct r2; simpl in *; repeat split; auto; apply Hc; intuition.
Qed.

Definition then_clean {S1 S2 A} (C1 : S1 -> Prop) (C2 : S2 -> Prop) (st : S1 * option (bool * A) * S2) : Prop :=
  match st with (s, c, s2) => C1 s /\ c = None /\ C2 s2 end.
Lemma hyg_then {S1 S2 A B} (C1 : S1 -> Prop) (C2 : S2 -> Prop) (p : parser C S1 A) s0 (f : A -> parser C S2 B) :
  hyg false C1 p -> C2 s0 -> (forall a, hyg false C2 (f a)) -> hyg false (then_clean C1 C2) (then_ p s0 f).
Proof.
  intros H H0 Hf. apply hyg_mk_mode. { repeat split; auto. apply (h_init H). }
  intros i [[s c] n] [[s2 c2] n2] [K1 [-> K2]] [L1 [-> L2]]. unfold then_run. simpl. rewrite andb_false_r.
  eapply orel_bind; [apply (h_run H); auto|]. intros [[r j] t] [[r2 j2] t2] [-> [-> Hc]]. destruct r2 as [a|a|e|e]; simpl in *.
  - destruct (Hc (or_intror I)). eapply orel_map; [apply (h_cmode (Hf a)); auto|].
    intros [[r j] u] [[r2 j3] u2] [-> [-> Hd]]. destruct r2; simpl in *; repeat split; auto; try (apply Hd; auto);
      destruct H3 as [?|[]]; discriminate.
  - destruct (Hc (or_intror I)). eapply orel_map; [apply (h_cmode (Hf a)); auto|].
    intros [[r j] u] [[r2 j3] u2] [-> [-> Hd]]. destruct r2; simpl in *; repeat split; auto; try (apply Hd; auto);
      destruct H3 as [?|[]]; discriminate.
  - repeat split; auto; destruct H1 as [?|[]]; discriminate.
  - destruct (Hc (or_intror I)). repeat split; auto.
Qed.

(** ** choices *)
Lemma run_hyg_choice {A SS} b (t : alts (C:=C) A SS) : run_hyg b (fun _ => True) (choice_run t).
Proof.
  intros i s s2 _ _. unfold choice_run. destruct (choice_try t i) as [[r j st|errs]| |]; simpl; auto.
  destruct (choice_error errs (alts_adderr t)); simpl; auto.
Qed.
Lemma hyg_choice {A SS} b (t : alts (C:=C) A SS) : hyg b (fun _ => True) (choice t).
Proof. apply hyg_mk_mode; auto. apply run_hyg_choice. Qed.
Lemma hyg_or {S1 S2 A} b (p : parser C S1 A) (q : parser C S2 A) : hyg b (fun _ => True) (or_ p q).
Proof. apply hyg_mk_mode; auto. apply run_hyg_choice. Qed.
Lemma hyg_sep_by {S1 S2 A B} b (p : parser C S1 A) (q : parser C S2 B) : hyg b (fun _ => True) (sep_by p q).
Proof. apply hyg_mk_mode; auto. apply run_hyg_choice. Qed.
Lemma hyg_sep_end_by {S1 S2 A B} b (p : parser C S1 A) (q : parser C S2 B) : hyg b (fun _ => True) (sep_end_by p q).
Proof. apply hyg_mk_mode; auto. apply run_hyg_choice. Qed.

Lemma slice_loop_hyg {S A} b (Clean : S -> Prop) all before (l : list (parser C S A)) : Forall (fun p => hyg b Clean p) l ->
  forall i last prev idx idx2 st st2 cur, Clean st -> Clean st2 ->
  orel (agree b (fun x : nat * S => Clean (snd x))) (slice_loop all before true i last prev l idx st cur)
                                        (slice_loop all before true i last prev l idx2 st2 cur).
Proof.
  induction 1 as [|p l Hp Hl IH]; intros i last prev idx idx2 st st2 cur K1 K2; simpl.
  - repeat split; auto.
  - eapply orel_bind; [apply (h_run Hp); auto|]. intros [[r j] u] [[r2 j2] u2] [-> [-> Hc]]. destruct r2 as [a|a|e|e]; simpl in *;
      try (repeat split; auto; apply Hc; auto; fail).
    destruct (Hc (or_intror I)). destruct (slice_merge all i last prev e) as [prev' last']. apply IH; auto.
Qed.
Lemma hyg_choice_slice {S A} b (Clean : S -> Prop) (s0 : S) (ps : list (parser C S A)) : Clean s0 -> Forall (fun p => hyg b Clean p) ps ->
  hyg b (fun x : nat * S => Clean (snd x)) (choice_slice s0 ps).
Proof.
  intros H0 H. apply hyg_mk_mode; auto. intros i [n s] [n2 s2] H1 H2. unfold slice_run. simpl. apply slice_loop_hyg; auto.
Qed.

(** ** repetition *)
Definition iter_agree {S A} (Clean : S -> Prop) (x y : list A * @iter_state C * bool * input C * S) : Prop :=
  match x, y with (l, is, c, i, s), (l2, is2, c2, i2, s2) =>
    l = l2 /\ is = is2 /\ c = c2 /\ i = i2 /\ match is with ISCommit _ => True | _ => Clean s /\ Clean s2 end end.

Lemma iter_agree_cons {S A} (Clean : S -> Prop) (v : A) (x y : list A * @iter_state C * bool * input C * S) :
  iter_agree Clean x y ->
  iter_agree Clean (match x with (l, is, c, i2, s2) => (v :: l, is, c, i2, s2) end)
                   (match y with (l, is, c, i2, s2) => (v :: l, is, c, i2, s2) end).
Proof.
  destruct x as [[[[l is] c] i] s], y as [[[[l2 is2] c2] i2] s2]. intros [-> [-> [-> [-> H]]]]. repeat split; auto.
Qed.

Section Rep.
Context {S A : Type} (Clean : S -> Prop) (p : parser C S A) (H : hyg false Clean p).

Lemma iter_all_hyg n : forall c i s s2, Clean s -> Clean s2 ->
  orel (iter_agree Clean) (iter_all n p true c i s) (iter_all n p true c i s2).
Proof.
  induction n as [|n IH]; intros c i s s2 H1 H2; simpl; auto.
  eapply orel_bind; [apply (h_run H); auto|]. intros [[r j] u] [[r2 j2] u2] [-> [-> Hc]]. destruct r2 as [a|a|e|e]; simpl in *.
  - destruct (Hc (or_intror I)). eapply orel_map; [apply IH; auto|]. apply iter_agree_cons.
  - destruct (Hc (or_intror I)). eapply orel_map; [apply IH; auto|]. apply iter_agree_cons.
  - repeat split; auto.
  - destruct (Hc (or_intror I)). repeat split; auto.
Qed.
Lemma iter_take_hyg n : forall c i s s2, Clean s -> Clean s2 ->
  orel (iter_agree Clean) (iter_take n p true c i s) (iter_take n p true c i s2).
Proof.
  induction n as [|n IH]; intros c i s s2 H1 H2; simpl; auto. { repeat split; auto. }
  eapply orel_bind; [apply (h_run H); auto|]. intros [[r j] u] [[r2 j2] u2] [-> [-> Hc]]. destruct r2 as [a|a|e|e]; simpl in *.
  - destruct (Hc (or_intror I)). eapply orel_map; [apply IH; auto|]. apply iter_agree_cons.
  - destruct (Hc (or_intror I)). eapply orel_map; [apply IH; auto|]. apply iter_agree_cons.
  - repeat split; auto.
  - destruct (Hc (or_intror I)). repeat split; auto.
Qed.

Definition many_clean (st : list A * S) : Prop := fst st = [] /\ Clean (snd st).
Lemma hyg_many : hyg false many_clean (many p).
Proof.
  apply hyg_mk_mode. { split; auto. apply (h_init H). }
  intros i [el s] [el2 s2] [K1 K2] [L1 L2]. simpl in *. subst. unfold many_run. eapply orel_map; [apply iter_all_hyg; auto|].
  intros [[[[l is] c] j] u] [[[[l2 is2] c2] j2] u2] [-> [-> [-> [-> Hc]]]]. destruct is2; simpl in *; try (split; [auto|split]; auto; intros _;
    destruct Hc; split; split; auto; fail).
  repeat split; auto; destruct H0 as [?|[]]; discriminate.
Qed.

Definition many1_clean (st : bool * bool * list A * S) : Prop :=
  match st with (po, _, el, s) => po = false /\ el = [] /\ Clean s end.
Lemma many1_iter_hyg c i el s s2 : Clean s -> Clean s2 ->
  orel (agree false many1_clean) (many1_iter p true c i el s) (many1_iter p true c i el s2).
Proof.
  intros K1 K2. unfold many1_iter. eapply orel_map; [apply iter_all_hyg; auto|].
  intros [[[[l is] c1] j] u] [[[[l2 is2] c2] j2] u2] [-> [-> [-> [-> Hc]]]]. destruct is2; simpl in *.
  - destruct Hc. destruct c2; simpl; repeat split; auto.
  - destruct Hc. destruct c2; simpl; repeat split; auto.
  - repeat split; auto; destruct H0 as [?|[]]; discriminate.
Qed.
Lemma hyg_many1 : hyg false many1_clean (many1 p).
Proof.
  apply hyg_mk_mode. { repeat split; auto. apply (h_init H). }
  intros i [[[po cs] el] s] [[[po2 cs2] el2] s2] [-> [-> K2]] [-> [-> L2]]. unfold many1_run. simpl. rewrite andb_false_r.
  eapply orel_bind; [apply (h_run H); auto|]. intros [[r j] u] [[r2 j2] u2] [-> [-> Hc]]. destruct r2 as [a|a|e|e]; simpl in *.
  - destruct (Hc (or_intror I)). apply many1_iter_hyg; auto.
  - destruct (Hc (or_intror I)). apply many1_iter_hyg; auto.
  - repeat split; auto; destruct H0 as [?|[]]; discriminate.
  - destruct (Hc (or_intror I)). repeat split; auto.
Qed.

(** How many elements are collected when the iteration ends without commitment. *)
Lemma iter_take_committing : committing p -> forall n i s l is j s', iter_take n p true false i s = Done (l, is, false, j, s') -> l = [].
Proof.
  intros Hc. destruct n; intros i s l is j s' Hr; simpl in Hr. { inversion Hr; auto. }
  destruct (p_run p true i s) as [[[r j2] u]| |] eqn:Hp; simpl in Hr; try discriminate. destruct r.
  - assert (Hk : forall n c i s l is c' j s', iter_take n p true c i s = Done (l, is, c', j, s') -> c = true -> c' = true).
    { clear. induction n; simpl; intros c i s l is c' j s' Hr Hc. { inversion Hr; subst; auto. }
      destruct (p_run p true i s) as [[[r j2] u]| |]; simpl in Hr; try discriminate. subst. destruct r; simpl in Hr.
      - destruct (iter_take n p true true j2 u) as [[[[[l2 is2] c2] j3] u2]| |] eqn:Hi; simpl in Hr; inversion Hr; subst. eapply IHn; eauto.
      - destruct (iter_take n p true true j2 u) as [[[[[l2 is2] c2] j3] u2]| |] eqn:Hi; simpl in Hr; inversion Hr; subst. eapply IHn; eauto.
      - inversion Hr; subst; auto.
      - inversion Hr; subst; auto. }
    destruct (iter_take n p true true j2 u) as [[[[[l2 is2] c2] j3] u2]| |] eqn:Hi; simpl in Hr; inversion Hr; subst.
    apply Hk in Hi; auto. discriminate.
  - exfalso. eapply Hc; eauto.
  - inversion Hr; auto.
  - inversion Hr; auto.
Qed.

Definition count_clean (st : nat * list A * S) : Prop := match st with (n, el, s) => n = 0 /\ el = [] /\ Clean s end.
Lemma hyg_count_min_max mn mx : mn <= 1 \/ committing p -> hyg false count_clean (count_min_max mn mx p).
Proof.
  intros Hm. apply hyg_mk_mode. { repeat split; auto. apply (h_init H). }
  intros i [[n el] s] [[n2 el2] s2] [-> [-> K2]] [-> [-> L2]]. unfold count_min_max_run. destruct (mx <? mn); simpl; auto.
  rewrite Nat.sub_0_r. pose proof (iter_take_hyg mx false i s s2 K2 L2) as Hi.
  destruct (iter_take mx p true false i s) as [[[[[l is] c] j] u]| |] eqn:E1;
    destruct (iter_take mx p true false i s2) as [[[[[l2 is2] c2] j2] u2]| |] eqn:E2; simpl in *; auto; try contradiction.
  destruct Hi as [-> [-> [-> [-> Hc]]]]. destruct (length l2 <? mn) eqn:Hlt; simpl.
  - repeat split; auto. all: destruct H0 as [?|Hn]; try discriminate.
    all: destruct is2; simpl in Hn; try contradiction; destruct c2; simpl in Hn; try contradiction; destruct Hc; auto.
    all: assert (Hl : l2 = []) by (destruct Hm as [Hm|Hm];
           [apply Nat.ltb_lt in Hlt; destruct l2; auto; simpl in Hlt; lia | eapply iter_take_committing; eauto]); subst; auto.
  - destruct is2; simpl in *; repeat split; auto; try (destruct Hc; auto; fail); try (destruct c2; reflexivity);
      destruct H0 as [?|[]]; discriminate.
Qed.
End Rep.

Lemma iter_scan_hyg {S A} (Clean : S -> Prop) (p : parser C S (option A)) (H : hyg false Clean p) n : forall c i s s2, Clean s -> Clean s2 ->
  orel (iter_agree Clean) (iter_scan n p true c i s) (iter_scan n p true c i s2).
Proof.
  induction n as [|n IH]; intros c i s s2 H1 H2; simpl; auto.
  eapply orel_bind; [apply (h_run H); auto|]. intros [[r j] u] [[r2 j2] u2] [-> [-> Hc]]. destruct r2 as [[a|]|[a|]|e|e]; simpl in *.
  - destruct (Hc (or_intror I)). eapply orel_map; [apply IH; auto|]. apply iter_agree_cons.
  - destruct (Hc (or_intror I)). repeat split; auto.
  - destruct (Hc (or_intror I)). eapply orel_map; [apply IH; auto|]. apply iter_agree_cons.
  - destruct (Hc (or_intror I)). repeat split; auto.
  - repeat split; auto.
  - destruct (Hc (or_intror I)). repeat split; auto.
Qed.

Definition sep_clean {S1 S2 A X} (C1 : S1 -> Prop) (C2 : S2 -> Prop) (st : option (commit unit) * list X * sep_state S1 S2 A) : Prop :=
  match st with (po, el, ch) => po = None /\ el = [] /\ pair_clean C2 C1 ch end.

Lemma hyg_sep_by1 {S1 S2 A B} (C1 : S1 -> Prop) (C2 : S2 -> Prop) (p : parser C S1 A) (sep : parser C S2 B) :
  hyg false C1 p -> hyg false C2 sep -> hyg false (sep_clean C1 C2) (sep_by1 p sep).
Proof.
  intros Hp Hs. pose proof (hyg_with false C2 C1 (by_ref sep) (by_ref p) (hyg_by_ref _ _ _ Hs) (hyg_by_ref _ _ _ Hp)) as Hw.
  assert (Hr : forall i rst el ch ch2, pair_clean C2 C1 ch -> pair_clean C2 C1 ch2 ->
    orel (agree false (sep_clean C1 C2)) (sep_by1_rest p sep true i None rst el ch) (sep_by1_rest p sep true i None rst el ch2)).
  { intros i rst el ch ch2 K1 K2. unfold sep_by1_rest. eapply orel_map; [apply (iter_all_hyg _ _ Hw); auto|].
    intros [[[[l is] c] j] u] [[[[l2 is2] c2] j2] u2] [-> [-> [-> [-> Hc]]]]. destruct is2; simpl in *.
    - destruct Hc. destruct c2, rst; simpl; (split; [auto|split; [auto|intros _; split; auto]]).
    - destruct Hc. destruct c2, rst; simpl; (split; [auto|split; [auto|intros _; split; auto]]).
    - split; auto. split; auto. intros [?|Hn]; [discriminate|]. destruct rst; simpl in Hn; contradiction. }
  apply hyg_mk_mode. { repeat split; auto; simpl. apply (h_init Hs). apply (h_init Hp). }
  intros i [[po el] ch] [[po2 el2] ch2] [-> [-> K]] [-> [-> L]]. unfold sep_by1_run.
  assert (Hset : forall (ch : sep_state S1 S2 A) u, pair_clean C2 C1 ch -> C1 u -> pair_clean C2 C1 (sep_set ch u)).
  { intros [[[? ?] [? ?]] ?] u [? ?] Hu. split; simpl; auto. }
  eapply orel_bind. { apply (h_run Hp); [apply K|apply L]. }
  intros [[r j] u] [[r2 j2] u2] [-> [-> Hc]]. destruct r2 as [a|a|e|e]; simpl in *.
  - destruct (Hc (or_intror I)). apply Hr; apply Hset; auto.
  - destruct (Hc (or_intror I)). apply Hr; apply Hset; auto.
  - split; auto; split; auto; intros [?|[]]; discriminate.
  - destruct (Hc (or_intror I)). split; [auto|split; [auto|]]. intros _. split; (split; [auto|split; [auto|apply Hset; auto]]).
Qed.

Lemma hyg_sep_end_by1 {S1 S2 A B} (C1 : S1 -> Prop) (C2 : S2 -> Prop) (p : parser C S1 A) (sep : parser C S2 B) :
  hyg false C1 p -> hyg false C2 sep -> hyg false (sep_clean C1 C2) (sep_end_by1 p sep).
Proof.
  intros Hp Hs. pose proof (hyg_with false C2 C1 (by_ref sep) (optional (by_ref p)) (hyg_by_ref _ _ _ Hs)
    (hyg_optional _ _ _ (hyg_by_ref _ _ _ Hp))) as Hw.
  assert (Hr : forall i rst el ch ch2, pair_clean C2 C1 ch -> pair_clean C2 C1 ch2 ->
    orel (agree false (sep_clean C1 C2)) (sep_end_by1_rest p sep true i rst el ch) (sep_end_by1_rest p sep true i rst el ch2)).
  { intros i rst el ch ch2 K1 K2. unfold sep_end_by1_rest. eapply orel_map; [apply (iter_scan_hyg _ _ Hw); auto|].
    intros [[[[l is] c] j] u] [[[[l2 is2] c2] j2] u2] [-> [-> [-> [-> Hc]]]]. destruct is2; simpl in *.
    - destruct Hc. destruct c2, rst; simpl; (split; [auto|split; [auto|intros _; split; auto]]).
    - destruct Hc. destruct c2, rst; simpl; (split; [auto|split; [auto|intros _; split; auto]]).
    - split; auto. split; auto. intros [?|Hn]; [discriminate|]. destruct rst; simpl in Hn; contradiction. }
  apply hyg_mk_mode. { repeat split; auto; simpl. apply (h_init Hs). apply (h_init Hp). }
  intros i [[po el] ch] [[po2 el2] ch2] [-> [-> K]] [-> [-> L]]. unfold sep_end_by1_run.
  assert (Hset : forall (ch : sep_state S1 S2 (option A)) u, pair_clean C2 C1 ch -> C1 u -> pair_clean C2 C1 (sep_set ch u)).
  { intros [[[? ?] [? ?]] ?] u [? ?] Hu. split; simpl; auto. }
  eapply orel_bind. { apply (h_run Hp); [apply K|apply L]. }
  intros [[r j] u] [[r2 j2] u2] [-> [-> Hc]]. destruct r2 as [a|a|e|e]; simpl in *.
  - destruct (Hc (or_intror I)). apply Hr; apply Hset; auto.
  - destruct (Hc (or_intror I)). apply Hr; apply Hset; auto.
  - split; auto; split; auto; intros [?|[]]; discriminate.
  - destruct (Hc (or_intror I)). split; [auto|split; [auto|]]. intros _. split; (split; [auto|split; [auto|apply Hset; auto]]).
Qed.

(** [chainl1] runs its first operand in the resuming mode, so that mode has to be insensitive to old states too. *)
Definition calm {S A} (Clean : S -> Prop) (p : parser C S A) : Prop :=
  forall i s s2, Clean s -> Clean s2 -> orel (agree false Clean) (p_run p false i s) (p_run p false i s2).

Definition chainl_clean {S1 S2 A} (C1 : S1 -> Prop) (C2 : S2 -> Prop) (st : chainl_state S1 S2 A) : Prop :=
  fst st = None /\ pair_clean C2 C1 (snd st).
Lemma chainl_loop_hyg {S1 S2 A} (C1 : S1 -> Prop) (C2 : S2 -> Prop) (p : parser C S1 A) (op : parser C S2 (A -> A -> A)) :
  hyg false C1 p -> hyg false C2 op -> forall n l c i ch ch2, pair_clean C2 C1 ch -> pair_clean C2 C1 ch2 ->
  orel (agree false (chainl_clean C1 C2)) (chainl_loop n p op true l c i ch) (chainl_loop n p op true l c i ch2).
Proof.
  intros Hp Ho. pose proof (hyg_pair2 false C2 C1 (by_ref op) (by_ref p) (hyg_by_ref _ _ _ Ho) (hyg_by_ref _ _ _ Hp)) as Hw.
  induction n as [|n IH]; simpl; intros l c i ch ch2 K L; auto.
  eapply orel_bind; [apply (h_run Hw); auto|]. intros [[r j] u] [[r2 j2] u2] [-> [-> Hc]]. destruct r2 as [[f a]|[f a]|e|e]; simpl.
  - destruct (Hc (or_intror I)). apply IH; auto.
  - destruct (Hc (or_intror I)). apply IH; auto.
  - split; auto; split; auto; intros [?|[]]; discriminate.
  - destruct (Hc (or_intror I)). destruct c; simpl; repeat split; auto; simpl; try apply H; try apply H0.
Qed.
Lemma hyg_chainl1 {S1 S2 A} (C1 : S1 -> Prop) (C2 : S2 -> Prop) (p : parser C S1 A) (op : parser C S2 (A -> A -> A)) :
  hyg false C1 p -> calm C1 p -> hyg false C2 op -> hyg false (chainl_clean C1 C2) (chainl1 p op).
Proof.
  intros Hp Hcalm Ho. apply hyg_mk_mode. { repeat split; simpl; [apply (h_init Ho)|apply (h_init Hp)]. }
  intros i [ls ch] [ls2 ch2] [K1 K2] [L1 L2]. simpl in *. subst. unfold chainl1_run.
  assert (Hset : forall (ch : ((option (A -> A -> A) * S2) * (option A * S1)) * N) u, pair_clean C2 C1 ch -> C1 u ->
     pair_clean C2 C1 (((fst (fst ch), (fst (snd (fst ch)), u)), snd ch))).
  { intros [[[? ?] [? ?]] ?] u [? ?] Hu. split; simpl; auto. }
  eapply orel_bind; [apply Hcalm; [apply K2|apply L2]|].
  intros [[r j] u] [[r2 j2] u2] [-> [-> Hc]]. destruct r2 as [a|a|e|e]; simpl in *.
  - destruct (Hc (or_intror I)). apply chainl_loop_hyg; auto.
  - destruct (Hc (or_intror I)). apply chainl_loop_hyg; auto.
  - split; auto; split; auto; intros [?|[]]; discriminate.
  - destruct (Hc (or_intror I)). split; [auto|split; [auto|]]. intros _. split; (split; [auto|apply Hset; auto]).
Qed.

Lemma calm_unit {A} (p : parser C unit A) : calm (fun _ => True) p.
Proof. intros i [] [] _ _. apply orel_refl. intros [[r j] s] _. repeat split; auto. Qed.

Definition iterate_clean {J A S} (Clean : S -> Prop) (st : option (list J * option J) * bool * list A * S) : Prop :=
  match st with (_, c, buf, s) => c = false /\ buf = [] /\ Clean s end.
Lemma iterate_items_hyg {J S A} (Clean : S -> Prop) (f : J -> parser C S A) : (forall x, hyg false Clean (f x)) ->
  forall items c i s s2, Clean s -> Clean s2 ->
  orel (fun x y => match x, y with (l, o, c, j, u), (l2, o2, c2, j2, u2) => l = l2 /\ o = o2 /\ c = c2 /\ j = j2 /\
     match o with Some (_, _, CommitErr _) => True | Some (_, _, PeekErr _) => c = false /\ Clean u /\ Clean u2 | _ => Clean u /\ Clean u2 end end)
    (iterate_items f true c items i s) (iterate_items f true c items i s2).
Proof.
  intros H. induction items as [|x items IH]; intros c i s s2 K L; simpl. { repeat split; auto. }
  eapply orel_bind; [apply (h_run (H x)); auto|]. intros [[r j] u] [[r2 j2] u2] [-> [-> Hc]]. destruct r2 as [a|a|e|e]; simpl in *.
  - destruct (Hc (or_intror I)). eapply orel_map; [apply IH; auto|].
    intros [[[[l o] c1] j1] u1] [[[[l2 o2] c2] j3] u3] [-> [-> [-> [-> Hx]]]]. repeat split; auto.
  - destruct (Hc (or_intror I)). eapply orel_map; [apply IH; auto|].
    intros [[[[l o] c1] j1] u1] [[[[l2 o2] c2] j3] u3] [-> [-> [-> [-> Hx]]]]. repeat split; auto.
  - repeat split; auto.
  - destruct (Hc (or_intror I)). destruct c; repeat split; auto.
Qed.
Lemma iterate_items_committing {J S A} (f : J -> parser C S A) : (forall x, committing (f x)) ->
  forall items i s l o j u, iterate_items f true false items i s = Done (l, o, false, j, u) -> l = [].
Proof.
  intros H items. destruct items as [|x items]; simpl; intros i s l o j u Hr. { inversion Hr; auto. }
  assert (Hk : forall items c i s l o c' j s', iterate_items f true c items i s = Done (l, o, c', j, s') -> c = true -> c' = true).
  { clear. induction items; simpl; intros c i s l o c' j s' Hr Hc. { inversion Hr; subst; auto. }
    destruct (p_run (f a) true i s) as [[[r j2] u]| |]; simpl in Hr; try discriminate. subst. destruct r; simpl in Hr.
    - destruct (iterate_items f true true items j2 u) as [[[[[l2 is2] c2] j3] u2]| |] eqn:Hi; simpl in Hr; inversion Hr; subst. eapply IHitems; eauto.
    - destruct (iterate_items f true true items j2 u) as [[[[[l2 is2] c2] j3] u2]| |] eqn:Hi; simpl in Hr; inversion Hr; subst. eapply IHitems; eauto.
    - inversion Hr; subst; auto.
    - inversion Hr; subst; auto. }
  destruct (p_run (f x) true i s) as [[[r j2] v]| |] eqn:Hp; simpl in Hr; try discriminate. destruct r; simpl in Hr.
  - destruct (iterate_items f true true items j2 v) as [[[[[l2 is2] c2] j3] u2]| |] eqn:Hi; simpl in Hr; inversion Hr; subst.
    apply Hk in Hi; auto. discriminate.
  - exfalso. eapply H; eauto.
  - inversion Hr; auto.
  - inversion Hr; auto.
Qed.
Lemma iterate_items_one {J S A} (f : J -> parser C S A) items : length items <= 1 ->
  forall c i s l x c' j u, iterate_items f true c items i s = Done (l, Some x, c', j, u) -> l = [].
Proof.
  intros H c i s l x c' j u Hr. destruct items as [|y [|z items]]; simpl in *; try lia. { inversion Hr. }
  destruct (p_run (f y) true i s) as [[[r j2] v]| |]; simpl in Hr; try discriminate. destruct r; simpl in Hr; inversion Hr; auto.
Qed.
Lemma hyg_iterate {J S A} (Clean : S -> Prop) s0 (items : list J) (f : J -> parser C S A) :
  Clean s0 -> (forall x, hyg false Clean (f x)) -> length items <= 1 \/ (forall x, committing (f x)) ->
  hyg false (iterate_clean Clean) (iterate s0 items f).
Proof.
  intros H0 H Hor. apply hyg_mk_mode. { repeat split; auto. }
  intros i [[[o c] buf] s] [[[o2 c2] buf2] s2] [-> [-> K]] [-> [-> L]]. unfold iterate_run.
  replace (match o with Some it => if true then (items, None) else it | None => (items, None) end) with (items, @None J) by (destruct o; auto).
  replace (match o2 with Some it => if true then (items, None) else it | None => (items, None) end) with (items, @None J) by (destruct o2; auto).
  pose proof (iterate_items_hyg Clean f H items false i s s2 K L) as Hi.
  destruct (iterate_items f true false items i s) as [[[[[l x] c] j] u]| |] eqn:E1;
    destruct (iterate_items f true false items i s2) as [[[[[l2 x2] c2] j2] u2]| |] eqn:E2; simpl in *; auto; try contradiction.
  destruct Hi as [-> [-> [-> [-> Hx]]]]. destruct x2 as [[[it its] r]|]; simpl in *.
  - split; auto. split; auto. intros [?|Hn]; [discriminate|]. destruct r; simpl in *; try contradiction.
    + exfalso. clear - E1. revert E1. generalize false. revert i s l2. induction items as [|y items IH]; simpl; intros i s l2 b E1; [inversion E1|].
      destruct (p_run (f y) true i s) as [[[r j3] v]| |]; simpl in E1; try discriminate. destruct r; simpl in E1.
      * destruct (iterate_items f true true items j3 v) as [[[[[l3 is3] c3] j4] u3]| |] eqn:Hi; simpl in E1; inversion E1; subst. eapply IH; eauto.
      * destruct (iterate_items f true b items j3 v) as [[[[[l3 is3] c3] j4] u3]| |] eqn:Hi; simpl in E1; inversion E1; subst. eapply IH; eauto.
      * inversion E1.
      * destruct b; inversion E1.
    + exfalso. clear - E1. revert E1. generalize false. revert i s l2. induction items as [|y items IH]; simpl; intros i s l2 b E1; [inversion E1|].
      destruct (p_run (f y) true i s) as [[[r j3] v]| |]; simpl in E1; try discriminate. destruct r; simpl in E1.
      * destruct (iterate_items f true true items j3 v) as [[[[[l3 is3] c3] j4] u3]| |] eqn:Hi; simpl in E1; inversion E1; subst. eapply IH; eauto.
      * destruct (iterate_items f true b items j3 v) as [[[[[l3 is3] c3] j4] u3]| |] eqn:Hi; simpl in E1; inversion E1; subst. eapply IH; eauto.
      * inversion E1.
      * destruct b; inversion E1.
    + destruct Hx as [-> [? ?]]. assert (l2 = []).
      { destruct Hor as [Ho|Ho]; [eapply iterate_items_one; eauto|eapply iterate_items_committing; eauto]. }
      subst. repeat split; auto.
  - destruct Hx. destruct c2; repeat split; auto.
Qed.

Lemma hyg_partial_range b f g a x n : hyg b (fun _ => True) (mk_mode 0 (@parse_partial_range C f g) a x n).
Proof.
  apply hyg_mk_mode; auto. intros i s s2 _ _. unfold parse_partial_range. simpl. destruct (f i) as [r j].
  destruct (negb (ipart i)); [|destruct r]; simpl; repeat split; auto.
Qed.
Lemma hyg_take_fn b s : hyg b (fun _ => True) (@take_fn C s).
Proof.
  apply hyg_mk_mode; auto. intros i o o2 _ _. apply orel_refl. intros [[r j] n] _. repeat split; auto.
Qed.

(** ** the closure *)
Theorem tidy_hyg : forall b S A (p : parser C S A), tidy b p -> exists Clean, hyg b Clean p.
Proof.
  apply (tidy_mut (C:=C) (fun b S A p => exists Clean, hyg b Clean p) (fun b SS B t => exists CT, tup_hyg_all b t CT)).
  - intros S A p _ [Cl H]. exists Cl. apply hyg_weak. auto.
  - intros b A p. eexists. apply hyg_unit.
  - intros b S A p m _ [Cl H]. eexists. apply hyg_message; eauto.
  - intros b S A p m _ [Cl H]. eexists. apply hyg_expected; eauto.
  - intros b S A p _ [Cl H]. eexists. apply hyg_silent; eauto.
  - intros b S A B p f _ [Cl H]. eexists. apply hyg_map; eauto.
  - intros b S A B p f _ [Cl H]. eexists. apply hyg_map_input; eauto.
  - intros b S A B p f _ [Cl H]. eexists. apply hyg_flat_map; eauto.
  - intros b S A B p f _ [Cl H]. eexists. apply hyg_and_then; eauto.
  - intros b S A B p f _ [Cl H]. eexists. apply hyg_from_str; eauto.
  - intros b S A p _ [Cl H]. eexists. apply hyg_ignore; eauto.
  - intros b S A p _ [Cl H]. eexists. apply hyg_lazy; eauto.
  - intros b S A p _ [Cl H]. eexists. apply hyg_factory; eauto.
  - intros b S A p _ [Cl H]. eexists. apply hyg_opaque; eauto.
  - intros b Q q x y m S A p _ [Cl H]. eexists. apply hyg_spanned; eauto.
  - intros b S A p _ [Cl H]. eexists. apply hyg_by_ref; eauto.
  - intros b S A p _ [Cl H]. eexists. apply hyg_parser_fn; eauto.
  - intros b S A p _ [Cl H]. eexists. apply hyg_optional; eauto.
  - intros b S A p _ [Cl H]. eexists. apply hyg_any_partial_state; eauto.
  - intros b S1 S2 A p _ [Cl H]. eexists. apply hyg_left; eauto.
  - intros b S1 S2 A p _ [Cl H]. eexists. apply hyg_right; eauto.
  - intros b S SS A p _ [Cl H]. eexists. apply hyg_dispatch_here; eauto.
  - intros b S SS A d _ [Cl H]. eexists. apply hyg_dispatch_later; eauto.
  - intros b S A p _ [Cl H]. eexists. apply hyg_recognize_with_value; eauto.
  - intros S A p Hp _ [Cl H]. eexists. apply hyg_recognize; eauto.
  - intros b f. eexists. apply hyg_partial_range.
  - intros b f. eexists. apply hyg_partial_range.
  - intros b s. eexists. apply hyg_take_fn.
  - intros b S A p _ [Cl H]. eexists. apply hyg_attempt; eauto.
  - intros b S A p _ [Cl H]. eexists. apply hyg_not_followed_by; eauto.
  - intros b SS B t _ [CT H]. eexists. apply hyg_tuple; eauto.
  - intros b S1 S2 A B p q _ [C1 H1] _ [C2 H2]. eexists. eapply hyg_with; eauto.
  - intros b S1 S2 A B p q _ [C1 H1] _ [C2 H2]. eexists. eapply hyg_skip; eauto.
  - intros S1 A B p f _ [Cl H]. eexists. eapply (hyg_then Cl (fun _ => True)); eauto. intros a. apply hyg_unit.
  - intros b A SS t. eexists. apply hyg_choice.
  - intros b S1 S2 A p q. eexists. apply hyg_or.
  - intros b S1 S2 A B p q. eexists. apply hyg_sep_by.
  - intros b S1 S2 A B p q. eexists. apply hyg_sep_end_by.
  - intros b A ps. eexists. apply (hyg_choice_slice b (fun _ => True) tt ps I). apply Forall_forall. intros p _. apply hyg_unit.
  - intros S A p _ [Cl H]. eexists. apply hyg_many; eauto.
  - intros S A p _ [Cl H]. eexists. apply hyg_many1; eauto.
  - intros S A mn mx p Hm _ [Cl H]. eexists. eapply hyg_count_min_max; eauto.
  - intros S1 S2 A B p q _ [C1 H1] _ [C2 H2]. eexists. eapply hyg_sep_by1; eauto.
  - intros S1 S2 A B p q _ [C1 H1] _ [C2 H2]. eexists. eapply hyg_sep_end_by1; eauto.
  - intros S2 A p o _ [C2 H2]. eexists. apply (hyg_chainl1 (fun _ => True) C2); auto. apply hyg_unit. apply calm_unit.
  - intros J A items f Hor. eexists. apply (hyg_iterate (fun _ => True)); auto. intros x. apply hyg_unit.
  - intros b S A p _ [Cl H]. eexists. apply tup_hyg_all_T1; eauto.
  - intros b S A SS B p t _ [Cl H] _ [CT Ht]. eexists. eapply tup_hyg_all_TC; eauto.
Qed.

(** ** from cleanliness to histories *)
Lemma leftover_clean {S A} b (Clean : S -> Prop) (p : parser C S A) :
  Clean (p_init p) -> run_hyg b Clean (p_run p) -> forall st, leftover b p st -> Clean st.
Proof.
  intros Hi Hr st H. induction H as [|st i r i' st' H IH Hrun Hb]; auto.
  pose proof (Hr i st st IH IH) as Ha. rewrite Hrun in Ha. destruct Ha as [_ [_ Hc]]. apply Hc. auto.
Qed.
Lemma run_hyg_history_free {S A} b (Clean : S -> Prop) (p : parser C S A) :
  Clean (p_init p) -> run_hyg b Clean (p_run p) -> history_free b p.
Proof.
  intros Hi Hr st Hl i. pose proof (Hr i st (p_init p) (leftover_clean b Clean p Hi Hr st Hl) Hi) as Ha. unfold fresh.
  destruct (p_run p true i st) as [[[r j] s]| |], (p_run p true i (p_init p)) as [[[r2 j2] s2]| |]; simpl in *; try contradiction; auto.
  destruct Ha as [-> [-> _]]. auto.
Qed.
Lemma history_free_run_hyg {S A} b (p : parser C S A) : history_free b p -> run_hyg b (leftover b p) (p_run p).
Proof.
  intros H i s s2 H1 H2. pose proof (H s H1 i) as E1. pose proof (H s2 H2 i) as E2.
  destruct (p_run p true i s) as [[[r j] u]| |] eqn:R1, (p_run p true i s2) as [[[r2 j2] u2]| |] eqn:R2; simpl in *; try congruence; auto.
  rewrite <- E2 in E1. inversion E1; subst. split; [auto|split; [auto|]]. intros Hb. split.
  - eapply left_run; [exact H1|exact R1|exact Hb].
  - eapply left_run; [exact H2|exact R2|exact Hb].
Qed.
Theorem tidy_history_free b {S A} (p : parser C S A) : tidy b p -> history_free b p.
Proof.
  intros H. destruct (tidy_hyg b S A p H) as [Clean Hc]. exact (run_hyg_history_free b Clean p (h_init Hc) (h_run Hc)).
Qed.
Lemma history_free_weak {S A} (p : parser C S A) : history_free true p -> history_free false p.
Proof.
  intros H st Hl. apply H. clear H. induction Hl; [constructor|]. econstructor; eauto.
Qed.
Lemma history_free_by_ref {S A} b (p : parser C S A) : history_free b p -> hyg b (leftover b p) (by_ref p).
Proof.
  intros H. apply hyg_mk_mode; [constructor|]. apply history_free_run_hyg. auto.
Qed.
End Tidy.
