(** C25: every parser of the library only moves the input forward. *)
From Coq Require Import String List Bool Arith NArith Lia.
Import ListNotations.
From Verif Require Import Base Parser Token Combinator Sequence Choice Repeat RangeP ByteP Spec.
Unset Implicit Arguments.

Section Fwd.
Context {C : Cfg}.
Notation T := (tok C).
Notation E := (Err C).
Notation advanced := (@Spec.advanced C).

Lemma adv_refl i : advanced i i.
Proof. exists []. repeat split. Qed.

Lemma pos_after_app p l l' : pos_after (C:=C) p (l ++ l') = pos_after (pos_after p l) l'.
Proof. apply fold_left_app. Qed.

Lemma adv_trans i j k : advanced i j -> advanced j k -> advanced i k.
Proof.
  intros [l [H1 [H2 H3]]] [l' [K1 [K2 K3]]]. exists (l ++ l'). repeat split.
  - rewrite H1, K1, app_assoc. auto.
  - rewrite K2, H2, pos_after_app. auto.
  - congruence.
Qed.

Lemma adv_advance i l r : rest i = l ++ r -> advanced i (advance i l r).
Proof. intros H. exists l. repeat split. auto. Qed.

Lemma adv_uncons i : advanced i (snd (uncons i)).
Proof.
  unfold uncons. destruct (rest i) as [|t r] eqn:Hr; simpl; [apply adv_refl|].
  exists [t]. repeat split. auto.
Qed.

Lemma adv_uncons' i o i' : uncons i = (o, i') -> advanced i i'.
Proof. intros H. pose proof (adv_uncons i) as Ha. rewrite H in Ha. auto. Qed.

Lemma adv_s_uncons i r i' : s_uncons i = (r, i') -> advanced i i'.
Proof.
  unfold s_uncons. destruct (uncons i) as [[t|] j] eqn:Hu; intros H; inversion H; subst; eapply adv_uncons'; eauto.
Qed.

Lemma split_width_app : forall l n a b, split_width (C:=C) n l = inl (a, b) -> l = a ++ b.
Proof.
  induction l as [|t r IH]; intros n a b H; simpl in H; destruct (n =? 0); try (inversion H; subst; reflexivity); try discriminate.
  destruct (width C t <=? n); try discriminate.
  destruct (split_width (n - width C t) r) as [[a' b']|e] eqn:Hs; inversion H; subst. simpl. f_equal. eauto.
Qed.

Lemma adv_uncons_range n i x i' : uncons_range n i = (x, i') -> advanced i i'.
Proof.
  unfold uncons_range. destruct (split_width n (rest i)) as [[a b]|e] eqn:Hs; intros H; inversion H; subst.
  - apply adv_advance. eapply split_width_app; eauto.
  - apply adv_refl.
Qed.

Lemma span_while_app {X} (f : X -> bool) : forall l a b, span_while f l = (a, b) -> l = a ++ b.
Proof.
  induction l as [|t r IH]; intros a b H; simpl in H.
  - inversion H; auto.
  - destruct (f t).
    + destruct (span_while f r) as [a' b'] eqn:Hs. inversion H; subst. simpl. f_equal. apply IH. auto.
    + inversion H; auto.
Qed.

Lemma adv_s_uncons_range i n r i' : s_uncons_range i n = (r, i') -> advanced i i'.
Proof.
  unfold s_uncons_range. destruct (uncons_range n i) as [[x|e] j] eqn:Hu; intros H; inversion H; subst; eapply adv_uncons_range; eauto.
Qed.

Lemma adv_m_uncons_while f i : advanced i (snd (m_uncons_while f i)).
Proof.
  unfold m_uncons_while. destruct (span_while f (rest i)) as [a b] eqn:Hs. simpl. apply adv_advance.
  eapply span_while_app; eauto.
Qed.

Lemma adv_s_uncons_while i f r i' : s_uncons_while i f = (r, i') -> advanced i i'.
Proof.
  unfold s_uncons_while. pose proof (adv_m_uncons_while f i) as Ha. destruct (m_uncons_while f i) as [x j]. simpl in Ha.
  destruct (ipart j && input_at_eof j); [|destruct (range_len x =? 0)]; intros H; inversion H; subst; auto.
Qed.

Lemma adv_s_uncons_while1 i f r i' : s_uncons_while1 i f = (r, i') -> advanced i i'.
Proof.
  unfold s_uncons_while1, m_uncons_while1. destruct (rest i) as [|t l] eqn:Hr.
  - destruct (ipart i && input_at_eof i); intros H; inversion H; subst; apply adv_refl.
  - destruct (f t).
    + destruct (span_while f l) as [a b] eqn:Hs.
      destruct (ipart (advance i (t :: a) b) && input_at_eof (advance i (t :: a) b)); intros H; inversion H; subst;
        apply adv_advance; rewrite Hr; simpl; f_equal; eapply span_while_app; eauto.
    + destruct (ipart i && input_at_eof i); intros H; inversion H; subst; apply adv_refl.
Qed.

(** The three ways the library runs a parser. *)
Record fwd {S A} (p : parser C S A) : Prop := {
  fwd_run : forward p;
  fwd_cmode : forall first i st r i' st', p_cmode p first i st = Done (r, i', st') -> advanced i i';
  fwd_lazy : forall i r i', p_lazy p i = Done (r, i') -> advanced i i';
  fwd_stream : forall i r i', p_stream p i = Done (r, i') -> advanced i i'
}.

Definition run_fwd {S A} (run : bool -> input C -> S -> outcome (PR A E * input C * S)) : Prop :=
  forall first i st r i' st', run first i st = Done (r, i', st') -> advanced i i'.
Definition lz_fwd {A} (lz : input C -> outcome (PR A E * input C)) : Prop :=
  forall i r i', lz i = Done (r, i') -> advanced i i'.

Lemma fwd_default_lazy {S A} (init : S) (run : bool -> input C -> S -> outcome (PR A E * input C * S)) :
  run_fwd run -> lz_fwd (default_lazy init run).
Proof.
  intros H i r i' Hd. unfold default_lazy in Hd. destruct (run true i init) as [[[r0 j] s]| |] eqn:Hr; simpl in Hd; try discriminate.
  apply H in Hr. destruct r0; inversion Hd; subst; auto. destruct (ipart i); auto. apply adv_refl.
Qed.

Lemma fwd_default_cmode {S A} (run : bool -> input C -> S -> outcome (PR A E * input C * S)) adderr :
  run_fwd run -> run_fwd (default_cmode run adderr).
Proof.
  intros H first i st r i' st' Hd. unfold default_cmode in Hd. destruct (run first i st) as [[[r0 j] s]| |] eqn:Hr; simpl in Hd; try discriminate.
  apply H in Hr. destruct r0; simpl in Hd; inversion Hd; subst; auto. apply adv_refl.
Qed.

Lemma fwd_default_stream {S A} (init : S) (run : bool -> input C -> S -> outcome (PR A E * input C * S)) adderr :
  run_fwd run -> lz_fwd (default_stream init run adderr).
Proof.
  intros H i r i' Hd. unfold default_stream in Hd. destruct (run true i init) as [[[r0 j] s]| |] eqn:Hr; simpl in Hd; try discriminate.
  apply H in Hr. destruct r0; simpl in Hd; inversion Hd; subst; auto. apply adv_refl.
Qed.

Lemma fwd_mk_mode {S A} (init : S) (run : bool -> input C -> S -> outcome (PR A E * input C * S)) a b n :
  run_fwd run -> fwd (mk_mode init run a b n).
Proof.
  intros H. constructor; simpl; auto.
  - exact (fwd_default_cmode run a H).
  - exact (fwd_default_lazy init run H).
  - exact (fwd_default_stream init run a H).
Qed.

Lemma fwd_mk_both {S A} (init : S) (run : bool -> input C -> S -> outcome (PR A E * input C * S)) lz a b n :
  run_fwd run -> lz_fwd lz -> fwd (mk_both init run lz a b n).
Proof.
  intros H H2. constructor; simpl; auto.
  - exact (fwd_default_cmode run a H).
  - exact (fwd_default_stream init run a H).
Qed.

Lemma run_fwd_lazy {A} (lz : input C -> outcome (PR A E * input C)) : lz_fwd lz -> run_fwd (lazy_run lz).
Proof.
  intros H first i st r i' st' Hr. unfold lazy_run in Hr. destruct (lz i) as [[r0 j]| |] eqn:Hl; simpl in Hr; try discriminate.
  inversion Hr; subst. eauto.
Qed.

Lemma fwd_mk_lazy {A} (lz : input C -> outcome (PR A E * input C)) a b n : lz_fwd lz -> fwd (mk_lazy lz a b n).
Proof.
  intros H. pose proof (run_fwd_lazy lz H) as Hr. constructor; simpl; auto.
  - exact (fwd_default_cmode _ a Hr).
  - exact (fwd_default_stream tt _ a Hr).
Qed.

(** Peel an [omap]/[obind] hypothesis. *)
Ltac peel H :=
  match type of H with
  | omap _ ?e = Done _ => let x := fresh "x" in let Hx := fresh "Hx" in destruct e as [x| |] eqn:Hx; simpl in H; try discriminate H
  | obind ?e _ = Done _ => let x := fresh "x" in let Hx := fresh "Hx" in destruct e as [x| |] eqn:Hx; simpl in H; try discriminate H
  end.

(** ** token parsers *)
Lemma fwd_satisfy_impl {R} (f : T -> option R) : lz_fwd (satisfy_impl f).
Proof.
  intros i r i' H. unfold satisfy_impl in H. destruct (s_uncons i) as [r0 j] eqn:Hu. apply adv_s_uncons in Hu.
  destruct r0 as [t|t|e|e]; try (destruct (f t)); inversion H; subst; auto.
Qed.
Lemma fwd_any : fwd (@any C).
Proof. apply fwd_mk_lazy. intros i r i' H. inversion H as [H1]. eapply adv_s_uncons; eauto. Qed.
Lemma fwd_satisfy f : fwd (@satisfy C f). Proof. apply fwd_mk_lazy, fwd_satisfy_impl. Qed.
Lemma fwd_satisfy_map {R} (f : T -> option R) : fwd (satisfy_map f). Proof. apply fwd_mk_lazy, fwd_satisfy_impl. Qed.
Lemma fwd_token c : fwd (@token C c). Proof. apply fwd_mk_lazy, fwd_satisfy_impl. Qed.
Lemma fwd_one_of l : fwd (@one_of C l). Proof. apply fwd_mk_lazy, fwd_satisfy_impl. Qed.
Lemma fwd_none_of l : fwd (@none_of C l). Proof. apply fwd_mk_lazy, fwd_satisfy_impl. Qed.

Lemma fwd_tokens_loop {X} (cmp : X -> T -> bool) om start : forall l c i r i',
  tokens_loop cmp om start c l i = (r, i') -> advanced i i'.
Proof.
  induction l as [|x l IH]; intros c i r i' H; simpl in H.
  - inversion H; subst. apply adv_refl.
  - destruct (s_uncons i) as [r0 j] eqn:Hu. apply adv_s_uncons in Hu. destruct r0 as [t|t|e|e].
    + destruct (cmp x t). { eapply adv_trans; eauto. } destruct c; inversion H; subst; auto.
    + destruct (cmp x t). { eapply adv_trans; eauto. } destruct c; inversion H; subst; auto.
    + inversion H; subst; auto.
    + destruct c; inversion H; subst; auto.
Qed.
Lemma fwd_tokens {X} (cmp : X -> T -> bool) exp l : fwd (tokens cmp exp l).
Proof.
  apply fwd_mk_lazy. intros i r i' H. match type of H with context [tokens_loop ?a ?b ?c ?d ?e ?f] => destruct (tokens_loop a b c d e f) as [r0 j] eqn:Hl end.
  inversion H; subst. eapply fwd_tokens_loop; eauto.
Qed.
Lemma fwd_tokens_cmp {X} (cmp : X -> T -> bool) l : fwd (tokens_cmp l cmp).
Proof.
  apply fwd_mk_lazy. intros i r i' H. match type of H with context [tokens_loop ?a ?b ?c ?d ?e ?f] => destruct (tokens_loop a b c d e f) as [r0 j] eqn:Hl end.
  inversion H; subst. eapply fwd_tokens_loop; eauto.
Qed.
Lemma fwd_const {A} (f : input C -> PR A E) a b n : fwd (mk_lazy (fun i => Done (f i, i)) a b n).
Proof. apply fwd_mk_lazy. intros i r i' H. inversion H; subst. apply adv_refl. Qed.
Lemma fwd_position : fwd (@position C). Proof. apply (fwd_const (fun i => PeekOk (ipos i))). Qed.
Lemma fwd_value {A} (v : A) : fwd (@value C A v). Proof. apply (fwd_const (fun i => PeekOk v)). Qed.
Lemma fwd_produce {A} (f : unit -> A) : fwd (@produce C A f). Proof. apply (fwd_const (fun i => PeekOk (f tt))). Qed.
Lemma fwd_unexpected_any {A} msg : fwd (@unexpected_any C A msg).
Proof. apply (fwd_const (fun i => PeekErr (to_trk (e_empty C (ipos i))))). Qed.
Lemma fwd_unexpected msg : fwd (@unexpected C msg). Proof. apply fwd_unexpected_any. Qed.
Lemma fwd_eof : fwd (@eof C).
Proof.
  apply fwd_mk_lazy. intros i r i' H. destruct (uncons i) as [[t|] j] eqn:Hu.
  - inversion H; subst. apply adv_refl.
  - apply adv_uncons' in Hu. destruct (se_is_eoi C (se_eoi C)); inversion H; subst; auto. apply adv_refl.
Qed.

(** ** combinators *)
Section Unary.
Context {S A : Type} (p : parser C S A) (F : fwd p).

Lemma run_fwd_map_result {B} (g : PR A E -> PR B E) :
  run_fwd (fun first i st => omap (fun x => match x with (r, i', s') => (g r, i', s') end) (p_run p first i st)).
Proof. intros first i st r i' st' H. peel H. destruct x as [[r0 j] s]. inversion H; subst. eapply (fwd_run _ F); eauto. Qed.

Lemma fwd_message msg : fwd (message p msg).
Proof.
  apply fwd_mk_mode. intros first i st r i' st' H. peel H. destruct x as [[r0 j] s].
  apply (fwd_run _ F) in Hx. destruct r0; inversion H; subst; auto.
Qed.
Lemma fwd_expected x : fwd (expected p x). Proof. apply fwd_mk_mode. exact (fwd_run _ F). Qed.
Lemma fwd_silent : fwd (silent p). Proof. apply fwd_mk_mode, run_fwd_map_result. Qed.
Lemma fwd_not_followed_by : fwd (not_followed_by p).
Proof. apply fwd_mk_mode. intros first i st r i' st' H. peel H. destruct x as [[r0 j] s]. inversion H; subst. apply adv_refl. Qed.
Lemma run_fwd_attempt : run_fwd (attempt_run p).
Proof.
  intros first i st r i' st' H. unfold attempt_run in H. peel H. destruct x as [[r0 j] s]. apply (fwd_cmode _ F) in Hx.
  destruct r0 as [a|a|e|e]; try (inversion H; subst; auto; fail). destruct (ipart j && e_is_eoi C e); inversion H; subst; auto.
Qed.
Lemma fwd_attempt : fwd (attempt p).
Proof.
  constructor; simpl.
  - exact run_fwd_attempt.
  - exact run_fwd_attempt.
  - exact (fwd_default_lazy _ _ run_fwd_attempt).
  - exact (fwd_default_lazy _ _ run_fwd_attempt).
Qed.
Lemma fwd_look_ahead : fwd (look_ahead p).
Proof.
  apply fwd_mk_lazy. intros i r i' H. peel H. destruct x as [r0 j]. destruct r0; inversion H; subst; apply adv_refl.
Qed.
Lemma fwd_map {B} (f : A -> B) : fwd (map p f). Proof. apply fwd_mk_mode. apply run_fwd_map_result. Qed.
Lemma fwd_map_input {B} (f : A -> input C -> B * input C) :
  (forall a i, advanced i (snd (f a i))) -> fwd (map_input p f).
Proof.
  intros Hf. apply fwd_mk_mode. intros first i st r i' st' H. peel H. destruct x as [[r0 j] s]. apply (fwd_run _ F) in Hx.
  destruct r0 as [a|a|e|e]; try (inversion H; subst; auto; fail);
    specialize (Hf a j); destruct (f a j) as [b i2]; inversion H; subst; eapply adv_trans; eauto.
Qed.
Lemma fwd_flat_map {B} (f : A -> B + E) : fwd (flat_map p f).
Proof.
  apply fwd_mk_mode. intros first i st r i' st' H. peel H. destruct x as [[r0 j] s]. apply (fwd_run _ F) in Hx.
  destruct r0 as [a|a|e|e]; inversion H; subst; auto.
Qed.
Lemma run_fwd_and_then {B} (f : A -> B + SErr C) : forward (and_then p f).
Proof.
  intros first i st r i' st' H. simpl in H. peel H. destruct x as [[r0 j] s]. apply (fwd_run _ F) in Hx.
  destruct r0 as [a|a|e|e]; try (inversion H; subst; auto; fail); destruct (f a) as [b|se]; try (inversion H; subst; auto; fail);
    destruct (ipart j && input_at_eof j); inversion H; subst; auto; apply adv_refl.
Qed.
Lemma fwd_and_then {B} (f : A -> B + SErr C) : fwd (and_then p f).
Proof. apply fwd_mk_mode. exact (run_fwd_and_then f). Qed.
Lemma fwd_from_str {B} (f : A -> option (B + string)) : fwd (from_str p f).
Proof. apply fwd_mk_mode. apply run_fwd_and_then. Qed.

Lemma replay_app last : forall l pos a l' p' ok, replay (C:=C) last l pos = (a, l', p', ok) -> l = a ++ l' /\ p' = pos_after pos a.
Proof.
  induction l as [|t r IH]; intros pos a l' p' ok H; simpl in H; destruct (pos_eqb C pos last);
    try (inversion H; subst; split; reflexivity).
  destruct (replay last r (pos_step C pos t)) as [[[a0 l0] p0] ok0] eqn:Hr. inversion H; subst.
  apply IH in Hr. destruct Hr as [-> ->]. split; reflexivity.
Qed.

Lemma fwd_recognize : fwd (recognize p).
Proof.
  apply fwd_mk_mode. intros first i [el child] r i' st' H. unfold recognize_run in H. peel H. destruct x as [[r0 j] s].
  apply (fwd_run _ F) in Hx. destruct (replay (ipos j) (rest i) (ipos i)) as [[[a l'] p'] ok] eqn:Hr. apply replay_app in Hr.
  assert (Ha : advanced i (Inp l' p' (ipart i))). { exists a. repeat split; tauto. }
  destruct r0; [destruct ok|destruct ok| |]; inversion H; subst; auto.
Qed.

Lemma fwd_no_partial : fwd (no_partial p).
Proof.
  apply fwd_mk_both; [|exact (fwd_lazy _ F)].
  intros first i st r i' st' H. peel H. destruct x as [r0 j]. inversion H; subst. eapply (fwd_lazy _ F); eauto.
Qed.
Lemma fwd_ignore : fwd (ignore p).
Proof.
  apply fwd_mk_both; [apply run_fwd_map_result|]. intros i r i' H. peel H. destruct x as [r0 j]. inversion H; subst. eapply (fwd_lazy _ F); eauto.
Qed.
Lemma fwd_any_partial_state : fwd (any_partial_state p).
Proof.
  apply fwd_mk_both; [|exact (fwd_lazy _ F)]. intros first i [s|] r i' st' H; unfold any_partial_run in H; peel H;
    destruct x as [[r0 j] s1]; inversion H; subst; eapply (fwd_run _ F); eauto.
Qed.
Lemma fwd_lazy_ : fwd (lazy p).
Proof.
  constructor; simpl.
  - exact (fwd_run _ F).
  - exact (fwd_run _ F).
  - exact (fwd_lazy _ F).
  - exact (fwd_stream _ F).
Qed.
Lemma fwd_factory : fwd (factory p). Proof. apply fwd_mk_mode. exact (fwd_run _ F). Qed.
Lemma fwd_opaque : fwd (opaque p).
Proof.
  constructor; simpl.
  - exact (fwd_run _ F).
  - exact (fwd_default_cmode _ _ (fwd_run _ F)).
  - exact (fwd_lazy _ F).
  - exact (fwd_stream _ F).
Qed.
Lemma fwd_spanned {Q} (q_eqb : Q -> Q -> bool) sp_start sp_end mk_span : fwd (spanned q_eqb sp_start sp_end mk_span p).
Proof.
  apply fwd_mk_mode. intros first i st r i' st' H. peel H. destruct x as [[r0 j] s]. inversion H; subst. eapply (fwd_run _ F); eauto.
Qed.
Lemma fwd_by_ref : fwd (by_ref p). Proof. apply fwd_mk_mode. exact (fwd_run _ F). Qed.
Lemma fwd_parser_fn : fwd (parser_fn p). Proof. apply fwd_mk_mode. exact (fwd_run _ F). Qed.
Lemma fwd_parser_fn0 : fwd (parser_fn0 p).
Proof.
  apply fwd_mk_mode. intros first i st r i' st' H. peel H. destruct x as [[r0 j] s]. inversion H; subst. eapply (fwd_run _ F); eauto.
Qed.
Lemma fwd_optional : fwd (optional p).
Proof.
  apply fwd_mk_mode. intros first i st r i' st' H. peel H. destruct x as [[r0 j] s]. apply (fwd_run _ F) in Hx.
  destruct r0; inversion H; subst; auto. apply adv_refl.
Qed.
End Unary.

Lemma fwd_either {S1 S2 A} (p : parser C S1 A + parser C S2 A) :
  match p with inl x => fwd x | inr x => fwd x end -> fwd (either p).
Proof.
  intros F. apply fwd_mk_both.
  - intros first i st r i' st' H. destruct p as [p|p]; unfold either_run in H; peel H; destruct x as [[r0 j] s]; inversion H; subst;
      eapply (fwd_run _ F); eauto.
  - intros i r i' H. destruct p as [p|p]; eapply (fwd_lazy _ F); eauto.
Qed.

Lemma fwd_dispatch_here {S SS A} (p : parser C S A) : fwd p -> fwd (dispatch (@DC C A S SS p)).
Proof.
  intros F. apply fwd_mk_mode. intros first i st r i' st' H. cbn [disp_run] in H. peel H. destruct x as [[r0 j] s]. inversion H; subst.
  eapply (fwd_run _ F); eauto.
Qed.
Lemma fwd_dispatch_later {S SS A} (d : disp (C:=C) A SS) : fwd (dispatch d) -> fwd (dispatch (@DN C A S SS d)).
Proof.
  intros F. apply fwd_mk_mode. intros first i st r i' st' H. cbn [disp_run] in H. peel H. destruct x as [[r0 j] s]. inversion H; subst.
  eapply (fwd_run _ F); eauto.
Qed.
Lemma fwd_input_converter {D : Cfg} {S A} (p : parser D S A) conv cerr :
  (forall i, advanced i (snd (conv i))) -> (forall e i, advanced i (snd (cerr e i))) -> fwd (input_converter p conv cerr).
Proof.
  intros H1 H2. apply fwd_mk_mode. intros first i st r i' st' H. specialize (H1 i). destruct (conv i) as [[j|e] i1]; cbn in H1.
  - peel H. destruct x as [[r0 j'] s]. destruct r0 as [a|a|e|e]; cbn in H.
    + inversion H; subst; auto.
    + inversion H; subst; auto.
    + specialize (H2 e i1). destruct (cerr e i1) as [e' i2]. inversion H; subst. eapply adv_trans; eauto.
    + specialize (H2 (terr e) i1). destruct (cerr (terr e) i1) as [e' i2]. inversion H; subst. eapply adv_trans; eauto.
  - inversion H; subst. auto.
Qed.

(** ** sequences *)
Fixpoint tup_fwd {SS B} (t : tup (C:=C) SS B) : Prop :=
  match t with
  | T1 p => fwd p
  | TC p r => fwd p /\ tup_fwd r
  end.

Lemma adv_seq_elem {S A} (p : parser C S A) (F : fwd p) first cur fep i st off k i' st' off' :
  seq_elem p first cur fep i st off = Done (k, i', st', off') -> advanced i i'.
Proof.
  unfold seq_elem. destruct st as [v s]. destruct (first || is_none v).
  - intros H. peel H. destruct x as [[r0 j] s1]. apply (fwd_run _ F) in Hx. destruct r0; inversion H; subst; auto. apply adv_refl.
  - intros H. inversion H; subst. apply adv_refl.
Qed.
Lemma adv_seq_head {S A} (p : parser C S A) (F : fwd p) first i st off k i' st' off' :
  seq_head p first i st off = Done (k, i', st', off') -> advanced i i'.
Proof.
  unfold seq_head. destruct st as [v s]. destruct (first || is_none v).
  - intros H. peel H. destruct x as [[r0 j] s1]. apply (fwd_run _ F) in Hx. destruct r0; inversion H; subst; auto.
  - intros H. inversion H; subst. apply adv_refl.
Qed.
Lemma adv_seq_rest {SS B} (t : tup (C:=C) SS B) : tup_fwd t -> forall first cur fep i st off k i' st' off',
  seq_rest t first cur fep i st off = Done (k, i', st', off') -> advanced i i'.
Proof.
  induction t as [S A p|S A SS B p r IH]; simpl; intros F first cur fep i st off k i' st' off' H.
  - eapply adv_seq_elem; eauto.
  - destruct F as [F1 F2]. peel H. destruct x as [[[k1 j] s1] o1]. apply adv_seq_elem in Hx; auto.
    destruct k1; try (inversion H; subst; auto; fail). peel H. destruct x as [[[k2 j2] s2] o2]. inversion H; subst.
    eapply adv_trans; eauto.
Qed.
Lemma adv_seq_all {SS B} (t : tup (C:=C) SS B) : tup_fwd t -> forall first i st off k i' st' off',
  seq_all t first i st off = Done (k, i', st', off') -> advanced i i'.
Proof.
  destruct t as [S A p|S A SS B p r]; simpl; intros F first i st off k i' st' off' H.
  - eapply adv_seq_head; eauto.
  - destruct F as [F1 F2]. peel H. destruct x as [[[k1 j] s1] o1]. apply adv_seq_head in Hx; auto.
    destruct k1; try (inversion H; subst; auto; fail). peel H. destruct x as [[[k2 j2] s2] o2]. inversion H; subst.
    eapply adv_trans; eauto. eapply adv_seq_rest; eauto.
Qed.
Lemma adv_add_errors {A} i e fep off l (r : PR A E) i' : add_errors i e fep off l = (r, i') -> advanced i i'.
Proof.
  unfold add_errors. destruct (fep =? 0).
  - intros H; inversion H; subst. apply adv_refl.
  - destruct (uncons i) as [[t|] j] eqn:Hu; apply adv_uncons' in Hu; intros H; inversion H; subst; auto.
Qed.
Lemma fwd_tuple {SS B} (t : tup (C:=C) SS B) : tup_fwd t -> fwd (tuple t).
Proof.
  intros F. apply fwd_mk_mode. intros first i st r i' st' H. unfold tuple_run in H. peel H.
  destruct x as [[[k j] s1] o1]. apply adv_seq_all in Hx; auto. destruct k as [f c n|e|e|e n].
  - destruct (tup_take t s1) as [[b s2]|]; inversion H; subst. auto.
  - inversion H; subst. auto.
  - inversion H; subst. auto.
  - destruct (add_errors j e n o1 (tup_errfns t)) as [r0 j2] eqn:Ha. apply adv_add_errors in Ha. inversion H; subst.
    eapply adv_trans; eauto.
Qed.
Lemma fwd_pair2 {S1 A S2 B} (p : parser C S1 A) (q : parser C S2 B) : fwd p -> fwd q -> fwd (pair2 p q).
Proof. intros. apply fwd_tuple. simpl. auto. Qed.
Lemma fwd_tup3 {S1 A S2 B S3 D} (p : parser C S1 A) (q : parser C S2 B) (r : parser C S3 D) : fwd p -> fwd q -> fwd r -> fwd (tup3 p q r).
Proof. intros. apply fwd_tuple. simpl. auto. Qed.
Lemma fwd_with {S1 A S2 B} (p : parser C S1 A) (q : parser C S2 B) : fwd p -> fwd q -> fwd (with_ p q).
Proof.
  intros Fp Fq. pose proof (fwd_pair2 (ignore p) q (fwd_ignore p Fp) Fq) as F. apply fwd_mk_both.
  - intros first i st r i' st' H. peel H. destruct x as [[r0 j] s]. inversion H; subst. eapply (fwd_run _ F); eauto.
  - intros i r i' H. peel H. destruct x as [r0 j]. inversion H; subst. eapply (fwd_lazy _ F); eauto.
Qed.
Lemma fwd_skip {S1 A S2 B} (p : parser C S1 A) (q : parser C S2 B) : fwd p -> fwd q -> fwd (skip p q).
Proof.
  intros Fp Fq. pose proof (fwd_pair2 p (ignore q) Fp (fwd_ignore q Fq)) as F. apply fwd_mk_mode.
  intros first i st r i' st' H. peel H. destruct x as [[r0 j] s]. inversion H; subst. eapply (fwd_run _ F); eauto.
Qed.
Lemma fwd_between {S1 A S2 B S3 D} (o : parser C S1 A) (c : parser C S2 B) (p : parser C S3 D) :
  fwd o -> fwd c -> fwd p -> fwd (between o c p).
Proof. intros. apply fwd_parser_fn. apply fwd_map. apply fwd_tup3; auto. Qed.

Lemma fwd_then {S1 A S2 B} (p : parser C S1 A) (s0 : S2) (f : A -> parser C S2 B) :
  fwd p -> (forall a, fwd (f a)) -> fwd (then_ p s0 f).
Proof.
  intros Fp Ff. apply fwd_mk_mode. intros first i [[sp cache] sn] r i' st' H. unfold then_run in H.
  assert (Hfin : forall c (sp' : S1) (cache' : option (bool * A)) a first' j y, p_cmode (f a) first' j sn = Done y ->
    forall r i' st', then_finish c sp' cache' y = (r, i', st') -> advanced j i').
  { intros c sp' cache' a first' j [[r0 j2] s2] Hc r1 i1 st1 Hq. apply (fwd_cmode _ (Ff a)) in Hc. unfold then_finish in Hq.
    destruct r0; inversion Hq; subst; auto. }
  destruct (first || is_none cache).
  - destruct (dbg C && negb (is_none cache)); try discriminate. peel H. destruct x as [[r0 j] s1]. apply (fwd_run _ Fp) in Hx.
    destruct r0 as [a|a|e|e]; try (inversion H; subst; auto; fail); peel H; inversion H;
      eapply adv_trans; eauto; eapply Hfin; eauto.
  - destruct cache as [[c a]|]; try discriminate. peel H. inversion H. eapply Hfin; eauto.
Qed.
Lemma fwd_then_ref {S1 A S2 B} (p : parser C S1 A) (s0 : S2) (f : A -> parser C S2 B) :
  fwd p -> (forall a, fwd (f a)) -> fwd (then_ref p s0 f).
Proof.
  intros Fp Ff. apply fwd_then; auto. intros a. constructor; simpl.
  - intros first i st r i' st' H. simpl in H. peel H. destruct x as [[r0 j] s]. inversion H; subst. eapply (fwd_run _ (Ff a)); eauto.
  - intros first i st r i' st' H. peel H. destruct x as [[r0 j] s]. inversion H; subst. eapply (fwd_cmode _ (Ff a)); eauto.
  - intros i r i' H. peel H. destruct x as [r0 j]. inversion H; subst. eapply (fwd_lazy _ (Ff a)); eauto.
  - intros i r i' H. peel H. destruct x as [r0 j]. inversion H; subst. eapply (fwd_stream _ (Ff a)); eauto.
Qed.

(** ** choices *)
Fixpoint alts_fwd {A SS} (t : alts (C:=C) A SS) : Prop :=
  match t with
  | AL p => fwd p
  | AC p r => fwd p /\ alts_fwd r
  end.
Lemma adv_try_one {S A} (p : parser C S A) (F : fwd p) i r i' st : try_one p i = Done (TEnd r i' st) -> advanced i i'.
Proof.
  unfold try_one. intros H. peel H. destruct x as [[r0 j] s]. apply (fwd_run _ F) in Hx. destruct r0; inversion H; subst; auto.
Qed.
Lemma adv_choice_try {A SS} (t : alts (C:=C) A SS) : alts_fwd t -> forall i r i' st, choice_try t i = Done (TEnd r i' st) -> advanced i i'.
Proof.
  induction t as [S p|S SS p q IH]; simpl; intros F i r i' st H.
  - eapply adv_try_one; eauto.
  - destruct F as [F1 F2]. peel H. destruct x as [r0 j s|errs].
    + inversion H; subst. eapply adv_try_one; eauto.
    + peel H. destruct x as [r1 j s|errs']; inversion H; subst. eapply IH; eauto.
Qed.
Lemma adv_choice_resume {A SS} (t : alts (C:=C) A SS) : alts_fwd t -> forall first i st r i' st',
  choice_resume t first i st = Done (r, i', st') -> advanced i i'.
Proof.
  induction t as [S p|S SS p q IH]; simpl; intros F first i st r i' st' H.
  - eapply (fwd_run _ F); eauto.
  - destruct F as [F1 F2]. destruct st as [s|s]; peel H; destruct x as [[r0 j] s1]; inversion H; subst.
    + eapply (fwd_run _ F1); eauto.
    + eapply IH; eauto.
Qed.
Lemma run_fwd_choice {A SS} (t : alts (C:=C) A SS) : alts_fwd t -> run_fwd (choice_run t).
Proof.
  intros F first i st r i' st' H. unfold choice_run in H.
  assert (Htry : obind (choice_try t i) (fun x => match x with
      | TEnd r i' s' => Done (r, i', match s' with Some s => Some s | None => st end)
      | TFail errs => match choice_error errs (alts_adderr t) with
                      | Some e => Done (PeekErr e, i, st)
                      | None => Panic
                      end
      end) = Done (r, i', st') -> advanced i i').
  { intros H0. peel H0. destruct x as [r0 j s|errs].
    - inversion H0; subst. eapply adv_choice_try; eauto.
    - destruct (choice_error errs (alts_adderr t)); inversion H0; subst. apply adv_refl. }
  destruct first; auto. destruct st as [s|]; auto. peel H. destruct x as [[r0 j] s1]. inversion H; subst. eapply adv_choice_resume; eauto.
Qed.
Lemma fwd_choice {A SS} (t : alts (C:=C) A SS) : alts_fwd t -> fwd (choice t).
Proof. intros F. apply fwd_mk_mode. apply run_fwd_choice. auto. Qed.
Lemma fwd_or {S1 S2 A} (p : parser C S1 A) (q : parser C S2 A) : fwd p -> fwd q -> fwd (or_ p q).
Proof. intros. apply fwd_mk_mode. apply run_fwd_choice. simpl. auto. Qed.
Lemma adv_slice_loop {S A} all before (l : list (parser C S A)) : Forall (fun p => fwd p) l ->
  forall first i last prev idx st cur r i' st', advanced before cur ->
  slice_loop all before first i last prev l idx st cur = Done (r, i', st') -> advanced before i'.
Proof.
  induction 1 as [|p l F Fl IH]; simpl; intros first i last prev idx st cur r i' st' Hc H.
  - inversion H; subst. auto.
  - peel H. destruct x as [[r0 j] s]. apply (fwd_run _ F) in Hx. destruct r0 as [a|a|e|e]; try (inversion H; subst; auto; fail).
    destruct (slice_merge all i last prev e) as [prev' last']. eapply IH; [|exact H]. auto.
Qed.
Lemma fwd_choice_slice {S A} (s0 : S) (ps : list (parser C S A)) : Forall (fun p => fwd p) ps -> fwd (choice_slice s0 ps).
Proof.
  intros F. apply fwd_mk_mode. intros first i [idx child] r i' st' H. unfold slice_run in H.
  destruct (negb first && negb (idx =? 0)).
  - destruct (nth_error ps (idx - 1)) as [p|] eqn:Hn; try discriminate. peel H. destruct x as [[r0 j] s]. inversion H; subst.
    rewrite Forall_forall in F. eapply (fwd_run _ (F _ (nth_error_In _ _ Hn))); eauto.
  - eapply adv_slice_loop; eauto. apply adv_refl.
Qed.

(** ** repetition *)
Section Rep.
Context {S A : Type} (p : parser C S A) (F : fwd p).

Lemma adv_iter_all n : forall first c i st l is c' i' st',
  iter_all n p first c i st = Done (l, is, c', i', st') -> advanced i i'.
Proof.
  induction n as [|n IH]; simpl; intros first c i st l is c' i' st' H; try discriminate.
  peel H. destruct x as [[r0 j] s]. apply (fwd_run _ F) in Hx. destruct r0 as [a|a|e|e].
  - peel H. destruct x as [[[[l0 is0] c0] j0] s0]. inversion H; subst. eapply adv_trans; eauto.
  - peel H. destruct x as [[[[l0 is0] c0] j0] s0]. inversion H; subst. eapply adv_trans; eauto.
  - inversion H; subst; auto.
  - inversion H; subst. apply adv_refl.
Qed.
Lemma adv_iter_take n : forall first c i st l is c' i' st',
  iter_take n p first c i st = Done (l, is, c', i', st') -> advanced i i'.
Proof.
  induction n as [|n IH]; simpl; intros first c i st l is c' i' st' H. { inversion H; subst; apply adv_refl. }
  peel H. destruct x as [[r0 j] s]. apply (fwd_run _ F) in Hx. destruct r0 as [a|a|e|e].
  - peel H. destruct x as [[[[l0 is0] c0] j0] s0]. inversion H; subst. eapply adv_trans; eauto.
  - peel H. destruct x as [[[[l0 is0] c0] j0] s0]. inversion H; subst. eapply adv_trans; eauto.
  - inversion H; subst; auto.
  - inversion H; subst. apply adv_refl.
Qed.
Lemma fwd_count_min_max mn mx : fwd (count_min_max mn mx p).
Proof.
  apply fwd_mk_mode. intros first i [[cnt el] child] r i' st' H. unfold count_min_max_run in H.
  destruct (mx <? mn); try discriminate. peel H. destruct x as [[[[l is] c] j] s].
  assert (Ha : advanced i j).
  { destruct (mx <? cnt).
    - destruct (dbg C); try discriminate. eapply adv_iter_all; eauto.
    - eapply adv_iter_take; eauto. }
  destruct (cnt + length l <? mn). { inversion H; subst; auto. }
  destruct (into_result_fast (el ++ l) is c) as [r0 left]. inversion H; subst; auto.
Qed.
Lemma fwd_count n : fwd (count n p).
Proof. apply fwd_parser_fn0. apply fwd_count_min_max. Qed.
Lemma fwd_many : fwd (many p).
Proof.
  apply fwd_mk_mode. intros first i [el child] r i' st' H. unfold many_run in H. peel H. destruct x as [[[[l is] c] j] s].
  apply adv_iter_all in Hx. destruct (into_result_fast (el ++ l) is c) as [r0 left]. inversion H; subst; auto.
Qed.
Lemma adv_many1_iter first c i el child r i' st' : many1_iter p first c i el child = Done (r, i', st') -> advanced i i'.
Proof.
  unfold many1_iter. intros H. peel H. destruct x as [[[[l is] c0] j] s].
  apply adv_iter_all in Hx. destruct (into_result_fast (el ++ l) is c0) as [r0 left]. inversion H; subst; auto.
Qed.
Lemma fwd_many1 : fwd (many1 p).
Proof.
  apply fwd_mk_mode. intros first i [[[po cs] el] child] r i' st' H. unfold many1_run in H.
  destruct (first || negb po).
  - destruct (dbg C && po); try discriminate. peel H. destruct x as [[r0 j] s]. apply (fwd_run _ F) in Hx.
    destruct r0; try (inversion H; subst; auto; fail); eapply adv_trans; eauto; eapply adv_many1_iter; eauto.
  - eapply adv_many1_iter; eauto.
Qed.
End Rep.

Lemma adv_iter_scan {S A} (p : parser C S (option A)) (F : fwd p) n : forall first c i st l is c' i' st',
  iter_scan n p first c i st = Done (l, is, c', i', st') -> advanced i i'.
Proof.
  induction n as [|n IH]; simpl; intros first c i st l is c' i' st' H; try discriminate.
  peel H. destruct x as [[r0 j] s]. apply (fwd_run _ F) in Hx. destruct r0 as [[a|]|[a|]|e|e].
  - peel H. destruct x as [[[[l0 is0] c0] j0] s0]. inversion H; subst. eapply adv_trans; eauto.
  - inversion H; subst; auto.
  - peel H. destruct x as [[[[l0 is0] c0] j0] s0]. inversion H; subst. eapply adv_trans; eauto.
  - inversion H; subst; auto.
  - inversion H; subst; auto.
  - inversion H; subst. apply adv_refl.
Qed.

Lemma fwd_skip_count {S A} n (p : parser C S A) : fwd p -> fwd (skip_count n p).
Proof. intros F. apply fwd_parser_fn, fwd_with; [|apply fwd_value]. apply fwd_count, fwd_map, F. Qed.
Lemma fwd_skip_count_min_max {S A} mn mx (p : parser C S A) : fwd p -> fwd (skip_count_min_max mn mx p).
Proof. intros F. apply fwd_parser_fn, fwd_with; [|apply fwd_value]. apply fwd_count_min_max, fwd_map, F. Qed.
Lemma fwd_skip_many {S A} (p : parser C S A) : fwd p -> fwd (skip_many p).
Proof. intros F. apply fwd_parser_fn, fwd_ignore, fwd_many, fwd_ignore, F. Qed.
Lemma fwd_skip_many1 {S A} (p : parser C S A) : fwd p -> fwd (skip_many1 p).
Proof. intros F. apply fwd_parser_fn, fwd_ignore, fwd_many1, fwd_ignore, F. Qed.

Lemma fwd_sep_by1 {S1 A S2 B} (p : parser C S1 A) (sep : parser C S2 B) : fwd p -> fwd sep -> fwd (sep_by1 p sep).
Proof.
  intros Fp Fs. apply fwd_mk_mode.
  assert (Hr : forall first i po rest el child r i' st', sep_by1_rest p sep first i po rest el child = Done (r, i', st') -> advanced i i').
  { intros first i po rst el child r i' st' H. unfold sep_by1_rest in H. peel H. destruct x as [[[[l is] c] j] s].
    apply adv_iter_all in Hx. 2: { apply fwd_with; apply fwd_by_ref; auto. }
    destruct (into_result_fast (el ++ l) is c) as [r0 left]. inversion H; subst; auto. }
  intros first i [[po el] child] r i' st' H. unfold sep_by1_run in H. destruct po as [rst|]; eauto.
  peel H. destruct x as [[r0 j] s]. apply (fwd_run _ Fp) in Hx. destruct r0; try (inversion H; subst; auto; fail);
    eapply adv_trans; eauto.
Qed.
Lemma fwd_sep_by {S1 A S2 B} (p : parser C S1 A) (sep : parser C S2 B) : fwd p -> fwd sep -> fwd (sep_by p sep).
Proof. intros Fp Fs. apply fwd_mk_mode. apply run_fwd_choice. simpl. split; [apply fwd_sep_by1; auto|apply fwd_value]. Qed.

Lemma fwd_sep_end_by1 {S1 A S2 B} (p : parser C S1 A) (sep : parser C S2 B) : fwd p -> fwd sep -> fwd (sep_end_by1 p sep).
Proof.
  intros Fp Fs. apply fwd_mk_mode.
  assert (Hr : forall first i rest el child r i' st', sep_end_by1_rest p sep first i rest el child = Done (r, i', st') -> advanced i i').
  { intros first i rst el child r i' st' H. unfold sep_end_by1_rest in H. peel H. destruct x as [[[[l is] c] j] s].
    apply adv_iter_scan in Hx. 2: { apply fwd_with; [apply fwd_by_ref|apply fwd_optional, fwd_by_ref]; auto. }
    destruct (into_result_fast (el ++ l) is c) as [r0 left]. inversion H; subst; auto. }
  intros first i [[po el] child] r i' st' H. unfold sep_end_by1_run in H. destruct po as [rst|]; eauto.
  peel H. destruct x as [[r0 j] s]. apply (fwd_run _ Fp) in Hx. destruct r0; try (inversion H; subst; auto; fail);
    eapply adv_trans; eauto.
Qed.
Lemma fwd_sep_end_by {S1 A S2 B} (p : parser C S1 A) (sep : parser C S2 B) : fwd p -> fwd sep -> fwd (sep_end_by p sep).
Proof. intros Fp Fs. apply fwd_mk_mode. apply run_fwd_choice. simpl. split; [apply fwd_sep_end_by1; auto|apply fwd_value]. Qed.

Lemma fwd_chainl1 {S1 A S2} (p : parser C S1 A) (op : parser C S2 (A -> A -> A)) : fwd p -> fwd op -> fwd (chainl1 p op).
Proof.
  intros Fp Fo. apply fwd_mk_mode.
  pose proof (fwd_pair2 _ _ (fwd_by_ref op Fo) (fwd_by_ref p Fp)) as F2.
  assert (Hl : forall n first l c i child r i' st', chainl_loop n p op first l c i child = Done (r, i', st') -> advanced i i').
  { induction n as [|n IH]; simpl; intros first l c i child r i' st' H; try discriminate. peel H.
    destruct x as [[r0 j] s]. apply (fwd_run _ F2) in Hx. destruct r0 as [[f v]|[f v]|e|e]; simpl in H.
    - eapply adv_trans; eauto.
    - eapply adv_trans; eauto.
    - inversion H; subst; auto.
    - inversion H; subst. apply adv_refl. }
  intros first i [ls child] r i' st' H. unfold chainl1_run in H. destruct ls as [[l c]|]; eauto.
  peel H. destruct x as [[r0 j] s]. apply (fwd_run _ Fp) in Hx. destruct r0; try (inversion H; subst; auto; fail);
    eapply adv_trans; eauto.
Qed.

Lemma adv_chainr {S1 A S2} (p : parser C S1 A) (op : parser C S2 (A -> A -> A)) : fwd p -> fwd op ->
  forall n, (forall i r i', chainr_lazy n p op i = Done (r, i') -> advanced i i') /\
            (forall l c i r i', chainr_loop n p op l c i = Done (r, i') -> advanced i i').
Proof.
  intros Fp Fo. induction n as [|n [IH1 IH2]]; split; simpl; intros; try discriminate.
  - peel H. destruct x as [r0 j]. apply (fwd_lazy _ Fp) in Hx. destruct r0; try (inversion H; subst; auto; fail);
      eapply adv_trans; eauto.
  - peel H. destruct x as [r0 j]. apply (fwd_lazy _ Fo) in Hx. destruct (into_std r0) as [[f rst]|[e|e]] eqn:Hs.
    + peel H. destruct x as [r2 j2]. apply IH1 in Hx0. destruct (into_std r2) as [[v rst2]|[e|e]].
      * eapply adv_trans; [exact Hx|]. eapply adv_trans; eauto.
      * inversion H; subst. eapply adv_trans; eauto.
      * inversion H; subst; auto.
    + inversion H; subst; auto.
    + inversion H; subst. apply adv_refl.
Qed.
Lemma fwd_chainr1 {S1 A S2} (p : parser C S1 A) (op : parser C S2 (A -> A -> A)) : fwd p -> fwd op -> fwd (chainr1 p op).
Proof. intros Fp Fo. apply fwd_mk_lazy. exact (proj1 (adv_chainr p op Fp Fo (fuel C))). Qed.

Lemma fwd_take_until {S A} (p : parser C S A) : fwd (take_until p).
Proof.
  apply fwd_mk_mode.
  assert (Hl : forall l first c part out pos st r i' st', take_until_loop p first c part out l pos st = Done (r, i', st') ->
    advanced (Inp l pos part) i').
  { induction l as [|t l IH]; simpl; intros first c part out pos st r i' st' H; peel H; destruct x as [[r0 j] s];
      destruct (into_std r0) as [[v rst]|[e|e]]; try (inversion H; subst; apply adv_refl).
    - unfold s_uncons, uncons, wrap_stream_error in H; simpl in H. destruct part; inversion H; subst; apply adv_refl.
    - apply IH in H. eapply adv_trans; eauto. exists [t]. repeat split. }
  intros first i st r i' st' H. apply Hl in H. destruct i; auto.
Qed.
Lemma fwd_skip_until {S A} (p : parser C S A) : fwd (skip_until p).
Proof. apply fwd_parser_fn, fwd_with; [apply fwd_take_until|apply fwd_value]. Qed.

Lemma fwd_repeat_until {S1 A S2 B} (p : parser C S1 A) (e : parser C S2 B) : fwd p -> fwd (repeat_until p e).
Proof.
  intros Fp. apply fwd_mk_mode.
  assert (Hl : forall n first c i out isp ps es r i' st', repeat_until_loop n p e first c i out isp ps es = Done (r, i', st') -> advanced i i').
  { induction n as [|n IH]; simpl; intros first c i out isp ps es r i' st' H; try discriminate. destruct isp.
    - peel H. destruct x as [[r0 j] s]. apply (fwd_run _ Fp) in Hx. destruct r0; try (inversion H; subst; auto; fail); eapply adv_trans; eauto.
    - peel H. destruct x as [[r0 j] s]. destruct (into_std r0) as [[v rst]|[er|er]]; try (inversion H; subst; apply adv_refl). eauto. }
  intros first i [[[out isp] ps] es] r i' st' H. eauto.
Qed.
Lemma fwd_repeat_skip_until {S1 A S2 B} (p : parser C S1 A) (e : parser C S2 B) : fwd p -> fwd (repeat_skip_until p e).
Proof. intros. apply fwd_parser_fn, fwd_with; [apply fwd_repeat_until; auto|apply fwd_value]. Qed.

Lemma fwd_escaped {S1 A S2 B} (p : parser C S1 A) esc (q : parser C S2 B) : fwd p -> fwd q -> fwd (escaped p esc q).
Proof.
  intros Fp Fq. apply fwd_mk_lazy. intros i r i' H. revert i r i' H. generalize (Peek tt) as c. generalize (fuel C) as n.
  induction n as [|n IH]; simpl; intros c i r i' H; try discriminate. peel H. destruct x as [r0 j]. apply (fwd_lazy _ Fp) in Hx.
  destruct r0 as [a|a|e|e].
  - eapply adv_trans; eauto.
  - eapply adv_trans; eauto.
  - inversion H; subst; auto.
  - destruct (s_uncons j) as [r1 j1] eqn:Hu. apply adv_s_uncons in Hu. destruct r1 as [t|t|e1|e1].
    + destruct (tok_eqb C t esc). 2: { inversion H; subst; auto. }
      peel H. destruct x as [[r2 j2] s2]. apply (fwd_cmode _ Fq) in Hx0.
      destruct r2; try (inversion H; subst); eauto using adv_trans.
    + destruct (tok_eqb C t esc). 2: { inversion H; subst; auto. }
      peel H. destruct x as [[r2 j2] s2]. apply (fwd_cmode _ Fq) in Hx0.
      destruct r2; try (inversion H; subst); eauto using adv_trans.
    + inversion H; subst. eauto using adv_trans.
    + inversion H; subst; auto.
Qed.

Lemma adv_iterate_items {J S A} (f : J -> parser C S A) (F : forall x, fwd (f x)) : forall items first c i st l o c' i' st',
  iterate_items f first c items i st = Done (l, o, c', i', st') -> advanced i i'.
Proof.
  induction items as [|x items IH]; simpl; intros first c i st l o c' i' st' H. { inversion H; subst; apply adv_refl. }
  peel H. destruct x0 as [[r0 j] s]. apply (fwd_run _ (F x)) in Hx. destruct r0 as [a|a|e|e].
  - peel H. destruct x0 as [[[[l0 is0] c0] j0] s0]. inversion H; subst. eapply adv_trans; eauto.
  - peel H. destruct x0 as [[[[l0 is0] c0] j0] s0]. inversion H; subst. eapply adv_trans; eauto.
  - inversion H; subst; auto.
  - inversion H; subst. apply adv_refl.
Qed.
Lemma fwd_iterate {J S A} (s0 : S) (items : list J) (f : J -> parser C S A) : (forall x, fwd (f x)) -> fwd (iterate s0 items f).
Proof.
  intros F. apply fwd_mk_mode. intros first i [[[oi c] buf] nx] r i' st' H. unfold iterate_run in H.
  match type of H with (let '(_, _) := ?z in _) = _ => destruct z as [it ni] end.
  peel H. destruct x as [[[[l o] c0] j] s]. apply adv_iterate_items in Hx; auto.
  destruct o as [[[x its] r0]|]; inversion H; subst; auto.
Qed.

(** ** ranges *)
Lemma fwd_take n : fwd (@take C n).
Proof. apply fwd_mk_lazy. intros i r i' H. inversion H as [H1]. eapply adv_s_uncons_range; eauto. Qed.
Lemma fwd_range r0 : fwd (@range C r0).
Proof.
  apply fwd_mk_lazy. intros i r i' H. destruct (uncons_range (range_len r0) i) as [[x|e] j] eqn:Hu; apply adv_uncons_range in Hu.
  - destruct (list_eqb (tok_eqb C) x r0); inversion H; subst; auto.
  - inversion H; subst; auto.
Qed.
Lemma run_fwd_partial_range f g : (forall i r i', f i = (r, i') -> advanced i i') -> (forall i r i', g i = (r, i') -> advanced i i') ->
  run_fwd (@parse_partial_range C f g).
Proof.
  intros Hf Hg first i st r i' st' H. unfold parse_partial_range in H. destruct (negb (ipart i)).
  - destruct (f i) as [r0 j] eqn:Hq. apply Hf in Hq. inversion H; subst; auto.
  - destruct (first || (st =? 0)).
    + destruct (f i) as [r0 j] eqn:Hq. apply Hf in Hq. destruct r0; inversion H; subst; auto. apply adv_refl.
    + destruct (uncons_range st i) as [[x|e] j] eqn:Hu; try discriminate. apply adv_uncons_range in Hu.
      destruct (g j) as [r0 j2] eqn:Hq. apply Hg in Hq. destruct r0.
      * destruct (s_uncons_range i (distance j2 i)) as [r2 i3] eqn:Hs. apply adv_s_uncons_range in Hs. inversion H; subst; auto.
      * destruct (s_uncons_range i (distance j2 i)) as [r2 i3] eqn:Hs. apply adv_s_uncons_range in Hs. inversion H; subst; auto.
      * inversion H; subst. apply adv_refl.
      * inversion H; subst. eapply adv_trans; eauto.
Qed.
Lemma fwd_take_while f : fwd (@take_while C f).
Proof. apply fwd_mk_mode. apply run_fwd_partial_range; intros i r i'; apply adv_s_uncons_while. Qed.
Lemma fwd_take_while1 f : fwd (@take_while1 C f).
Proof. apply fwd_mk_mode. apply run_fwd_partial_range; intros i r i'; [apply adv_s_uncons_while1|apply adv_s_uncons_while]. Qed.
Lemma fwd_recognize_with_value {S A} (p : parser C S A) : fwd p -> fwd (recognize_with_value p).
Proof.
  intros F. apply fwd_mk_mode. intros first i [dist child] r i' st' H. unfold recognize_with_value_run in H. peel H.
  assert (Ha : advanced i x).
  { destruct first. { inversion Hx; subst. apply adv_refl. }
    destruct (uncons_range dist i) as [[y|e] j] eqn:Hu; inversion Hx; subst. eapply adv_uncons_range; eauto. }
  peel H. destruct x0 as [[r0 i2] s]. apply (fwd_run _ F) in Hx0. destruct r0.
  - destruct (s_uncons_range i (distance i2 i)) as [r2 i3] eqn:Hs. apply adv_s_uncons_range in Hs. inversion H; subst; auto.
  - destruct (s_uncons_range i (distance i2 i)) as [r2 i3] eqn:Hs. apply adv_s_uncons_range in Hs. inversion H; subst; auto.
  - inversion H; subst. apply adv_refl.
  - inversion H; subst. eapply adv_trans; eauto.
Qed.
Lemma fwd_recognize_range {S A} (p : parser C S A) : fwd p -> fwd (recognize_range p).
Proof. intros. apply fwd_parser_fn, fwd_map, fwd_recognize_with_value. auto. Qed.
Lemma adv_tur_loop r before : forall l fe tc pos x i' st', tur_loop r before fe tc l pos = Done (x, i', st') -> advanced before i'.
Proof.
  induction l as [|t l IH]; intros fe tc pos x i' st' H; simpl in H.
  - destruct (uncons_range (range_len r) _) as [[xs|e] j]. 2: { inversion H; subst. apply adv_refl. }
    destruct (list_eqb (tok_eqb C) xs r); try discriminate.
    destruct (uncons_range (distance j before - range_len r) before) as [[cm|e] j2] eqn:Hu; try discriminate.
    apply adv_uncons_range in Hu. destruct (distance j before - range_len r =? 0); inversion H; subst; auto.
  - destruct (uncons_range (range_len r) _) as [[xs|e] j]. 2: { eauto. }
    destruct (list_eqb (tok_eqb C) xs r); eauto.
    destruct (uncons_range (distance j before - range_len r) before) as [[cm|e] j2] eqn:Hu; try discriminate.
    apply adv_uncons_range in Hu. destruct (distance j before - range_len r =? 0); inversion H; subst; auto.
Qed.
Lemma fwd_take_until_range r : fwd (@take_until_range C r).
Proof.
  apply fwd_mk_mode. intros first i tc x i' st' H. unfold take_until_range_run in H.
  destruct (s_uncons_range i tc) as [r0 j] eqn:Hs. apply adv_s_uncons_range in Hs.
  destruct r0; try (inversion H; subst; auto; fail); eapply adv_tur_loop; eauto.
Qed.
Lemma fwd_take_fn s : fwd (@take_fn C s).
Proof.
  apply fwd_mk_mode. intros first i off r i' st' H. unfold take_fn_run in H.
  destruct (s _) as [k|next].
  - destruct (s_uncons_range i _) as [r0 j] eqn:Hs. apply adv_s_uncons_range in Hs. inversion H; subst; auto.
  - match type of H with (if ?b then _ else _) = _ => destruct b end; inversion H; subst; apply adv_refl.
Qed.
Lemma fwd_length_prefix {S A} (len : parser C S A) f : fwd len -> fwd (length_prefix len f).
Proof. intros F. apply fwd_parser_fn0. apply fwd_then; [apply fwd_and_then; auto|]. intros a. apply fwd_take. Qed.

(** ** function parsers, bytes, numbers *)
Lemma fwd_fn_parser {A} (f : input C -> outcome (std_result A E * input C)) :
  (forall i x i', f i = Done (x, i') -> advanced i i') -> fwd (fn_parser f).
Proof. intros F. apply fwd_mk_lazy. intros i r i' H. peel H. destruct x as [x j]. inversion H; subst. eauto. Qed.
Lemma adv_read_tokens : forall k i r i', read_tokens (C:=C) k i = (r, i') -> advanced i i'.
Proof.
  induction k as [|k IH]; simpl; intros i r i' H. { inversion H; subst; apply adv_refl. }
  destruct (s_uncons i) as [r0 j] eqn:Hu. apply adv_s_uncons in Hu. destruct r0.
  - destruct (read_tokens k j) as [r1 j1] eqn:Hr. inversion H; subst. eauto using adv_trans.
  - destruct (read_tokens k j) as [r1 j1] eqn:Hr. inversion H; subst. eauto using adv_trans.
  - inversion H; subst; auto.
  - inversion H; subst; auto.
Qed.
Lemma fwd_num_parser {A} (code : T -> N) k (d : list N -> A) : fwd (num_parser code k d).
Proof.
  apply fwd_fn_parser. intros i x i' H. destruct (read_tokens k i) as [r j] eqn:Hr. apply adv_read_tokens in Hr.
  destruct r; inversion H; subst; auto; apply adv_refl.
Qed.
Lemma fwd_byte_class (code : T -> N) f name : fwd (byte_class code f name).
Proof. apply fwd_expected, fwd_satisfy. Qed.
Lemma fwd_b_spaces (code : T -> N) : fwd (b_spaces code).
Proof. apply fwd_expected, fwd_skip_many, fwd_byte_class. Qed.
Lemma fwd_b_crlf (code : T -> N) : fwd (b_crlf code).
Proof. apply fwd_expected, fwd_no_partial, fwd_with; [apply fwd_satisfy|apply fwd_byte_class]. Qed.
Lemma fwd_bytes_cmp s cmp : fwd (@bytes_cmp C s cmp).
Proof. apply fwd_parser_fn0, fwd_expected, fwd_map, fwd_tokens_cmp. Qed.
Lemma fwd_bytes s : fwd (@bytes C s).
Proof. apply fwd_parser_fn0, fwd_bytes_cmp. Qed.
Lemma fwd_string_cmp text s cmp : fwd (@string_cmp C text s cmp).
Proof. apply fwd_expected, fwd_map, fwd_tokens_cmp. Qed.
Lemma fwd_take_until_byte_by (as_bytes : list T -> list N) f : fwd (take_until_byte_by as_bytes f).
Proof. apply fwd_parser_fn, fwd_take_fn. Qed.
Lemma fwd_take_until_bytes (as_bytes : list T -> list N) needle : fwd (take_until_bytes as_bytes needle).
Proof. apply fwd_parser_fn, fwd_take_fn. Qed.

(** Entry points. *)
Lemma fwd_parse {S A} (p : parser C S A) (F : fwd p) i x i' : parse p i = Done (x, i') -> advanced i i'.
Proof. unfold parse. intros H. peel H. destruct x0 as [r j]. inversion H; subst. eapply (fwd_stream _ F); eauto. Qed.
Lemma fwd_parse_with_state {S A} (p : parser C S A) (F : fwd p) i st x i' st' :
  parse_with_state p i st = Done (x, i', st') -> advanced i i'.
Proof.
  unfold parse_with_state, parse_stream_partial. intros H. peel H. peel Hx. destruct x1 as [[r j] s]. apply (fwd_run _ F) in Hx0.
  destruct r; simpl in Hx; inversion Hx; subst; inversion H; subst; auto. apply adv_refl.
Qed.

End Fwd.

From Verif Require Import LibSpec.
Section Closure.
Context {C : Cfg}.
Hint Resolve fwd_any fwd_satisfy fwd_satisfy_map fwd_token fwd_one_of fwd_none_of fwd_tokens fwd_tokens_cmp fwd_position
  fwd_value fwd_produce fwd_unexpected_any fwd_eof fwd_take fwd_range fwd_take_while fwd_take_while1 fwd_take_until_range
  fwd_take_fn fwd_fn_parser fwd_num_parser fwd_message fwd_expected fwd_silent fwd_not_followed_by fwd_attempt fwd_look_ahead
  fwd_map fwd_map_input fwd_flat_map fwd_and_then fwd_from_str fwd_recognize fwd_no_partial fwd_ignore fwd_any_partial_state
  fwd_lazy_ fwd_factory fwd_opaque fwd_spanned fwd_by_ref fwd_parser_fn fwd_parser_fn0 fwd_optional fwd_tuple fwd_with
  fwd_skip fwd_then fwd_then_ref fwd_choice fwd_or fwd_choice_slice fwd_count_min_max fwd_many fwd_many1 fwd_sep_by fwd_sep_by1
  fwd_dispatch_here fwd_dispatch_later fwd_input_converter fwd_sep_end_by fwd_sep_end_by1 fwd_chainl1 fwd_chainr1 fwd_take_until fwd_repeat_until fwd_escaped fwd_iterate
  fwd_recognize_with_value : fwd.

Lemma lib_fwd : forall S A (p : parser C S A), lib p -> fwd p.
Proof.
  apply (lib_mut (C:=C) (fun S A p => fwd p) (fun SS B t => tup_fwd t) (fun A SS t => alts_fwd t) (fun S A l => Forall (fun p => fwd p) l));
    intros; simpl; auto with fwd.
  - apply fwd_either. auto.
  - apply fwd_either. auto.
Qed.
End Closure.
