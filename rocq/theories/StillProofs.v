(** C27. *)
From Coq Require Import String List Bool Arith NArith Lia.
Import ListNotations.
From Verif Require Import Base Parser Token Combinator Sequence Choice Repeat RangeP ByteP Spec StillSpec ForwardProofs.
Unset Implicit Arguments.

Ltac peel H :=
  match type of H with
  | omap _ ?e = Done _ => let x := fresh "x" in let Hx := fresh "Hx" in destruct e as [x| |] eqn:Hx; simpl in H; try discriminate H
  | obind ?e _ = Done _ => let x := fresh "x" in let Hx := fresh "Hx" in destruct e as [x| |] eqn:Hx; simpl in H; try discriminate H
  end.

Section Still.
Context {C : Cfg} (L : lawful C).
Notation T := (tok C).
Notation E := (Err C).

Definition run_still {S A} (run : bool -> input C -> S -> outcome (PR A E * input C * S)) : Prop :=
  forall first i st a i' st', run first i st = Done (PeekOk a, i', st') -> i' = i.
Definition lz_still {A} (lz : input C -> outcome (PR A E * input C)) : Prop := forall i a i', lz i = Done (PeekOk a, i') -> i' = i.

Record stl {S A} (p : parser C S A) : Prop := {
  stl_run : run_still (p_run p);
  stl_cmode : run_still (p_cmode p);
  stl_lazy : lz_still (p_lazy p);
  stl_stream : lz_still (p_stream p)
}.

Lemma stl_default_lazy {S A} (init : S) (run : bool -> input C -> S -> outcome (PR A E * input C * S)) :
  run_still run -> lz_still (default_lazy init run).
Proof.
  intros H i a i' Hd. unfold default_lazy in Hd. destruct (run true i init) as [[[r0 j] s]| |] eqn:Hr; simpl in Hd; try discriminate.
  destruct r0; inversion Hd; subst. eapply H; eauto.
Qed.
Lemma stl_default_cmode {S A} (run : bool -> input C -> S -> outcome (PR A E * input C * S)) adderr :
  run_still run -> run_still (default_cmode run adderr).
Proof.
  intros H first i st r i' st' Hd. unfold default_cmode in Hd. destruct (run first i st) as [[[r0 j] s]| |] eqn:Hr; simpl in Hd; try discriminate.
  destruct r0; simpl in Hd; inversion Hd; subst. eapply H; eauto.
Qed.
Lemma stl_default_stream {S A} (init : S) (run : bool -> input C -> S -> outcome (PR A E * input C * S)) adderr :
  run_still run -> lz_still (default_stream init run adderr).
Proof.
  intros H i r i' Hd. unfold default_stream in Hd. destruct (run true i init) as [[[r0 j] s]| |] eqn:Hr; simpl in Hd; try discriminate.
  destruct r0; simpl in Hd; inversion Hd; subst. eapply H; eauto.
Qed.
Lemma stl_mk_mode {S A} (init : S) (run : bool -> input C -> S -> outcome (PR A E * input C * S)) a b n :
  run_still run -> stl (mk_mode init run a b n).
Proof.
  intros H. constructor; simpl; auto.
  - exact (stl_default_cmode run a H).
  - exact (stl_default_lazy init run H).
  - exact (stl_default_stream init run a H).
Qed.
Lemma stl_mk_both {S A} (init : S) (run : bool -> input C -> S -> outcome (PR A E * input C * S)) lz a b n :
  run_still run -> lz_still lz -> stl (mk_both init run lz a b n).
Proof.
  intros H H2. constructor; simpl; auto.
  - exact (stl_default_cmode run a H).
  - exact (stl_default_stream init run a H).
Qed.
Lemma run_still_lazy {A} (lz : input C -> outcome (PR A E * input C)) : lz_still lz -> run_still (lazy_run lz).
Proof.
  intros H first i st r i' st' Hr. unfold lazy_run in Hr. destruct (lz i) as [[r0 j]| |] eqn:Hl; simpl in Hr; try discriminate.
  inversion Hr; subst. eauto.
Qed.
Lemma stl_mk_lazy {A} (lz : input C -> outcome (PR A E * input C)) a b n : lz_still lz -> stl (mk_lazy lz a b n).
Proof.
  intros H. pose proof (run_still_lazy lz H) as Hr. constructor; simpl; auto.
  - exact (stl_default_cmode _ a Hr).
  - exact (stl_default_stream tt _ a Hr).
Qed.

(** ** streams *)
Lemma still_wrap {A} i (e : SErr C) (a : A) : wrap_stream_error i e <> PeekOk a.
Proof. unfold wrap_stream_error. destruct (ipart i); discriminate. Qed.
Lemma still_s_uncons (i : input C) a i' : s_uncons i <> (PeekOk a, i').
Proof. unfold s_uncons. destruct (uncons i) as [[t|] j]; intros H; inversion H. eapply still_wrap; eauto. Qed.
Lemma advance_nil (i : input C) r : rest i = r -> advance i [] r = i.
Proof. destruct i. simpl. intros ->. reflexivity. Qed.
Lemma split_width_0 (l : list T) : split_width (C:=C) 0 l = inl ([], l).
Proof. destruct l; reflexivity. Qed.
Lemma still_uncons_range (i : input C) : uncons_range 0 i = (inl [], i).
Proof. unfold uncons_range. rewrite split_width_0. f_equal. apply advance_nil. reflexivity. Qed.
Lemma still_s_uncons_range (i : input C) n a i' : s_uncons_range i n = (PeekOk a, i') -> i' = i.
Proof.
  unfold s_uncons_range. destruct (uncons_range n i) as [[x|e] j] eqn:Hu.
  - destruct (n =? 0) eqn:Hn; intros H; inversion H; subst. apply Nat.eqb_eq in Hn. subst. rewrite still_uncons_range in Hu. congruence.
  - intros H; inversion H. exfalso; eapply still_wrap; eauto.
Qed.
Lemma range_len_0 (l : list T) : range_len l = 0 -> l = [].
Proof. destruct l as [|t l]; auto. simpl. pose proof (law_width L t). intros. exfalso. lia. Qed.
Lemma still_s_uncons_while (i : input C) f a i' : s_uncons_while i f = (PeekOk a, i') -> i' = i.
Proof.
  unfold s_uncons_while, m_uncons_while. destruct (span_while f (rest i)) as [x y] eqn:Hs. apply span_while_app in Hs.
  match goal with |- (if ?c then _ else _) = _ -> _ => destruct c end; [intros H; discriminate|].
  destruct (range_len x =? 0) eqn:Hl; intros H; inversion H; subst. apply Nat.eqb_eq in Hl. apply range_len_0 in Hl. subst.
  apply advance_nil. auto.
Qed.
Lemma still_s_uncons_while1 (i : input C) f a i' : s_uncons_while1 i f <> (PeekOk a, i').
Proof. unfold s_uncons_while1. destruct (m_uncons_while1 f i) as [[x|] j]; destruct (ipart j && input_at_eof j); discriminate. Qed.

(** ** token parsers *)
Lemma stl_satisfy_impl {R} (f : T -> option R) : lz_still (satisfy_impl f).
Proof.
  intros i r i' H. unfold satisfy_impl in H. destruct (s_uncons i) as [r0 j] eqn:Hu.
  destruct r0 as [t|t|e|e]; try (destruct (f t)); inversion H.
Qed.
Lemma stl_any : stl (@any C).
Proof. apply stl_mk_lazy. intros i r i' H. inversion H as [H1]. exfalso. eapply still_s_uncons; eauto. Qed.
Lemma stl_satisfy f : stl (@satisfy C f). Proof. apply stl_mk_lazy, stl_satisfy_impl. Qed.
Lemma stl_satisfy_map {R} (f : T -> option R) : stl (satisfy_map f). Proof. apply stl_mk_lazy, stl_satisfy_impl. Qed.
Lemma stl_token c : stl (@token C c). Proof. apply stl_mk_lazy, stl_satisfy_impl. Qed.
Lemma stl_one_of l : stl (@one_of C l). Proof. apply stl_mk_lazy, stl_satisfy_impl. Qed.
Lemma stl_none_of l : stl (@none_of C l). Proof. apply stl_mk_lazy, stl_satisfy_impl. Qed.
Lemma stl_tokens_loop {X} (cmp : X -> T -> bool) om start : forall l c i a i',
  tokens_loop cmp om start c l i = (PeekOk a, i') -> c = false /\ i' = i.
Proof.
  induction l as [|x l IH]; intros c i a i' H; simpl in H.
  - destruct c; inversion H; subst. auto.
  - destruct (s_uncons i) as [r0 j] eqn:Hu. destruct r0 as [t|t|e|e].
    + destruct (cmp x t); [|destruct c; discriminate]. apply IH in H. destruct H; discriminate.
    + exfalso. eapply still_s_uncons; eauto.
    + discriminate.
    + destruct c; discriminate.
Qed.
Lemma stl_tokens {X} (cmp : X -> T -> bool) exp l : stl (tokens cmp exp l).
Proof.
  apply stl_mk_lazy. intros i r i' H. match type of H with context [tokens_loop ?a ?b ?c ?d ?e ?f] => destruct (tokens_loop a b c d e f) as [r0 j] eqn:Hl end.
  destruct r0; inversion H; subst. eapply stl_tokens_loop; eauto.
Qed.
Lemma stl_tokens_cmp {X} (cmp : X -> T -> bool) l : stl (tokens_cmp l cmp).
Proof.
  apply stl_mk_lazy. intros i r i' H. match type of H with context [tokens_loop ?a ?b ?c ?d ?e ?f] => destruct (tokens_loop a b c d e f) as [r0 j] eqn:Hl end.
  destruct r0; inversion H; subst. eapply stl_tokens_loop; eauto.
Qed.
Lemma stl_const {A} (f : input C -> PR A E) a b n : stl (mk_lazy (fun i => Done (f i, i)) a b n).
Proof. apply stl_mk_lazy. intros i r i' H. inversion H; subst. auto. Qed.
Lemma stl_position : stl (@position C). Proof. apply (stl_const (fun i => PeekOk (ipos i))). Qed.
Lemma stl_value {A} (v : A) : stl (@value C A v). Proof. apply (stl_const (fun i => PeekOk v)). Qed.
Lemma stl_produce {A} (f : unit -> A) : stl (@produce C A f). Proof. apply (stl_const (fun i => PeekOk (f tt))). Qed.
Lemma stl_unexpected_any {A} msg : stl (@unexpected_any C A msg).
Proof. apply (stl_const (fun i => PeekErr (to_trk (e_empty C (ipos i))))). Qed.
Lemma stl_eof : stl (@eof C).
Proof.
  apply stl_mk_lazy. intros i r i' H. unfold uncons in H. destruct (rest i) as [|t l]; [|discriminate].
  destruct (se_is_eoi C (se_eoi C)); inversion H; subst; auto.
Qed.

(** ** combinators *)
Section Unary.
Context {S A : Type} (p : parser C S A) (F : stl p).

Lemma run_still_map_result {B} (g : PR A E -> PR B E) : (forall r b, g r = PeekOk b -> exists a, r = PeekOk a) ->
  run_still (fun first i st => omap (fun x => match x with (r, i', s') => (g r, i', s') end) (p_run p first i st)).
Proof.
  intros Hg first i st r i' st' H. peel H. destruct x as [[r0 j] s]. injection H as H1 H2 H3. apply Hg in H1. destruct H1 as [a ->]. subst.
  eapply (stl_run _ F); eauto.
Qed.
Lemma pr_map_peek {X Y} (f : X -> Y) (r : PR X E) b : pr_map f r = PeekOk b -> exists a, r = PeekOk a.
Proof. destruct r; simpl; intros H; inversion H; eauto. Qed.
Lemma pr_map_err_peek {X} (f : E -> E) (r : PR X E) b : pr_map_err f r = PeekOk b -> exists a, r = PeekOk a.
Proof. destruct r; simpl; intros H; inversion H; eauto. Qed.

Lemma stl_message msg : stl (message p msg).
Proof.
  apply stl_mk_mode. intros first i st r i' st' H. peel H. destruct x as [[r0 j] s].
  destruct r0; inversion H; subst. eapply (stl_run _ F); eauto.
Qed.
Lemma stl_expected x : stl (expected p x). Proof. apply stl_mk_mode. exact (stl_run _ F). Qed.
Lemma stl_silent : stl (silent p). Proof. apply stl_mk_mode, run_still_map_result. intros. eapply pr_map_err_peek; eauto. Qed.
Lemma stl_not_followed_by : stl (not_followed_by p).
Proof. apply stl_mk_mode. intros first i st r i' st' H. peel H. destruct x as [[r0 j] s]. inversion H; subst. auto. Qed.
Lemma run_still_attempt : run_still (attempt_run p).
Proof.
  intros first i st r i' st' H. unfold attempt_run in H. peel H. destruct x as [[r0 j] s].
  destruct r0 as [a|a|e|e]; try (inversion H; subst; auto; fail). { inversion H; subst. eapply (stl_cmode _ F); eauto. }
  destruct (ipart j && e_is_eoi C e); inversion H.
Qed.
Lemma stl_attempt : stl (attempt p).
Proof.
  constructor; simpl.
  - exact run_still_attempt.
  - exact run_still_attempt.
  - exact (stl_default_lazy _ _ run_still_attempt).
  - exact (stl_default_lazy _ _ run_still_attempt).
Qed.
Lemma stl_look_ahead : stl (look_ahead p).
Proof. apply stl_mk_lazy. intros i r i' H. peel H. destruct x as [r0 j]. destruct r0; inversion H; subst; auto. Qed.
Lemma stl_map {B} (f : A -> B) : stl (map p f). Proof. apply stl_mk_mode. apply run_still_map_result. intros. eapply pr_map_peek; eauto. Qed.
Lemma stl_map_input {B} (f : A -> input C -> B * input C) : (forall a i, snd (f a i) = i) -> stl (map_input p f).
Proof.
  intros Hf. apply stl_mk_mode. intros first i st r i' st' H. peel H. destruct x as [[r0 j] s].
  destruct r0 as [a|a|e|e]; try discriminate; specialize (Hf a j); destruct (f a j) as [b i2]; simpl in Hf; inversion H; subst.
  eapply (stl_run _ F); eauto.
Qed.
Lemma stl_flat_map {B} (f : A -> B + E) : stl (flat_map p f).
Proof.
  apply stl_mk_mode. intros first i st r i' st' H. peel H. destruct x as [[r0 j] s].
  destruct r0 as [a|a|e|e]; try (destruct (f a)); inversion H; subst. eapply (stl_run _ F); eauto.
Qed.
Lemma run_still_and_then {B} (f : A -> B + SErr C) : run_still (p_run (and_then p f)).
Proof.
  intros first i st r i' st' H. simpl in H. peel H. destruct x as [[r0 j] s].
  destruct r0 as [a|a|e|e]; try (inversion H; subst; auto; fail); destruct (f a) as [b|se]; try (inversion H; subst; eapply (stl_run _ F); eauto; fail);
    destruct (ipart j && input_at_eof j); inversion H.
Qed.
Lemma stl_and_then {B} (f : A -> B + SErr C) : stl (and_then p f).
Proof. apply stl_mk_mode. exact (run_still_and_then f). Qed.
Lemma stl_from_str {B} (f : A -> option (B + string)) : stl (from_str p f).
Proof. apply stl_mk_mode. apply run_still_and_then. Qed.
Lemma stl_recognize : stl (recognize p).
Proof.
  apply stl_mk_mode. intros first i [el child] r i' st' H. unfold recognize_run in H. peel H. destruct x as [[r0 j] s].
  destruct (replay (ipos j) (rest i) (ipos i)) as [[[a l'] p'] ok] eqn:Hr.
  destruct r0; [destruct ok|destruct ok| |]; try discriminate.
  apply (stl_run _ F) in Hx. subst j.
  assert (Hq : replay (C:=C) (ipos i) (rest i) (ipos i) = ([], rest i, ipos i, true)).
  { destruct (rest i); simpl; rewrite (proj2 (law_pos L _ _) eq_refl); reflexivity. }
  rewrite Hq in Hr. inversion Hr; subst. inversion H; subst. destruct i; reflexivity.
Qed.
Lemma stl_no_partial : stl (no_partial p).
Proof.
  apply stl_mk_both; [|exact (stl_lazy _ F)].
  intros first i st r i' st' H. peel H. destruct x as [r0 j]. inversion H; subst. eapply (stl_lazy _ F); eauto.
Qed.
Lemma stl_ignore : stl (ignore p).
Proof.
  apply stl_mk_both; [apply run_still_map_result; intros; eapply pr_map_peek; eauto|]. intros i r i' H. peel H. destruct x as [r0 j].
  destruct r0; inversion H; subst. eapply (stl_lazy _ F); eauto.
Qed.
Lemma stl_any_partial_state : stl (any_partial_state p).
Proof.
  apply stl_mk_both; [|exact (stl_lazy _ F)]. intros first i [s|] r i' st' H; unfold any_partial_run in H; peel H;
    destruct x as [[r0 j] s1]; inversion H; subst; eapply (stl_run _ F); eauto.
Qed.
Lemma stl_lazy_ : stl (lazy p).
Proof. constructor; simpl; try exact (stl_run _ F). exact (stl_lazy _ F). exact (stl_stream _ F). Qed.
Lemma stl_factory : stl (factory p). Proof. apply stl_mk_mode. exact (stl_run _ F). Qed.
Lemma stl_opaque : stl (opaque p).
Proof.
  constructor; simpl.
  - exact (stl_run _ F).
  - exact (stl_default_cmode _ _ (stl_run _ F)).
  - exact (stl_lazy _ F).
  - exact (stl_stream _ F).
Qed.
Lemma stl_spanned {Q} (q_eqb : Q -> Q -> bool) sp_start sp_end mk_span : stl (spanned q_eqb sp_start sp_end mk_span p).
Proof.
  apply stl_mk_mode. intros first i st r i' st' H. peel H. destruct x as [[r0 j] s]. destruct r0; inversion H; subst. eapply (stl_run _ F); eauto.
Qed.
Lemma stl_by_ref : stl (by_ref p). Proof. apply stl_mk_mode. exact (stl_run _ F). Qed.
Lemma stl_parser_fn : stl (parser_fn p). Proof. apply stl_mk_mode. exact (stl_run _ F). Qed.
Lemma stl_parser_fn0 : stl (parser_fn0 p).
Proof.
  apply stl_mk_mode. intros first i st r i' st' H. peel H. destruct x as [[r0 j] s]. inversion H; subst. eapply (stl_run _ F); eauto.
Qed.
Lemma stl_optional : stl (optional p).
Proof.
  apply stl_mk_mode. intros first i st r i' st' H. peel H. destruct x as [[r0 j] s].
  destruct r0; inversion H; subst; auto. eapply (stl_run _ F); eauto.
Qed.
Lemma stl_left {S2} : stl (@either C S S2 A (inl p)).
Proof.
  apply stl_mk_both; [|exact (stl_lazy _ F)]. intros first i st r i' st' H. unfold either_run in H. peel H. destruct x as [[r0 j] s].
  inversion H; subst. eapply (stl_run _ F); eauto.
Qed.
Lemma stl_right {S2} : stl (@either C S2 S A (inr p)).
Proof.
  apply stl_mk_both; [|exact (stl_lazy _ F)]. intros first i st r i' st' H. unfold either_run in H. peel H. destruct x as [[r0 j] s].
  inversion H; subst. eapply (stl_run _ F); eauto.
Qed.
Lemma stl_dispatch_here {SS} : stl (dispatch (@DC C A S SS p)).
Proof.
  apply stl_mk_mode. intros first i st r i' st' H. cbn [disp_run] in H. peel H. destruct x as [[r0 j] s].
  inversion H; subst. eapply (stl_run _ F); eauto.
Qed.
Lemma stl_recognize_with_value : stl (recognize_with_value p).
Proof.
  apply stl_mk_mode. intros first i [d child] r i' st' H. unfold recognize_with_value_run in H. peel H. peel H.
  destruct x0 as [[r0 j] s]. destruct r0; try discriminate;
    (destruct (s_uncons_range i (distance j i)) as [r2 i3] eqn:Hu; destruct r2; inversion H; subst; eapply still_s_uncons_range; eauto).
Qed.
End Unary.
Lemma stl_dispatch_later {S SS A} (d : disp (C:=C) A SS) : stl (dispatch d) -> stl (dispatch (@DN C A S SS d)).
Proof.
  intros F. apply stl_mk_mode. intros first i st r i' st' H. cbn [disp_run] in H. peel H. destruct x as [[r0 j] s].
  inversion H; subst. eapply (stl_run _ F); eauto.
Qed.

Lemma stl_fn_parser {A} (f : input C -> outcome (std_result A E * input C)) : fn_still f -> stl (fn_parser f).
Proof.
  intros Hf. apply stl_mk_lazy. intros i r i' H. peel H. destruct x as [r0 j]. simpl in H. inversion H; subst.
  destruct r0 as [[a [[]|[]]]|[e|e]]; simpl in *; try discriminate. eapply Hf; eauto.
Qed.
Lemma stl_num_parser {A} code k (d : list N -> A) : stl (@num_parser C code A k d).
Proof.
  apply stl_fn_parser. intros i a i' H. destruct (read_tokens k i) as [r j]. destruct r; inversion H.
Qed.

(** ** sequences *)
Fixpoint tup_stl {SS B} (t : tup (C:=C) SS B) : Prop :=
  match t with T1 p => stl p | TC p r => stl p /\ tup_stl r end.
Lemma stl_seq_elem {S A} (p : parser C S A) (F : stl p) first cur fep i st off f c i' st' off' :
  seq_elem p first cur fep i st off = Done (KOk f c 0, i', st', off') -> fep = 0 /\ i' = i.
Proof.
  unfold seq_elem. destruct st as [v s]. destruct (first || is_none v).
  - intros H. peel H. destruct x as [[r0 j] s1]. destruct r0; inversion H; subst; try lia. split; auto. eapply (stl_run _ F); eauto.
  - intros H. inversion H; subst. auto.
Qed.
Lemma stl_seq_head {S A} (p : parser C S A) (F : stl p) first i st off f c i' st' off' :
  seq_head p first i st off = Done (KOk f c 0, i', st', off') -> i' = i.
Proof.
  unfold seq_head. destruct st as [v s]. destruct (first || is_none v).
  - intros H. peel H. destruct x as [[r0 j] s1]. destruct r0; inversion H; subst. eapply (stl_run _ F); eauto.
  - intros H. inversion H; subst. auto.
Qed.
Lemma stl_seq_rest {SS B} (t : tup (C:=C) SS B) : tup_stl t -> forall first cur fep i st off f c i' st' off',
  seq_rest t first cur fep i st off = Done (KOk f c 0, i', st', off') -> fep = 0 /\ i' = i.
Proof.
  induction t as [S A p|S A SS B p r IH]; simpl; intros F first cur fep i st off f c i' st' off' H.
  - eapply stl_seq_elem; eauto.
  - destruct F as [F1 F2]. peel H. destruct x as [[[k1 j] s1] o1]. destruct k1; try discriminate. peel H.
    destruct x as [[[k2 j2] s2] o2]. inversion H; subst. apply IH in Hx0; auto. destruct Hx0; subst. eapply stl_seq_elem; eauto.
Qed.
Lemma stl_tuple {SS B} (t : tup (C:=C) SS B) : tup_stl t -> stl (tuple t).
Proof.
  intros F. apply stl_mk_mode. intros first i st r i' st' H. unfold tuple_run in H. peel H.
  destruct x as [[[k j] s1] o1]. destruct k as [f c n|e|e|e n]; try discriminate.
  - destruct (tup_take t s1) as [[b s2]|]; try discriminate. destruct (n =? 0) eqn:Hn; inversion H; subst.
    apply Nat.eqb_eq in Hn. subst. destruct t as [S A p|S A SS B p r0]; simpl in *.
    + eapply stl_seq_head; eauto.
    + destruct F as [F1 F2]. peel Hx. destruct x as [[[k1 j1] s0] o]. destruct k1; try discriminate. peel Hx.
      destruct x as [[[k2 j2] s3] o2]. inversion Hx; subst. apply stl_seq_rest in Hx1; auto. destruct Hx1; subst. eapply stl_seq_head; eauto.
  - unfold add_errors in H. destruct (n =? 0); [|destruct (uncons j) as [[t0|] j2]]; inversion H.
Qed.
Lemma stl_pair2 {S1 A S2 B} (p : parser C S1 A) (q : parser C S2 B) : stl p -> stl q -> stl (pair2 p q).
Proof. intros. apply stl_tuple. simpl. auto. Qed.
Lemma stl_with {S1 A S2 B} (p : parser C S1 A) (q : parser C S2 B) : stl p -> stl q -> stl (with_ p q).
Proof.
  intros Fp Fq. pose proof (stl_pair2 (ignore p) q (stl_ignore p Fp) Fq) as F. apply stl_mk_both.
  - apply (run_still_map_result _ F). intros. eapply pr_map_peek; eauto.
  - intros i r i' H. peel H. destruct x as [r0 j]. destruct r0; inversion H; subst. eapply (stl_lazy _ F); eauto.
Qed.
Lemma stl_skip {S1 A S2 B} (p : parser C S1 A) (q : parser C S2 B) : stl p -> stl q -> stl (skip p q).
Proof.
  intros Fp Fq. pose proof (stl_pair2 p (ignore q) Fp (stl_ignore q Fq)) as F. apply stl_mk_mode.
  apply (run_still_map_result _ F). intros. eapply pr_map_peek; eauto.
Qed.
Lemma stl_then {S1 A S2 B} (p : parser C S1 A) (s0 : S2) (f : A -> parser C S2 B) :
  stl p -> (forall a, stl (f a)) -> stl (then_ p s0 f).
Proof.
  intros Fp Ff. apply stl_mk_mode. intros first i [[sp cache] sn] r i' st' H. unfold then_run in H.
  assert (Hfin : forall c (sp' : S1) (cache' : option (bool * A)) a first' j y, p_cmode (f a) first' j sn = Done y ->
    forall r i' st', then_finish c sp' cache' y = (PeekOk r, i', st') -> c = false /\ i' = j).
  { intros c sp' cache' a first' j [[r0 j2] s2] Hc r1 i1 st1 Hq. unfold then_finish in Hq.
    destruct r0; try (destruct c); inversion Hq; subst; auto. split; auto. eapply (stl_cmode _ (Ff a)); eauto. }
  destruct (first || is_none cache).
  - destruct (dbg C && negb (is_none cache)); try discriminate. peel H. destruct x as [[r0 j] s1].
    destruct r0 as [a|a|e|e]; try discriminate; peel H; inversion H as [H1]; eapply Hfin in H1; eauto.
    + destruct H1; discriminate.
    + destruct H1 as [_ ->]. eapply (stl_run _ Fp); eauto.
  - destruct cache as [[c a]|]; try discriminate. peel H. inversion H as [H1]. eapply Hfin in H1; eauto. tauto.
Qed.
Lemma stl_then_ref {S1 A S2 B} (p : parser C S1 A) (s0 : S2) (f : A -> parser C S2 B) :
  stl p -> (forall a, stl (f a)) -> stl (then_ref p s0 f).
Proof.
  intros Fp Ff. apply stl_then; auto. intros a. constructor; simpl.
  - apply (run_still_map_result _ (Ff a)). intros. eapply pr_map_peek; eauto.
  - intros first i st r i' st' H. peel H. destruct x as [[r0 j] s]. destruct r0; inversion H; subst. eapply (stl_cmode _ (Ff a)); eauto.
  - intros i r i' H. peel H. destruct x as [r0 j]. destruct r0; inversion H; subst. eapply (stl_lazy _ (Ff a)); eauto.
  - intros i r i' H. peel H. destruct x as [r0 j]. destruct r0; inversion H; subst. eapply (stl_stream _ (Ff a)); eauto.
Qed.

(** ** choices *)
Fixpoint alts_stl {A SS} (t : alts (C:=C) A SS) : Prop :=
  match t with AL p => stl p | AC p r => stl p /\ alts_stl r end.
Lemma stl_try_one {S A} (p : parser C S A) (F : stl p) i a i' st : try_one p i = Done (TEnd (PeekOk a) i' st) -> i' = i.
Proof.
  unfold try_one. intros H. peel H. destruct x as [[r0 j] s]. destruct r0; inversion H; subst. eapply (stl_run _ F); eauto.
Qed.
Lemma stl_choice_try {A SS} (t : alts (C:=C) A SS) : alts_stl t -> forall i a i' st, choice_try t i = Done (TEnd (PeekOk a) i' st) -> i' = i.
Proof.
  induction t as [S p|S SS p q IH]; simpl; intros F i r i' st H.
  - eapply stl_try_one; eauto.
  - destruct F as [F1 F2]. peel H. destruct x as [r0 j s|errs].
    + inversion H; subst. eapply stl_try_one; eauto.
    + peel H. destruct x as [r1 j s|errs']; inversion H; subst. eapply IH; eauto.
Qed.
Lemma stl_choice_resume {A SS} (t : alts (C:=C) A SS) : alts_stl t -> forall first i st r i' st',
  choice_resume t first i st = Done (PeekOk r, i', st') -> i' = i.
Proof.
  induction t as [S p|S SS p q IH]; simpl; intros F first i st r i' st' H.
  - eapply (stl_run _ F); eauto.
  - destruct F as [F1 F2]. destruct st as [s|s]; peel H; destruct x as [[r0 j] s1]; inversion H; subst.
    + eapply (stl_run _ F1); eauto.
    + eapply IH; eauto.
Qed.
Lemma run_still_choice {A SS} (t : alts (C:=C) A SS) : alts_stl t -> run_still (choice_run t).
Proof.
  intros F first i st r i' st' H. unfold choice_run in H.
  assert (Htry : obind (choice_try t i) (fun x => match x with
      | TEnd r i' s' => Done (r, i', match s' with Some s => Some s | None => st end)
      | TFail errs => match choice_error errs (alts_adderr t) with
                      | Some e => Done (PeekErr e, i, st)
                      | None => Panic
                      end
      end) = Done (PeekOk r, i', st') -> i' = i).
  { intros H0. peel H0. destruct x as [r0 j s|errs].
    - inversion H0; subst. eapply stl_choice_try; eauto.
    - destruct (choice_error errs (alts_adderr t)); inversion H0. }
  destruct first; auto. destruct st as [s|]; auto. peel H. destruct x as [[r0 j] s1]. inversion H; subst. eapply stl_choice_resume; eauto.
Qed.
Lemma stl_choice {A SS} (t : alts (C:=C) A SS) : alts_stl t -> stl (choice t).
Proof. intros F. apply stl_mk_mode. apply run_still_choice. auto. Qed.
Lemma stl_or {S1 S2 A} (p : parser C S1 A) (q : parser C S2 A) : stl p -> stl q -> stl (or_ p q).
Proof. intros. apply stl_mk_mode. apply run_still_choice. simpl. auto. Qed.
Lemma stl_slice_loop {S A} all before (l : list (parser C S A)) : Forall (fun p => stl p) l ->
  forall first i last prev idx st cur r i' st',
  slice_loop all before first i last prev l idx st cur = Done (PeekOk r, i', st') -> i' = before.
Proof.
  induction 1 as [|p l F Fl IH]; simpl; intros first i last prev idx st cur r i' st' H; try discriminate.
  peel H. destruct x as [[r0 j] s]. destruct r0 as [a|a|e|e]; try (inversion H; subst; eapply (stl_run _ F); eauto; fail).
  destruct (slice_merge all i last prev e) as [prev' last']. eapply IH; exact H.
Qed.
Lemma stl_choice_slice {S A} (s0 : S) (ps : list (parser C S A)) : Forall (fun p => stl p) ps -> stl (choice_slice s0 ps).
Proof.
  intros F. apply stl_mk_mode. intros first i [idx child] r i' st' H. unfold slice_run in H.
  destruct (negb first && negb (idx =? 0)).
  - destruct (nth_error ps (idx - 1)) as [p|] eqn:Hn; try discriminate. peel H. destruct x as [[r0 j] s]. inversion H; subst.
    rewrite Forall_forall in F. eapply (stl_run _ (F _ (nth_error_In _ _ Hn))); eauto.
  - eapply stl_slice_loop; eauto.
Qed.

(** ** repetition *)
Definition quiet (is : iter_state (C:=C)) : Prop := match is with ISCommit _ => False | _ => True end.
Lemma quiet_fast {A} (el : list A) is c a left : into_result_fast (C:=C) el is c = (PeekOk a, left) -> c = false /\ quiet is.
Proof. unfold into_result_fast, quiet. destruct is; try destruct c; intros H; inversion H; auto. Qed.
Section Rep.
Context {S A : Type} (p : parser C S A) (F : stl p).

Lemma stl_iter_all n : forall first c i st l is i' st',
  iter_all n p first c i st = Done (l, is, false, i', st') -> quiet is -> c = false /\ i' = i.
Proof.
  induction n as [|n IH]; simpl; intros first c i st l is i' st' H Q; try discriminate.
  peel H. destruct x as [[r0 j] s]. destruct r0 as [a|a|e|e].
  - peel H. destruct x as [[[[l0 is0] c0] j0] s0]. inversion H; subst. apply IH in Hx0; auto. destruct Hx0; discriminate.
  - peel H. destruct x as [[[[l0 is0] c0] j0] s0]. inversion H; subst. apply IH in Hx0; auto. destruct Hx0; subst. split; auto.
    eapply (stl_run _ F); eauto.
  - inversion H; subst. destruct Q.
  - inversion H; subst; auto.
Qed.
Lemma stl_iter_take n : forall first c i st l is i' st',
  iter_take n p first c i st = Done (l, is, false, i', st') -> quiet is -> c = false /\ i' = i.
Proof.
  induction n as [|n IH]; simpl; intros first c i st l is i' st' H Q. { inversion H; subst; auto. }
  peel H. destruct x as [[r0 j] s]. destruct r0 as [a|a|e|e].
  - peel H. destruct x as [[[[l0 is0] c0] j0] s0]. inversion H; subst. apply IH in Hx0; auto. destruct Hx0; discriminate.
  - peel H. destruct x as [[[[l0 is0] c0] j0] s0]. inversion H; subst. apply IH in Hx0; auto. destruct Hx0; subst. split; auto.
    eapply (stl_run _ F); eauto.
  - inversion H; subst. destruct Q.
  - inversion H; subst; auto.
Qed.
Lemma stl_count_min_max mn mx : stl (count_min_max mn mx p).
Proof.
  apply stl_mk_mode. intros first i [[cnt el] child] r i' st' H. unfold count_min_max_run in H.
  destruct (mx <? mn); try discriminate. peel H. destruct x as [[[[l is] c] j] s].
  destruct (cnt + length l <? mn). { unfold iter_fail in H. destruct is; try destruct c; inversion H. }
  destruct (into_result_fast (el ++ l) is c) as [r0 left] eqn:Hf. inversion H; subst. apply quiet_fast in Hf. destruct Hf as [-> Q].
  destruct (mx <? cnt).
  - destruct (dbg C); try discriminate. eapply stl_iter_all; eauto.
  - eapply stl_iter_take; eauto.
Qed.
Lemma stl_many : stl (many p).
Proof.
  apply stl_mk_mode. intros first i [el child] r i' st' H. unfold many_run in H. peel H. destruct x as [[[[l is] c] j] s].
  destruct (into_result_fast (el ++ l) is c) as [r0 left] eqn:Hf. inversion H; subst. apply quiet_fast in Hf. destruct Hf as [-> Q].
  eapply stl_iter_all; eauto.
Qed.
Lemma stl_many1_iter first c i el child r i' st' : many1_iter p first c i el child = Done (PeekOk r, i', st') -> c = false /\ i' = i.
Proof.
  unfold many1_iter. intros H. peel H. destruct x as [[[[l is] c0] j] s].
  destruct (into_result_fast (el ++ l) is c0) as [r0 left] eqn:Hf. inversion H; subst. apply quiet_fast in Hf. destruct Hf as [-> Q].
  eapply stl_iter_all; eauto.
Qed.
Lemma stl_many1 : stl (many1 p).
Proof.
  apply stl_mk_mode. intros first i [[[po cs] el] child] r i' st' H. unfold many1_run in H.
  destruct (first || negb po).
  - destruct (dbg C && po); try discriminate. peel H. destruct x as [[r0 j] s].
    destruct r0; try discriminate; apply stl_many1_iter in H; destruct H; subst; try discriminate. eapply (stl_run _ F); eauto.
  - eapply stl_many1_iter; eauto.
Qed.
End Rep.
Lemma stl_iter_scan {S A} (p : parser C S (option A)) (F : stl p) n : forall first c i st l is i' st',
  iter_scan n p first c i st = Done (l, is, false, i', st') -> quiet is -> c = false /\ i' = i.
Proof.
  induction n as [|n IH]; simpl; intros first c i st l is i' st' H Q; try discriminate.
  peel H. destruct x as [[r0 j] s]. destruct r0 as [[a|]|[a|]|e|e].
  - peel H. destruct x as [[[[l0 is0] c0] j0] s0]. inversion H; subst. apply IH in Hx0; auto. destruct Hx0; discriminate.
  - inversion H.
  - peel H. destruct x as [[[[l0 is0] c0] j0] s0]. inversion H; subst. apply IH in Hx0; auto. destruct Hx0; subst. split; auto.
    eapply (stl_run _ F); eauto.
  - inversion H; subst. split; auto. eapply (stl_run _ F); eauto.
  - inversion H; subst. destruct Q.
  - inversion H; subst; auto.
Qed.
Lemma combine_commit_peek {A} (rst : commit unit) (r : PR A E) a : combine_commit rst (fun _ => r) = PeekOk a -> rst = Peek tt /\ r = PeekOk a.
Proof. destruct rst as [[]|[]]; destruct r; simpl; intros H; inversion H; auto. Qed.
Lemma stl_sep_by1 {S1 A S2 B} (p : parser C S1 A) (sep : parser C S2 B) : stl p -> stl sep -> stl (sep_by1 p sep).
Proof.
  intros Fp Fs. apply stl_mk_mode.
  assert (Hr : forall first i po rst el child r i' st', sep_by1_rest p sep first i po rst el child = Done (PeekOk r, i', st') -> rst = Peek tt /\ i' = i).
  { intros first i po rst el child r i' st' H. unfold sep_by1_rest in H. peel H. destruct x as [[[[l is] c] j] s].
    destruct (into_result_fast (el ++ l) is c) as [r0 left] eqn:Hf. injection H as H1 H2 _. apply combine_commit_peek in H1. destruct H1; subst.
    split; auto. apply quiet_fast in Hf. destruct Hf as [-> Q]. eapply (stl_iter_all _ (stl_with _ _ (stl_by_ref _ Fs) (stl_by_ref _ Fp))); eauto. }
  intros first i [[po el] child] r i' st' H. unfold sep_by1_run in H. destruct po as [rst|].
  - eapply Hr; eauto.
  - peel H. destruct x as [[r0 j] s]. destruct r0; try discriminate; apply Hr in H; destruct H; subst; try discriminate. eapply (stl_run _ Fp); eauto.
Qed.
Lemma stl_sep_by {S1 A S2 B} (p : parser C S1 A) (sep : parser C S2 B) : stl p -> stl sep -> stl (sep_by p sep).
Proof. intros Fp Fs. apply stl_mk_mode. apply run_still_choice. simpl. split; [apply stl_sep_by1; auto|apply stl_value]. Qed.
Lemma stl_sep_end_by1 {S1 A S2 B} (p : parser C S1 A) (sep : parser C S2 B) : stl p -> stl sep -> stl (sep_end_by1 p sep).
Proof.
  intros Fp Fs. apply stl_mk_mode.
  assert (Hr : forall first i rst el child r i' st', sep_end_by1_rest p sep first i rst el child = Done (PeekOk r, i', st') -> rst = Peek tt /\ i' = i).
  { intros first i rst el child r i' st' H. unfold sep_end_by1_rest in H. peel H. destruct x as [[[[l is] c] j] s].
    destruct (into_result_fast (el ++ l) is c) as [r0 left] eqn:Hf. injection H as H1 H2 _. apply combine_commit_peek in H1. destruct H1; subst.
    split; auto. apply quiet_fast in Hf. destruct Hf as [-> Q]. 
    eapply (stl_iter_scan _ (stl_with _ _ (stl_by_ref _ Fs) (stl_optional _ (stl_by_ref _ Fp)))); eauto. }
  intros first i [[po el] child] r i' st' H. unfold sep_end_by1_run in H. destruct po as [rst|].
  - eapply Hr; eauto.
  - peel H. destruct x as [[r0 j] s]. destruct r0; try discriminate; apply Hr in H; destruct H; subst; try discriminate. eapply (stl_run _ Fp); eauto.
Qed.
Lemma stl_sep_end_by {S1 A S2 B} (p : parser C S1 A) (sep : parser C S2 B) : stl p -> stl sep -> stl (sep_end_by p sep).
Proof. intros Fp Fs. apply stl_mk_mode. apply run_still_choice. simpl. split; [apply stl_sep_end_by1; auto|apply stl_value]. Qed.
Lemma merge_peek (a b : commit unit) : commit_merge a b = Peek tt -> a = Peek tt /\ b = Peek tt.
Proof. destruct a as [[]|[]], b as [[]|[]]; simpl; intros H; inversion H; auto. Qed.
Lemma is_peek_tt (a : commit unit) : a = Peek tt \/ a = Commit tt.
Proof. destruct a as [[]|[]]; auto. Qed.
Lemma stl_chainl1 {S1 A S2} (p : parser C S1 A) (op : parser C S2 (A -> A -> A)) : stl p -> stl op -> stl (chainl1 p op).
Proof.
  intros Fp Fo. apply stl_mk_mode.
  pose proof (stl_pair2 _ _ (stl_by_ref op Fo) (stl_by_ref p Fp)) as F2.
  assert (Hl : forall n first l c i child r i' st', chainl_loop n p op first l c i child = Done (PeekOk r, i', st') -> c = Peek tt /\ i' = i).
  { induction n as [|n IH]; simpl; intros first l c i child r i' st' H; try discriminate. peel H.
    destruct x as [[r0 j] s]. destruct r0 as [[f v]|[f v]|e|e]; simpl in H.
    - apply IH in H. destruct H as [H _]. apply merge_peek in H. destruct H; discriminate.
    - apply IH in H. destruct H as [H ->]. apply merge_peek in H. split; [tauto|]. eapply (stl_run _ F2); eauto.
    - discriminate.
    - destruct (is_peek_tt c); subst; inversion H; subst; auto. }
  intros first i [ls child] r i' st' H. unfold chainl1_run in H. destruct ls as [[l c]|].
  - eapply Hl; eauto.
  - peel H. destruct x as [[r0 j] s]. destruct r0; try discriminate; apply Hl in H; destruct H; subst; try discriminate. eapply (stl_run _ Fp); eauto.
Qed.
Lemma stl_chainr {S1 A S2} (p : parser C S1 A) (op : parser C S2 (A -> A -> A)) : stl p -> stl op ->
  forall n, (forall i r i', chainr_lazy n p op i = Done (PeekOk r, i') -> i' = i) /\
            (forall l c i r i', chainr_loop n p op l c i = Done (PeekOk r, i') -> c = Peek tt /\ i' = i).
Proof.
  intros Fp Fo. induction n as [|n [IH1 IH2]]; split; simpl; intros; try discriminate.
  - peel H. destruct x as [r0 j]. destruct r0; try discriminate; apply IH2 in H; destruct H; subst; try discriminate. eapply (stl_lazy _ Fp); eauto.
  - peel H. destruct x as [r0 j]. destruct r0 as [f|f|e|e]; simpl in H; try discriminate.
    + peel H. destruct x as [r2 j2]. destruct r2 as [v|v|e|e]; simpl in H; try discriminate.
      * apply IH2 in H. destruct H as [H _]. apply merge_peek in H. destruct H; discriminate.
      * apply IH2 in H. destruct H as [H _]. apply merge_peek in H. destruct H as [H _]. apply merge_peek in H. destruct H; discriminate.
      * destruct (is_peek_tt c); subst; discriminate.
    + apply (stl_lazy _ Fo) in Hx. subst j. peel H. destruct x as [r2 j2]. destruct r2 as [v|v|e|e]; simpl in H; try discriminate.
      * apply IH2 in H. destruct H as [H _]. apply merge_peek in H. destruct H; discriminate.
      * apply IH2 in H. destruct H as [H ->]. apply merge_peek in H. destruct H as [H _]. apply merge_peek in H. split; [tauto|]. eapply IH1; eauto.
      * destruct (is_peek_tt c); subst; inversion H; subst; auto.
    + destruct (is_peek_tt c); subst; inversion H; subst; auto.
Qed.
Lemma stl_chainr1 {S1 A S2} (p : parser C S1 A) (op : parser C S2 (A -> A -> A)) : stl p -> stl op -> stl (chainr1 p op).
Proof. intros Fp Fo. apply stl_mk_lazy. intros i r i' H. exact (proj1 (stl_chainr p op Fp Fo _) _ _ _ H). Qed.
Lemma stl_take_until {S A} (p : parser C S A) : stl (take_until p).
Proof.
  apply stl_mk_mode. intros first i st r i' st' H.
  assert (Hl : forall l c out pos s, take_until_loop p first c (ipart i) out l pos s = Done (PeekOk r, i', st') -> c = Peek tt /\ i' = Inp l pos (ipart i)).
  { induction l as [|t l IH]; intros c out pos s Hq; simpl in Hq; peel Hq; destruct x as [[r0 j] s1]; destruct (into_std r0) as [[a rst]|[e|e]];
      try discriminate Hq.
    - destruct (commit_merge c rst) as [[]|[]] eqn:Hm; try discriminate. inversion Hq; subst. apply merge_peek in Hm. tauto.
    - unfold s_uncons in Hq. simpl in Hq. unfold wrap_stream_error in Hq. destruct (ipart i) eqn:Hp; simpl in Hq; inversion Hq.
    - destruct (commit_merge c rst) as [[]|[]] eqn:Hm; try discriminate. inversion Hq; subst. apply merge_peek in Hm. tauto.
    - apply IH in Hq. destruct Hq; discriminate. }
  apply Hl in H. destruct H as [_ ->]. destruct i; reflexivity.
Qed.
Lemma stl_repeat_until {S1 A S2 B} (p : parser C S1 A) (e : parser C S2 B) : stl p -> stl (repeat_until p e).
Proof.
  intros Fp. apply stl_mk_mode. intros first i [[[out ip] ps] es] r i' st' H.
  assert (Hl : forall n first c i out ip ps es, repeat_until_loop n p e first c i out ip ps es = Done (PeekOk r, i', st') -> c = Peek tt /\ i' = i).
  { clear - Fp. intros n. induction n as [|n IH]; simpl; intros first c i out ip ps es Hq; try discriminate. destruct ip; peel Hq; destruct x as [[r0 j] s1].
    - destruct r0; try discriminate; apply IH in Hq; destruct Hq as [Hq ->]; apply merge_peek in Hq; destruct Hq; try discriminate.
      split; auto. eapply (stl_run _ Fp); eauto.
    - destruct (into_std r0) as [[a rst]|[er|er]]; try discriminate.
      + destruct (commit_merge c rst) as [[]|[]] eqn:Hm; try discriminate. inversion Hq; subst. apply merge_peek in Hm. tauto.
      + apply IH in Hq. auto. }
  eapply Hl; eauto.
Qed.
Lemma stl_escaped {S1 A S2 B} (p : parser C S1 A) c (q : parser C S2 B) : stl p -> restoring p -> commits q -> stl (escaped p c q).
Proof.
  intros Fp Hr Hc. apply stl_mk_lazy. intros i r i' H.
  assert (Hl : forall n k i, escaped_loop n p c q k i = Done (PeekOk r, i') -> k = Peek tt /\ i' = i).
  { clear H i. intros n. induction n as [|n IH]; simpl; intros k i H; try discriminate. peel H. destruct x as [r0 i1]. destruct r0 as [a|a|e|e].
    - apply IH in H. destruct H; discriminate.
    - apply IH in H. destruct H as [-> ->]. split; auto. eapply (stl_lazy _ Fp); eauto.
    - discriminate.
    - apply Hr in Hx. subst i1. destruct (s_uncons i) as [r1 i2]. destruct r1 as [t|t|e2|e2].
      1,2: destruct (tok_eqb C t c); [|destruct (is_peek_tt k); subst; inversion H; subst; auto];
        (peel H; destruct x as [[r2 i3] s2]; destruct r2 as [b|b|e2|e2]; try discriminate;
         [apply IH in H; destruct H; discriminate|exfalso; eapply Hc; eauto]).
      + discriminate.
      + destruct (is_peek_tt k); subst; inversion H; subst; auto. }
  eapply Hl; eauto.
Qed.
Lemma stl_iterate {J S A} (s0 : S) (items : list J) (f : J -> parser C S A) : (forall x, stl (f x)) -> stl (iterate s0 items f).
Proof.
  intros F. apply stl_mk_mode. intros first i [[[oi cm] buf] next] r i' st' H. unfold iterate_run in H.
  assert (Hl : forall todo first c i st l i' s', iterate_items f first c todo i st = Done (l, None, false, i', s') -> c = false /\ i' = i).
  { clear H. induction todo as [|x todo IH]; simpl; intros first0 c i0 st l i1 s' H. { inversion H; subst; auto. }
    peel H. destruct x0 as [[r0 j] s]. destruct r0 as [a|a|e|e]; try discriminate.
    - peel H. destruct x0 as [[[[l0 o0] c0] j0] s1]. inversion H; subst. apply IH in Hx0. destruct Hx0; discriminate.
    - peel H. destruct x0 as [[[[l0 o0] c0] j0] s1]. inversion H; subst. apply IH in Hx0. destruct Hx0; subst. split; auto. eapply (stl_run _ (F x)); eauto. }
  assert (Hs : forall todo first c i st l x items' r i' s', iterate_items f first c todo i st = Done (l, Some (x, items', PeekOk r), false, i', s') -> False).
  { clear. induction todo as [|x todo IH]; simpl; intros first0 c i0 st l y it r0 i1 s' H. { inversion H. }
    peel H. destruct x0 as [[r1 j] s]. destruct r1 as [a|a|e|e].
    - peel H. destruct x0 as [[[[l0 o0] c0] j0] s1]. inversion H; subst. eapply IH; eauto.
    - peel H. destruct x0 as [[[[l0 o0] c0] j0] s1]. inversion H; subst. eapply IH; eauto.
    - inversion H.
    - destruct c; inversion H. }
  assert (Hs2 : forall todo first c i st l x items' r c' i' s', iterate_items f first c todo i st = Done (l, Some (x, items', PeekOk r), c', i', s') -> False).
  { clear. induction todo as [|x todo IH]; simpl; intros first0 c i0 st l y it r0 c1 i1 s' H. { inversion H. }
    peel H. destruct x0 as [[r1 j] s]. destruct r1 as [a|a|e|e].
    - peel H. destruct x0 as [[[[l0 o0] c0] j0] s1]. inversion H; subst. eapply IH; eauto.
    - peel H. destruct x0 as [[[[l0 o0] c0] j0] s1]. inversion H; subst. eapply IH; eauto.
    - inversion H.
    - destruct c; inversion H. }
  match type of H with (let '(_, _) := ?e in _) = _ => destruct e as [iter ni] end. peel H.
  destruct x as [[[[l o] c] j] nx]. destruct o as [[[x it] r0]|].
  - inversion H; subst. exfalso. eapply Hs2; eauto.
  - destruct c; inversion H; subst. eapply Hl; eauto.
Qed.

(** ** ranges *)
Lemma stl_take n : stl (@take C n).
Proof. apply stl_mk_lazy. intros i r i' H. inversion H as [H1]. eapply still_s_uncons_range; eauto. Qed.
Lemma stl_range l : stl (@range C l).
Proof.
  apply stl_mk_lazy. intros i r i' H. destruct (uncons_range (range_len l) i) as [[x|e] j]; [destruct (list_eqb (tok_eqb C) x l)|]; inversion H.
  exfalso; eapply still_wrap; eauto.
Qed.
Lemma stl_partial_range (f g : input C -> PR (list T) E * input C) a b n :
  (forall i a i', f i = (PeekOk a, i') -> i' = i) -> stl (mk_mode 0 (parse_partial_range f g) a b n).
Proof.
  intros Hf. apply stl_mk_mode. intros first i d r i' st' H. unfold parse_partial_range in H.
  destruct (negb (ipart i)); [|destruct (first || (d =? 0))].
  - destruct (f i) as [r0 j] eqn:Hq. inversion H; subst. eapply Hf; eauto.
  - destruct (f i) as [r0 j] eqn:Hq. destruct r0; inversion H; subst. eapply Hf; eauto.
  - destruct (uncons_range d i) as [[x|e] j]; try discriminate. destruct (g j) as [r0 j2]. destruct r0; try discriminate;
      (destruct (s_uncons_range i (distance j2 i)) as [r2 i3] eqn:Hu; inversion H; subst; eapply still_s_uncons_range; eauto).
Qed.
Lemma stl_take_while f : stl (@take_while C f).
Proof. apply stl_partial_range. intros. eapply still_s_uncons_while; eauto. Qed.
Lemma stl_take_while1 f : stl (@take_while1 C f).
Proof. apply stl_partial_range. intros. exfalso. eapply still_s_uncons_while1; eauto. Qed.
Lemma stl_take_fn s : stl (@take_fn C s).
Proof.
  apply stl_mk_mode. intros first i d r i' st' H. unfold take_fn_run in H. destruct (s _) as [k|k].
  - match type of H with context [s_uncons_range ?i ?n] => destruct (s_uncons_range i n) as [r0 j] eqn:Hu end. inversion H; subst.
    eapply still_s_uncons_range; eauto.
  - match type of H with (if ?c then _ else _) = _ => destruct c end; discriminate.
Qed.
Lemma stl_take_until_range l : stl (@take_until_range C l).
Proof.
  apply stl_mk_mode. intros first i d r i' st' H. unfold take_until_range_run in H.
  assert (Hl : forall ts fe pos, tur_loop l i fe d ts pos = Done (PeekOk r, i', st') -> i' = i).
  { induction ts as [|t ts IH]; intros fe pos Hq; cbn [tur_loop] in Hq;
      destruct (uncons_range (range_len l) _) as [[x|e] j]; try destruct (list_eqb (tok_eqb C) x l).
    2: discriminate.
    1,3: destruct (uncons_range (distance j i - range_len l) i) as [[y|e] j2] eqn:Hu; try discriminate;
      destruct (distance j i - range_len l =? 0) eqn:Hd; inversion Hq; subst; apply Nat.eqb_eq in Hd; rewrite Hd, still_uncons_range in Hu; congruence.
    - inversion Hq. exfalso; eapply still_wrap; eauto.
    - eapply IH; eauto.
    - eapply IH; eauto. }
  destruct (s_uncons_range i d) as [r0 j]. destruct r0; try discriminate; eapply Hl; eauto.
Qed.
End Still.

#[export] Hint Resolve stl_any stl_satisfy stl_satisfy_map stl_token stl_one_of stl_none_of stl_tokens stl_tokens_cmp stl_position stl_value stl_produce
  stl_unexpected_any stl_eof stl_message stl_expected stl_silent stl_not_followed_by stl_attempt stl_look_ahead stl_map stl_map_input stl_flat_map
  stl_and_then stl_from_str stl_recognize stl_no_partial stl_ignore stl_any_partial_state stl_lazy_ stl_factory stl_opaque stl_spanned stl_by_ref
  stl_parser_fn stl_parser_fn0 stl_optional stl_left stl_right stl_dispatch_here stl_dispatch_later stl_recognize_with_value stl_fn_parser stl_num_parser stl_tuple stl_with stl_skip
  stl_then stl_then_ref stl_choice stl_or stl_choice_slice stl_count_min_max stl_many stl_many1 stl_sep_by1 stl_sep_by stl_sep_end_by1 stl_sep_end_by
  stl_chainl1 stl_chainr1 stl_take_until stl_repeat_until stl_escaped stl_iterate stl_take stl_range stl_take_while stl_take_while1 stl_take_fn
  stl_take_until_range : stl.

Lemma honest_still (C : Cfg) (L : lawful C) S A (p : parser C S A) : honest p -> stl p.
Proof.
  revert S A p. apply (honest_mut (C:=C) (fun S A p => stl p) (fun SS B t => tup_stl t) (fun A SS t => alts_stl t)
    (fun S A l => Forall (fun p => stl p) l)); intros; simpl; auto with stl.
Qed.

(** The combination [escaped] is documented with. *)
Lemma restoring_take_while1 (C : Cfg) f : restoring (@take_while1 C f).
Proof.
  intros i e i' H. simpl in H. unfold default_lazy in H. simpl in H. unfold parse_partial_range in H.
  assert (K : forall r j, s_uncons_while1 i f = (r, j) -> forall e, r = PeekErr e -> j = i).
  { intros r j Hr e0 ->. unfold s_uncons_while1, m_uncons_while1 in Hr. destruct (rest i) as [|t l]; [|destruct (f t); [destruct (span_while f l)|]];
      match type of Hr with (if ?c then _ else _) = _ => destruct c end; inversion Hr; auto. }
  destruct (s_uncons_while1 i f) as [r j] eqn:Hs. destruct (negb (ipart i)); simpl in H.
  - destruct r; inversion H; subst. eapply K; eauto.
  - destruct r; inversion H; subst. eapply K; eauto.
Qed.
Lemma commits_mk_lazy {C : Cfg} {A} (lz : input C -> outcome (PR A (Err C) * input C)) a b n :
  (forall i x i', lz i <> Done (PeekOk x, i')) -> commits (mk_lazy lz a b n).
Proof.
  intros H first i st x i' st' R. simpl in R. unfold default_cmode, lazy_run in R. destruct (lz i) as [[r j]| |] eqn:Hl; simpl in R; try discriminate.
  destruct r; simpl in R; inversion R; subst. eapply H; eauto.
Qed.
Lemma commits_satisfy_impl {C : Cfg} {R} (f : tok C -> option R) a b n : commits (mk_lazy (satisfy_impl f) a b n).
Proof. apply commits_mk_lazy. intros i x i' H. unfold satisfy_impl in H. destruct (s_uncons i) as [r j] eqn:Hu.
  destruct r as [t|t|e|e]; try (destruct (f t)); inversion H.
Qed.
