(** C02, C03: token parsers. *)
From Coq Require Import String List Bool Arith NArith Lia.
Import ListNotations.
From Verif Require Import Base Parser Token Combinator Spec.
Set Implicit Arguments.

Section Tok.
Context {C : Cfg}.
Notation T := (tok C).
Notation E := (Err C).

Lemma satisfy_impl_single {R} (f : T -> option R) adderr addc n :
  single_token (mk_lazy (satisfy_impl f) adderr addc n) (fun t r => f t = Some r).
Proof.
  intros first i []. unfold mk_lazy, lazy_run, satisfy_impl, s_uncons, uncons, wrap_stream_error. simpl.
  destruct i as [rs p part]; simpl. repeat split.
  - intros t l r -> Hf. simpl. rewrite Hf. simpl. eexists; split; [reflexivity|]. repeat split.
  - intros t l -> Hf. simpl. destruct (f t) as [r|] eqn:Hr; [destruct (Hf r eq_refl)|]. simpl. eauto.
  - intros -> ->. reflexivity.
  - intros -> ->. reflexivity.
Qed.

Lemma single_token_ext {R} (p : parser C unit R) (acc acc' : T -> R -> Prop) :
  (forall t r, acc t r <-> acc' t r) -> single_token p acc -> single_token p acc'.
Proof.
  intros Hx Hs first i st. destruct (Hs first i st) as [H1 [H2 [H3 H4]]]. repeat split; auto.
  - intros t l r Hr Ha. apply (H1 t l r Hr). apply Hx. auto.
  - intros t l Hr Ha. apply (H2 t l Hr). intros r Hc. apply (Ha r). apply Hx. auto.
Qed.

Lemma any_single : single_token (@any C) (fun t r => r = t).
Proof.
  intros first i []. unfold any, mk_lazy, lazy_run, s_uncons, uncons, wrap_stream_error. simpl.
  destruct i as [rs p part]; simpl. repeat split.
  - intros t l r -> ->. simpl. eexists; split; [reflexivity|]. repeat split.
  - intros t l -> H. destruct (H t eq_refl).
  - intros -> ->. reflexivity.
  - intros -> ->. reflexivity.
Qed.

Lemma satisfy_single (f : T -> bool) : single_token (satisfy f) (fun t r => r = t /\ f t = true).
Proof.
  eapply single_token_ext; [|apply satisfy_impl_single]. intros t r. simpl.
  destruct (f t); split; intros H; try discriminate H.
  - inversion H; auto.
  - destruct H as [-> _]; auto.
  - destruct H as [_ H]; discriminate H.
Qed.

Lemma satisfy_map_single {R} (f : T -> option R) : single_token (satisfy_map f) (fun t r => f t = Some r).
Proof. apply satisfy_impl_single. Qed.

Lemma token_single (L : lawful C) (c : T) : single_token (token c) (fun t r => r = c /\ t = c).
Proof.
  eapply single_token_ext; [|apply satisfy_impl_single]. intros t r. simpl.
  destruct (tok_eqb C t c) eqn:Hq.
  - apply (law_tok L) in Hq. subst. split; [intros H; inversion H; auto|intros [-> _]; auto].
  - split; [discriminate|]. intros [_ ->]. assert (tok_eqb C c c = true) by (apply (law_tok L); auto). congruence.
Qed.

Lemma existsb_tok (L : lawful C) (l : list T) (c : T) :
  existsb (fun t => tok_eqb C t c) l = true <-> In c l.
Proof.
  rewrite existsb_exists. split.
  - intros [x [Hx Hq]]. apply (law_tok L) in Hq. subst. auto.
  - intros H. exists c. split; auto. apply (law_tok L); auto.
Qed.

Lemma one_of_single (L : lawful C) (l : list T) : single_token (one_of l) (fun t r => r = t /\ In t l).
Proof.
  eapply single_token_ext; [|apply satisfy_impl_single]. intros t r. simpl.
  destruct (existsb (fun t0 => tok_eqb C t0 t) l) eqn:Hq.
  - apply (existsb_tok L) in Hq. split; [intros H; inversion H; subst; auto|intros [-> _]; auto].
  - split; [discriminate|]. intros [_ H]. apply (existsb_tok L) in H. congruence.
Qed.

Lemma none_of_single (L : lawful C) (l : list T) : single_token (none_of l) (fun t r => r = t /\ ~ In t l).
Proof.
  eapply single_token_ext; [|apply satisfy_impl_single]. intros t r. simpl.
  assert (Hf : forallb (fun t0 => negb (tok_eqb C t0 t)) l = negb (existsb (fun t0 => tok_eqb C t0 t) l)).
  { clear. induction l; simpl; auto. rewrite IHl. destruct (tok_eqb C a t); auto. }
  rewrite Hf. destruct (existsb (fun t0 => tok_eqb C t0 t) l) eqn:Hq; simpl.
  - apply (existsb_tok L) in Hq. split; [discriminate|]. intros [_ H]; contradiction.
  - split; [intros H; inversion H; subst; split; auto; intros Hi; apply (existsb_tok L) in Hi; congruence
           |intros [-> _]; auto].
Qed.

Lemma value_always {A} (v : A) : always (@value C A v) (fun _ => v).
Proof. intros first i []. reflexivity. Qed.
Lemma produce_always {A} (f : unit -> A) : always (@produce C A f) (fun _ => f tt).
Proof. intros first i []. reflexivity. Qed.
Lemma position_always : always (@position C) (fun i => ipos i).
Proof. intros first i []. reflexivity. Qed.

Lemma eof_spec (L : lawful C) : forall first (i : input C) st,
  (rest i = [] -> p_run eof first i st = Done (PeekOk tt, i, tt)) /\
  (rest i <> [] -> p_run eof first i st = Done (PeekErr (to_trk (e_empty C (ipos i))), i, tt)).
Proof.
  intros first [rs p part] st. unfold eof, mk_lazy, lazy_run, uncons; simpl. rewrite (law_eoi L).
  destruct rs; simpl; split; intros H; try congruence; auto.
Qed.

(** ** literals *)
Lemma tokens_loop_spec {X} (cmp : X -> T -> bool) (om : E -> E) (start : Pos C) (l : list X) : forall (i : input C) c,
  forall o : literal_outcome cmp l i,
  match o with
  | @LitMatch _ _ _ _ _ ts r _ _ =>
      tokens_loop cmp om start c l i =
        ((if c then CommitOk tt else match l with [] => PeekOk tt | _ => CommitOk tt end), advance i ts r)
  | @LitMismatch _ _ _ _ _ l1 _ _ ts r t _ _ _ _ =>
      tokens_loop cmp om start c l i =
        ((if c || (0 <? length l1) then CommitErr (om (e_from C start (se_unexpected C (IToken t))))
          else PeekErr (to_trk (e_empty C start))), advance i (ts ++ [t]) r)
  | @LitEnd _ _ _ _ _ l1 _ _ _ _ =>
      let j := advance i (rest i) [] in
      let e := e_setpos C (e_from C (ipos j) (se_eoi C)) start in
      tokens_loop cmp om start c l i =
        ((if c || ipart i || (0 <? length l1) then CommitErr e else PeekErr (to_trk e)), j)
  end.
Proof.
  induction l as [|x l IH]; intros i c o.
  - destruct o; simpl.
    + inversion M; subst. simpl in H. destruct i; simpl in *; subst. reflexivity.
    + destruct l1; discriminate.
    + destruct l1; discriminate.
  - destruct i as [rs p part]. destruct o; simpl in *.
    + inversion M as [|? y ? l' Hc Hf]; subst. simpl in *. unfold s_uncons, uncons; simpl. rewrite Hc.
      pose (o' := @LitMatch C X cmp l (Inp (l' ++ r) (pos_step C p y) part) l' r eq_refl Hf).
      specialize (IH _ true o'). simpl in IH. unfold o' in IH. rewrite IH.
      destruct c; unfold advance; simpl; auto.
    + destruct l1 as [|x' l1]; simpl in L; inversion L; subst.
      * inversion M; subst; simpl in *. unfold s_uncons, uncons; simpl. rewrite N. destruct c; reflexivity.
      * inversion M as [|? y ? l' Hc Hf]; subst; simpl in *. unfold s_uncons, uncons; simpl. rewrite Hc.
        pose (o' := @LitMismatch C X cmp (l1 ++ x0 :: l2) (Inp (l' ++ t :: r) (pos_step C p y) part) l1 l2 x0 l' r t eq_refl eq_refl Hf N).
        specialize (IH _ true o'). simpl in IH. unfold o' in IH. rewrite IH.
        unfold advance; simpl. rewrite orb_true_r. reflexivity.
    + destruct l1 as [|x' l1]; simpl in L; inversion L; subst.
      * inversion M; subst; simpl in *. unfold s_uncons, uncons, wrap_stream_error; simpl. destruct part, c; reflexivity.
      * inversion M as [|? y ? l' Hc Hf]; subst; simpl in *. unfold s_uncons, uncons; simpl. rewrite Hc.
        pose (o' := @LitEnd C X cmp (l1 ++ x0 :: l2) (Inp l' (pos_step C p y) part) l1 l2 x0 eq_refl Hf).
        specialize (IH _ true o'). simpl in IH. unfold o' in IH. rewrite IH.
        unfold advance; simpl. rewrite orb_true_r. reflexivity.
Qed.

(** Every input falls under one of the three outcomes. *)
Lemma literal_outcome_total {X} (cmp : X -> T -> bool) (l : list X) : forall i : input C, literal_outcome cmp l i.
Proof.
  induction l as [|x l IH]; intros [rs p part].
  - apply LitMatch with (ts := []) (r := rs); simpl; auto.
  - destruct rs as [|t rs].
    + apply LitEnd with (l1 := []) (l2 := l) (x := x); simpl; auto.
    + destruct (cmp x t) eqn:Hc.
      * destruct (IH (Inp rs (pos_step C p t) part)) as [ts r H M|l1 l2 y ts r t' H L M N|l1 l2 y L M]; simpl in *.
        { apply LitMatch with (ts := t :: ts) (r := r); simpl; subst; auto. }
        { apply LitMismatch with (l1 := x :: l1) (l2 := l2) (x := y) (ts := t :: ts) (r := r) (t := t'); simpl; subst; auto. }
        { apply LitEnd with (l1 := x :: l1) (l2 := l2) (x := y); simpl; subst; auto. }
      * apply LitMismatch with (l1 := []) (l2 := l) (x := x) (ts := []) (r := rs) (t := t); simpl; auto.
Qed.

(** Complete behaviour of [tokens] ([om] adds the expectation) and [tokens_cmp] ([om] is the identity). *)
Definition literal_parser {X} (p : parser C unit (list X)) (cmp : X -> T -> bool) (om : E -> E) (l : list X) : Prop :=
  forall first (i : input C) st,
  (forall ts r, rest i = ts ++ r -> Forall2 (fun x t => cmp x t = true) l ts ->
     exists i', p_run p first i st = Done (okr (negb (length l =? 0)) l, i', tt) /\ advanced_by i ts i') /\
  (forall l1 x l2 ts t r, rest i = ts ++ t :: r -> l = l1 ++ x :: l2 ->
     Forall2 (fun x t => cmp x t = true) l1 ts -> cmp x t = false ->
     exists i', p_run p first i st =
       Done (if length l1 =? 0 then PeekErr (to_trk (e_empty C (ipos i)))
             else CommitErr (om (e_from C (ipos i) (se_unexpected C (IToken t)))), i', tt)) /\
  (forall l1 x l2, l = l1 ++ x :: l2 -> Forall2 (fun x t => cmp x t = true) l1 (rest i) ->
     exists i', advanced_by i (rest i) i' /\
       let e := e_setpos C (e_from C (ipos i') (se_eoi C)) (ipos i) in
       p_run p first i st = Done (if (length l1 =? 0) && negb (ipart i) then PeekErr (to_trk e) else CommitErr e, i', tt)).

Lemma literal_parser_gen {X} (cmp : X -> T -> bool) (om : E -> E) (l : list X) adderr addc n :
  literal_parser (mk_lazy (fun i => let (r, i') := tokens_loop cmp om (ipos i) false l i in
                    Done (pr_map (fun _ => l) r, i')) adderr addc n) cmp om l.
Proof.
  intros first i st. unfold mk_lazy, lazy_run; simpl. repeat split.
  - intros ts r H M. pose proof (tokens_loop_spec om (ipos i) false (@LitMatch C X cmp l i ts r H M)) as Hs. simpl in Hs. rewrite Hs.
    simpl. exists (advance i ts r). split.
    + destruct l; reflexivity.
    + repeat split. auto.
  - intros l1 x l2 ts t r H L M N.
    pose proof (tokens_loop_spec om (ipos i) false (@LitMismatch C X cmp l i l1 l2 x ts r t H L M N)) as Hs. simpl in Hs. rewrite Hs.
    eexists. destruct l1; simpl; reflexivity.
  - intros l1 x l2 L M. pose proof (tokens_loop_spec om (ipos i) false (@LitEnd C X cmp l i l1 l2 x L M)) as Hs. simpl in Hs. rewrite Hs.
    exists (advance i (rest i) []). split.
    + repeat split. simpl. rewrite app_nil_r. auto.
    + simpl. destruct (ipart i), l1; simpl; reflexivity.
Qed.

Lemma tokens_literal {X} (cmp : X -> T -> bool) (exp : info T) (l : list X) :
  literal_parser (tokens cmp exp l) cmp (fun e => e_add C e (se_expected C exp)) l.
Proof. apply literal_parser_gen. Qed.

Lemma tokens_cmp_literal {X} (cmp : X -> T -> bool) (l : list X) :
  literal_parser (tokens_cmp l cmp) cmp (fun e => e) l.
Proof. apply literal_parser_gen. Qed.

End Tok.
