(** C75, proofs: twins give the same answers. *)
From Coq Require Import String List Bool Arith NArith Lia.
Import ListNotations.
From Verif Require Import Base Parser Token Combinator Sequence Choice Repeat RangeP ByteP TwinSpec.
Unset Implicit Arguments.

Lemma both_bind {X Y X' Y'} (R : X -> Y -> Prop) (Q : X' -> Y' -> Prop) o1 o2 f g :
  both R o1 o2 -> (forall x y, R x y -> both Q (f x) (g y)) -> both Q (obind o1 f) (obind o2 g).
Proof. intros H K. destruct o1, o2; simpl in *; auto; contradiction. Qed.
Lemma both_map {X Y X' Y'} (R : X -> Y -> Prop) (Q : X' -> Y' -> Prop) o1 o2 f g :
  both R o1 o2 -> (forall x y, R x y -> Q (f x) (g y)) -> both Q (omap f o1) (omap g o2).
Proof. intros H K. destruct o1, o2; simpl in *; auto; contradiction. Qed.

Section TwinProofs.
Context {C : Cfg} {X : errty (tok C) (Pos C)}.
Notation C' := (retype C X).
Notation T := (tok C).
Variable b : bool.
Hypothesis Heoi : x_seoi X (x_eoi X) = se_is_eoi C (se_eoi C).
Notation usable := (@usable C b).
Notation retyped := (@retyped C X).

Definition runs {S A} (f : bool -> input C -> S -> outcome (PR A (Err C) * input C * S))
    (f' : bool -> input C' -> S -> outcome (PR A (Err C') * input C' * S)) : Prop :=
  forall first i st, usable i -> both (same_run b) (f first i st) (f' first (retyped i) st).
Definition outs {A} (f : input C -> outcome (PR A (Err C) * input C)) (f' : input C' -> outcome (PR A (Err C') * input C')) : Prop :=
  forall i, usable i -> both (same_out b) (f i) (f' (retyped i)).

Record sim {S A} (p : parser C S A) (p' : parser C' S A) : Prop := {
  s_init : p_init p' = p_init p;
  s_count : p_count p' = p_count p;
  s_run : runs (p_run p) (p_run p');
  s_lazy : outs (p_lazy p) (p_lazy p');
  s_cmode : runs (p_cmode p) (p_cmode p');
  s_stream : outs (p_stream p) (p_stream p')
}.
Arguments s_init {S A p p'}.
Arguments s_count {S A p p'}.
Arguments s_run {S A p p'}.
Arguments s_lazy {S A p p'}.
Arguments s_cmode {S A p p'}.
Arguments s_stream {S A p p'}.

Lemma same_run_intro {S A} (r : PR A (Err C)) (r' : PR A (Err C')) i i' (s s' : S) :
  same_pr r r' -> i' = retyped i -> usable i -> s' = s -> same_run b (r, i, s) (r', i', s').
Proof. repeat split; auto. Qed.
Lemma same_out_intro {A} (r : PR A (Err C)) (r' : PR A (Err C')) i i' :
  same_pr r r' -> i' = retyped i -> usable i -> same_out b (r, i) (r', i').
Proof. repeat split; auto. Qed.
Lemma same_run_inv {S A} (r : PR A (Err C)) (r' : PR A (Err C')) i i' (s s' : S) :
  same_run b (r, i, s) (r', i', s') -> same_pr r r' /\ i' = retyped i /\ usable i /\ s' = s.
Proof. intros [[H1 [H2 H3]] H4]. auto. Qed.
Lemma same_out_inv {A} (r : PR A (Err C)) (r' : PR A (Err C')) i i' :
  same_out b (r, i) (r', i') -> same_pr r r' /\ i' = retyped i /\ usable i.
Proof. intros [H1 [H2 H3]]. auto. Qed.

(** A stream with the same partiality is usable too. *)
Lemma usable_part i l p : usable i -> usable (Inp l p (ipart i)).
Proof. intros [H|H]; [left|right]; auto. Qed.

(** Case analysis on two related answers, or on two related runs. *)
Ltac prs r r' H := destruct r, r'; simpl in H; try contradiction; try subst.
Ltac run3 :=
  let r := fresh "r" in let j := fresh "j" in let s := fresh "s" in let r' := fresh "r'" in let j' := fresh "j'" in let s' := fresh "s'" in
  let H := fresh "H" in let K := fresh "U" in
  intros [[r j] s] [[r' j'] s'] H; apply same_run_inv in H; destruct H as [H [-> [K ->]]]; prs r r' H.
Ltac run2 :=
  let r := fresh "r" in let j := fresh "j" in let r' := fresh "r'" in let j' := fresh "j'" in
  let H := fresh "H" in let K := fresh "U" in
  intros [r j] [r' j'] H; apply same_out_inv in H; destruct H as [H [-> K]]; prs r r' H.
Ltac fin := solve [ simpl; try apply same_run_intro; try apply same_out_intro; simpl; auto using usable_part ].

Lemma runs_cmode {S A} (f : bool -> input C -> S -> outcome (PR A (Err C) * input C * S)) f' a a' :
  runs f f' -> runs (default_cmode f a) (default_cmode f' a').
Proof. intros H first i st U. unfold default_cmode. eapply both_map; [apply H, U|]. run3; fin. Qed.
Lemma outs_stream {S A} (s0 : S) (f : bool -> input C -> S -> outcome (PR A (Err C) * input C * S)) f' a a' :
  runs f f' -> outs (default_stream s0 f a) (default_stream s0 f' a').
Proof. intros H i U. unfold default_stream. eapply both_map; [apply H, U|]. run3; fin. Qed.
Lemma outs_lazy {S A} (s0 : S) (f : bool -> input C -> S -> outcome (PR A (Err C) * input C * S)) f' :
  runs f f' -> outs (default_lazy s0 f) (default_lazy s0 f').
Proof. intros H i U. unfold default_lazy. eapply both_map; [apply H, U|]. run3; try fin. simpl. destruct (ipart i); fin. Qed.
Lemma runs_lazy {A} (f : input C -> outcome (PR A (Err C) * input C)) f' : outs f f' -> runs (lazy_run f) (lazy_run f').
Proof. intros H first i st U. unfold lazy_run. eapply both_map; [apply H, U|]. run2; fin. Qed.

Lemma sim_mode {S A} (s0 : S) (f : bool -> input C -> S -> outcome (PR A (Err C) * input C * S)) f' a a' c c' n :
  runs f f' -> sim (mk_mode s0 f a c n) (mk_mode s0 f' a' c' n).
Proof. intros H. constructor; simpl; auto using runs_cmode, outs_stream, outs_lazy. Qed.
Lemma sim_lazy {A} (f : input C -> outcome (PR A (Err C) * input C)) f' a a' c c' n :
  outs f f' -> sim (mk_lazy f a c n) (mk_lazy f' a' c' n).
Proof. intros H. constructor; simpl; auto using runs_cmode, outs_stream, runs_lazy. Qed.
Lemma sim_both {S A} (s0 : S) (f : bool -> input C -> S -> outcome (PR A (Err C) * input C * S)) f' g g' a a' c c' n :
  runs f f' -> outs g g' -> sim (mk_both s0 f g a c n) (mk_both s0 f' g' a' c' n).
Proof. intros H G. constructor; simpl; auto using runs_cmode, outs_stream. Qed.

(** ** Streams *)
Lemma uncons_tw i :
  uncons (retyped i) = (fst (uncons i), retyped (snd (uncons i))).
Proof. unfold uncons. simpl. destruct (rest i); reflexivity. Qed.
Lemma uncons_usable i : usable i -> usable (snd (uncons i)).
Proof. intros U. unfold uncons. destruct (rest i); simpl; auto using usable_part. Qed.
Lemma eof_tw i : input_at_eof (retyped i) = input_at_eof i.
Proof. unfold input_at_eof. rewrite uncons_tw. destruct (uncons i) as [[t|] j]; simpl; auto. Qed.
Lemma wrap_tw {A} i e e' : same_pr (@wrap_stream_error C A i e) (@wrap_stream_error C' A (retyped i) e').
Proof. unfold wrap_stream_error. simpl. destruct (ipart i); simpl; auto. Qed.
Lemma s_uncons_tw i : usable i -> same_out b (s_uncons i) (s_uncons (retyped i)).
Proof.
  intros U. unfold s_uncons. rewrite uncons_tw. pose proof (uncons_usable i U) as K. destruct (uncons i) as [[t|] j]; simpl in *.
  - apply same_out_intro; simpl; auto.
  - apply same_out_intro; auto. apply wrap_tw.
Qed.
Lemma range_len_tw (l : list T) : @range_len C' l = @range_len C l.
Proof. induction l; simpl; auto. Qed.
Lemma split_width_tw n (l : list T) : same_sum (@split_width C n l) (@split_width C' n l).
Proof.
  revert n. induction l as [|t l IH]; intros n; simpl.
  - destruct (n =? 0); simpl; auto.
  - destruct (n =? 0); simpl; auto. destruct (width C t <=? n); simpl; auto.
    specialize (IH (n - width C t)). destruct (@split_width C _ l) as [[x y]|], (@split_width C' _ l) as [[x' y']|]; simpl in *; try contradiction; auto.
    injection IH as -> ->. reflexivity.
Qed.
Definition same_range (x : (list T + SErr C) * input C) (y : (list T + SErr C') * input C') : Prop :=
  same_sum (fst x) (fst y) /\ snd y = retyped (snd x) /\ usable (snd x).
Lemma uncons_range_tw n i : usable i -> same_range (uncons_range n i) (uncons_range n (retyped i)).
Proof.
  intros U. unfold uncons_range. pose proof (split_width_tw n (rest i)) as H. cbn [rest TwinSpec.retyped].
  destruct (@split_width C n (rest i)) as [[x y]|], (@split_width C' n (rest i)) as [[x' y']|]; simpl in H; try contradiction.
  - injection H as -> ->. repeat split; auto.
  - repeat split; auto.
Qed.
Lemma s_uncons_range_tw n i : usable i -> same_out b (s_uncons_range i n) (s_uncons_range (retyped i) n).
Proof.
  intros U. unfold s_uncons_range. destruct (uncons_range_tw n i U) as [H1 [H2 H3]].
  destruct (uncons_range n i) as [x j], (uncons_range n (retyped i)) as [x' j']. simpl in *. subst j'.
  destruct x, x'; simpl in H1; try contradiction.
  - subst. apply same_out_intro; auto. destruct (n =? 0); simpl; auto.
  - apply same_out_intro; auto. apply wrap_tw.
Qed.
Lemma distance_tw i j : distance (retyped i) (retyped j) = distance i j.
Proof. unfold distance. rewrite !range_len_tw. reflexivity. Qed.
Lemma m_uncons_while_tw (f : T -> bool) i : @m_uncons_while C' f (retyped i) = (fst (@m_uncons_while C f i), retyped (snd (@m_uncons_while C f i))).
Proof. unfold m_uncons_while. simpl. destruct (span_while f (rest i)). reflexivity. Qed.
Lemma m_uncons_while_usable (f : T -> bool) i : usable i -> usable (snd (m_uncons_while f i)).
Proof. intros U. unfold m_uncons_while. destruct (span_while f (rest i)). simpl. apply usable_part, U. Qed.
Lemma s_uncons_while_tw (f : T -> bool) i : usable i -> same_out b (s_uncons_while i f) (@s_uncons_while C' (retyped i) f).
Proof.
  intros U. unfold s_uncons_while. rewrite m_uncons_while_tw. pose proof (m_uncons_while_usable f i U) as K.
  destruct (m_uncons_while f i) as [x j]. cbn [fst snd] in *. rewrite eof_tw, range_len_tw. cbn [ipart TwinSpec.retyped].
  destruct (ipart j && input_at_eof j); [|destruct (range_len x =? 0)]; apply same_out_intro; simpl; auto.
Qed.
Lemma m_uncons_while1_tw (f : T -> bool) i : @m_uncons_while1 C' f (retyped i) = (fst (@m_uncons_while1 C f i), retyped (snd (@m_uncons_while1 C f i))).
Proof.
  unfold m_uncons_while1. cbn [rest TwinSpec.retyped]. destruct (rest i) as [|t l]; auto. destruct (f t); auto.
  change (tok C') with T. destruct (span_while f l). reflexivity.
Qed.
Lemma m_uncons_while1_usable (f : T -> bool) i : usable i -> usable (snd (m_uncons_while1 f i)).
Proof.
  intros U. unfold m_uncons_while1. destruct (rest i) as [|t l]; auto. destruct (f t); auto. destruct (span_while f l). apply usable_part, U.
Qed.
Lemma s_uncons_while1_tw (f : T -> bool) i : usable i -> same_out b (s_uncons_while1 i f) (@s_uncons_while1 C' (retyped i) f).
Proof.
  intros U. unfold s_uncons_while1. rewrite m_uncons_while1_tw. pose proof (m_uncons_while1_usable f i U) as K.
  destruct (m_uncons_while1 f i) as [x j]. cbn [fst snd] in *. rewrite eof_tw. cbn [ipart TwinSpec.retyped].
  destruct x; destruct (ipart j && input_at_eof j); apply same_out_intro; simpl; auto.
Qed.

(** ** Primitive parsers *)
Lemma satisfy_impl_tw {R} (f : T -> option R) : outs (@satisfy_impl C R f) (@satisfy_impl C' R f).
Proof.
  intros i U. unfold satisfy_impl. pose proof (s_uncons_tw i U) as H. destruct (s_uncons i) as [r j], (s_uncons (retyped i)) as [r' j'].
  apply same_out_inv in H. destruct H as [H [-> K]]. prs r r' H; try fin; simpl; destruct (f _); fin.
Qed.
Lemma tokens_loop_tw {Y} (cmp : Y -> T -> bool) m m' p p' l : forall c i,
  usable i -> same_out b (@tokens_loop C Y cmp m p c l i) (@tokens_loop C' Y cmp m' p' c l (retyped i)).
Proof.
  induction l as [|x l IH]; intros c i U; simpl.
  - destruct c; fin.
  - pose proof (s_uncons_tw i U) as H. destruct (s_uncons i) as [r j], (s_uncons (retyped i)) as [r' j'].
    apply same_out_inv in H. destruct H as [H [-> K]]. prs r r' H; simpl; try (destruct (cmp x _); auto); destruct c; fin.
Qed.
Lemma tokens_tw {Y} (cmp : Y -> T -> bool) e l : sim (@tokens C Y cmp e l) (@tokens C' Y cmp e l).
Proof.
  apply sim_lazy. intros i U. cbn [ipos TwinSpec.retyped].
  match goal with |- both _ (let (_, _) := ?x in _) (let (_, _) := ?y in _) => assert (same_out b x y) as H by (apply tokens_loop_tw, U); destruct x as [r j], y as [r' j'] end.
  apply same_out_inv in H. destruct H as [H [-> K]]. prs r r' H; fin.
Qed.
Lemma tokens_cmp_tw {Y} (cmp : Y -> T -> bool) l : sim (@tokens_cmp C Y l cmp) (@tokens_cmp C' Y l cmp).
Proof.
  apply sim_lazy. intros i U. cbn [ipos TwinSpec.retyped].
  match goal with |- both _ (let (_, _) := ?x in _) (let (_, _) := ?y in _) => assert (same_out b x y) as H by (apply tokens_loop_tw, U); destruct x as [r j], y as [r' j'] end.
  apply same_out_inv in H. destruct H as [H [-> K]]. prs r r' H; fin.
Qed.
Lemma any_tw : sim (@any C) (@any C').
Proof.
  apply sim_lazy. intros i U. apply s_uncons_tw, U.
Qed.
Lemma eof_sim : sim (@eof C) (@eof C').
Proof.
  apply sim_lazy. intros i U. rewrite uncons_tw. pose proof (uncons_usable i U) as K. destruct (uncons i) as [[t|] j]; cbn [fst snd] in *; [fin|].
  change (se_is_eoi C' (se_eoi C')) with (x_seoi X (x_eoi X)). rewrite Heoi. destruct (se_is_eoi C (se_eoi C)); fin.
Qed.
Lemma take_tw n : sim (@take C n) (@take C' n).
Proof. apply sim_lazy. intros i U. unfold take_lazy. apply s_uncons_range_tw, U. Qed.
Lemma range_tw r : sim (@range C r) (@range C' r).
Proof.
  apply sim_lazy. intros i U. change (@range_len C' r) with (@range_len C r). destruct (uncons_range_tw (range_len r) i U) as [H1 [H2 H3]].
  destruct (uncons_range (range_len r) i) as [x j], (uncons_range (range_len r) (retyped i)) as [x' j']. simpl in *. subst j'.
  destruct x, x'; simpl in H1; try contradiction.
  - subst. change (@list_eqb (tok C) (tok_eqb C) l r) with (@list_eqb T (tok_eqb C) l r). destruct (list_eqb (tok_eqb C) l r); fin.
  - simpl. apply same_out_intro; auto. apply wrap_tw.
Qed.
Lemma parse_partial_range_tw f f' g g' :
  (forall i, usable i -> same_out b (f i) (f' (retyped i))) -> (forall i, usable i -> same_out b (g i) (g' (retyped i))) ->
  runs (@parse_partial_range C f g) (@parse_partial_range C' f' g').
Proof.
  intros F G first i st U. unfold parse_partial_range. cbn [ipart TwinSpec.retyped].
  pose proof (F i U) as Fi. destruct (f i) as [r j], (f' (retyped i)) as [r' j']. apply same_out_inv in Fi. destruct Fi as [H [-> K]].
  destruct (negb (ipart i)); [fin|]. destruct (first || (st =? 0)).
  - prs r r' H; fin || (simpl; apply same_run_intro; simpl; auto; apply distance_tw).
  - destruct (uncons_range_tw st i U) as [H1 [H2 H3]].
    destruct (uncons_range st i) as [x k], (uncons_range st (retyped i)) as [x' k']. simpl in H1, H2, H3. subst k'.
    destruct x, x'; simpl in H1; try contradiction; [|exact I].
    pose proof (G k H3) as Gi. destruct (g k) as [r2 j2], (g' (retyped k)) as [r2' j2']. apply same_out_inv in Gi. destruct Gi as [H4 [-> K4]].
    rewrite distance_tw. pose proof (s_uncons_range_tw (distance j2 i) i U) as H5.
    destruct (s_uncons_range i _) as [r3 j3], (s_uncons_range (retyped i) _) as [r3' j3']. apply same_out_inv in H5. destruct H5 as [H5 [-> K5]].
    prs r2 r2' H4; try fin; prs r3 r3' H5; fin.
Qed.
Lemma take_while_tw (f : T -> bool) : sim (@take_while C f) (@take_while C' f).
Proof.
  unfold take_while. apply sim_mode.
  refine (parse_partial_range_tw _ (fun i => @s_uncons_while C' i f) _ (fun i => @s_uncons_while C' i f) _ _); intros i U; apply s_uncons_while_tw, U.
Qed.
Lemma take_while1_tw (f : T -> bool) : sim (@take_while1 C f) (@take_while1 C' f).
Proof.
  unfold take_while1. apply sim_mode.
  refine (parse_partial_range_tw _ (fun i => @s_uncons_while1 C' i f) _ (fun i => @s_uncons_while C' i f) _ _); intros i U; [apply s_uncons_while1_tw, U|apply s_uncons_while_tw, U].
Qed.
Lemma tur_loop_tw r before tc l : forall fe fe' pos,
  usable before ->
  match fe, fe' with Some (_, d), Some (_, d') => d' = d | None, None => True | _, _ => False end ->
  both (same_run b) (@tur_loop C r before fe tc l pos) (@tur_loop C' r (retyped before) fe' tc l pos).
Proof.
  induction l as [|t l IH]; intros fe fe' pos U F;
    simpl tur_loop; change (@range_len C' r) with (@range_len C r);
    (match goal with |- both _ (match uncons_range ?n ?i with _ => _ end) (match uncons_range _ ?i' with _ => _ end) =>
      assert (same_range (uncons_range n i) (uncons_range n i')) as H by (apply (uncons_range_tw n i), usable_part, U);
      destruct (uncons_range n i) as [x k], (uncons_range n i') as [x' k'] end);
    destruct H as [H1 [H2 H3]]; simpl in H1, H2, H3; subst k'; destruct x as [x|x], x' as [x'|x']; simpl in H1; try contradiction; subst.
  - destruct (list_eqb (tok_eqb C) x r); [|exact I]. rewrite distance_tw.
    destruct (uncons_range_tw (distance k before - range_len r) before U) as [H4 [H5 H6]].
    destruct (uncons_range _ before) as [y j], (uncons_range _ (retyped before)) as [y' j']. simpl in H4, H5, H6. subst j'.
    destruct y, y'; simpl in H4; try contradiction; [subst|exact I]. destruct (_ =? 0); fin.
  - simpl. rewrite distance_tw. destruct fe as [[e d]|], fe' as [[e' d']|]; simpl in *; try contradiction; subst; apply same_run_intro; auto; apply wrap_tw.
  - destruct (list_eqb (tok_eqb C) x r); [|apply IH; auto]. rewrite distance_tw.
    destruct (uncons_range_tw (distance k before - range_len r) before U) as [H4 [H5 H6]].
    destruct (uncons_range _ before) as [y j], (uncons_range _ (retyped before)) as [y' j']. simpl in H4, H5, H6. subst j'.
    destruct y, y'; simpl in H4; try contradiction; [subst|exact I]. destruct (_ =? 0); fin.
  - simpl. apply IH; auto. destruct fe as [[e d]|], fe' as [[e' d']|]; simpl in *; try contradiction; subst; auto.
Qed.
Lemma take_until_range_tw r : sim (@take_until_range C r) (@take_until_range C' r).
Proof.
  apply sim_mode. intros first i st U. unfold take_until_range_run. pose proof (s_uncons_range_tw st i U) as H5.
  destruct (s_uncons_range i _) as [r3 j3], (s_uncons_range (retyped i) _) as [r3' j3']. apply same_out_inv in H5. destruct H5 as [H5 [-> K5]].
  prs r3 r3' H5; try fin; apply tur_loop_tw; auto.
Qed.
Lemma take_fn_tw s : sim (@take_fn C s) (@take_fn C' s).
Proof.
  apply sim_mode. intros first i st U. unfold take_fn_run.
  assert (H : rest (if first then retyped i else snd (uncons_range (if first then 0 else st) (retyped i))) =
              rest (if first then i else snd (uncons_range (if first then 0 else st) i))).
  { destruct first; auto. destruct (uncons_range_tw st i U) as [H1 [H2 H3]]. exact (f_equal (@rest C') H2). }
  change (tok C') with T in *. rewrite H. destruct (s _).
  - pose proof (s_uncons_range_tw ((if first then 0 else st) + n) i U) as H5.
    destruct (s_uncons_range i _) as [r3 j3], (s_uncons_range (retyped i) _) as [r3' j3']. apply same_out_inv in H5. destruct H5 as [H5 [-> K5]].
    prs r3 r3' H5; fin.
  - cbn [ipart TwinSpec.retyped]. rewrite range_len_tw. destruct (_ && _); fin.
Qed.
Lemma fn_parser_tw {A} (f : input C -> outcome (std_result A (Err C) * input C)) f' :
  (forall i, usable i -> both (fun x y => same_std (fst x) (fst y) /\ snd y = retyped (snd x) /\ usable (snd x)) (f i) (f' (retyped i))) ->
  sim (@fn_parser C A f) (@fn_parser C' A f').
Proof.
  intros H. apply sim_lazy. intros i U. eapply both_map; [apply H, U|]. intros [x j] [y k]. cbn [fst snd]. intros [H1 [-> H3]].
  apply same_out_intro; auto. destruct x as [[v [[]|[]]]|[e|e]], y as [[v' [[]|[]]]|[e'|e']]; simpl in *; try contradiction; try congruence; auto.
Qed.
Lemma read_tokens_tw k : forall i, usable i -> same_out b (@read_tokens C k i) (@read_tokens C' k (retyped i)).
Proof.
  induction k as [|k IH]; intros i U; simpl; [fin|].
  pose proof (s_uncons_tw i U) as H. destruct (s_uncons i) as [r j], (s_uncons (retyped i)) as [r' j'].
  apply same_out_inv in H. destruct H as [H [-> K]]. prs r r' H; try fin;
    (specialize (IH j K); destruct (read_tokens k j) as [r2 j2], (read_tokens k (retyped j)) as [r2' j2'];
     apply same_out_inv in IH; destruct IH as [IH [-> K2]]; prs r2 r2' IH; fin).
Qed.
Lemma num_parser_tw {A} code k (d : list N -> A) : sim (@num_parser C code A k d) (@num_parser C' code A k d).
Proof.
  apply fn_parser_tw. intros i U. pose proof (read_tokens_tw k i U) as H.
  destruct (read_tokens k i) as [r j], (read_tokens k (retyped i)) as [r' j'].
  apply same_out_inv in H. destruct H as [H [-> K]]. prs r r' H; simpl; auto.
Qed.

(** ** Combinators *)
Ltac mode H := rewrite ?(s_init H), ?(s_count H); apply sim_mode; intros first i st U.
Ltac by_run H := eapply both_map; [apply (s_run H); assumption|]; run3; try fin.

Lemma message_tw {S A} (p : parser C S A) p' m : sim p p' -> sim (message p m) (@message C' S A p' m).
Proof. intros H. unfold message. mode H. by_run H. Qed.
Lemma expected_tw {S A} (p : parser C S A) p' m : sim p p' -> sim (expected p m) (@expected C' S A p' m).
Proof. intros H. unfold expected. mode H. apply (s_run H), U. Qed.
Lemma silent_tw {S A} (p : parser C S A) p' : sim p p' -> sim (silent p) (silent p').
Proof. intros H. unfold silent. mode H. by_run H. Qed.
Lemma not_followed_by_tw {S A} (p : parser C S A) p' : sim p p' -> sim (not_followed_by p) (not_followed_by p').
Proof. intros H. unfold not_followed_by. mode H. by_run H. Qed.
Lemma attempt_tw {S A} (p : parser C S A) p' : b = false -> sim p p' -> sim (attempt p) (attempt p').
Proof.
  intros Hb H. assert (R : runs (attempt_run p) (attempt_run p')).
  { intros first i st U. unfold attempt_run. eapply both_map; [apply (s_cmode H), U|]. run3; try fin.
    destruct U0 as [U0|U0]; [congruence|]. simpl. rewrite U0. simpl. apply same_run_intro; simpl; auto. right; auto. }
  unfold attempt. rewrite (s_init H), (s_count H). constructor; simpl; auto using outs_lazy.
Qed.
Lemma look_ahead_tw {S A} (p : parser C S A) p' : sim p p' -> sim (look_ahead p) (look_ahead p').
Proof.
  intros H. unfold look_ahead. rewrite (s_count H). apply sim_lazy. intros i U. eapply both_map; [apply (s_lazy H), U|]. run2; fin.
Qed.
Lemma map_tw {S A B} (p : parser C S A) p' (f : A -> B) : sim p p' -> sim (map p f) (map p' f).
Proof. intros H. unfold map. mode H. by_run H. Qed.
Lemma map_input_tw {S A B} (p : parser C S A) p' (f : A -> input C -> B * input C) (f' : A -> input C' -> B * input C') :
  (forall a i, usable i -> usable (snd (f a i)) /\ f' a (retyped i) = (fst (f a i), retyped (snd (f a i)))) ->
  sim p p' -> sim (map_input p f) (map_input p' f').
Proof.
  intros F H. unfold map_input. mode H. by_run H;
    (match goal with |- context [f' ?a (retyped ?j)] => destruct (F a j U0) as [F1 F2]; rewrite F2; destruct (f a j); fin end).
Qed.
Lemma flat_map_tw {S A B} (p : parser C S A) p' (f : A -> B + Err C) (f' : A -> B + Err C') :
  (forall a, same_sum (f a) (f' a)) -> sim p p' -> sim (flat_map p f) (flat_map p' f').
Proof.
  intros F H. unfold flat_map. mode H. by_run H;
    (match goal with |- context [f' ?a] => pose proof (F a) as F1; destruct (f a), (f' a); simpl in F1; try contradiction; subst; fin end).
Qed.
Lemma and_then_tw {S A B} (p : parser C S A) p' (f : A -> B + SErr C) (f' : A -> B + SErr C') :
  (forall a, same_sum (f a) (f' a)) -> sim p p' -> sim (and_then p f) (and_then p' f').
Proof.
  intros F H. unfold and_then. mode H. by_run H;
    (match goal with |- context [f' ?a] => pose proof (F a) as F1; destruct (f a), (f' a); simpl in F1; try contradiction; subst; try fin end);
    rewrite eof_tw; cbn [ipart TwinSpec.retyped]; destruct (_ && _); fin.
Qed.
Lemma from_str_tw {S A B} (p : parser C S A) p' (f : A -> option (B + string)) : sim p p' -> sim (from_str p f) (from_str p' f).
Proof.
  intros H. unfold from_str.
  match goal with |- sim (mk_mode (p_init ?x) _ _ _ _) (mk_mode (p_init ?y) _ _ _ _) => assert (K : sim x y) end.
  { apply and_then_tw; auto. intros a. destruct (f a) as [[v|m]|]; simpl; auto. }
  rewrite (s_init K). apply sim_mode. exact (s_run K).
Qed.
Lemma replay_tw last l : forall p, @replay C' last l p = @replay C last l p.
Proof.
  reflexivity.
Qed.
Lemma recognize_tw {S A} (p : parser C S A) p' : sim p p' -> sim (recognize p) (@recognize C' S A p').
Proof.
  intros H. unfold recognize. mode H. unfold recognize_run. destruct st as [l s]. eapply both_map; [apply (s_run H), U|].
  intros [[r j] s1] [[r' j'] s1'] K. apply same_run_inv in K. destruct K as [K [-> [U0 ->]]].
  cbn [rest ipos ipart TwinSpec.retyped]. rewrite replay_tw. destruct (@replay C (ipos j) (rest i) (ipos i)) as [[[a l'] q] ok].
  prs r r' K; try fin; destruct ok; fin.
Qed.
Lemma no_partial_tw {S A} (p : parser C S A) p' : sim p p' -> sim (no_partial p) (no_partial p').
Proof.
  intros H. unfold no_partial. rewrite (s_count H). apply sim_both; [|exact (s_lazy H)].
  intros first i st U. eapply both_map; [apply (s_lazy H), U|]. run2; fin.
Qed.
Lemma ignore_tw {S A} (p : parser C S A) p' : sim p p' -> sim (ignore p) (ignore p').
Proof.
  intros H. unfold ignore. rewrite (s_count H), (s_init H). apply sim_both.
  - intros first i st U. by_run H.
  - intros i U. eapply both_map; [apply (s_lazy H), U|]. run2; fin.
Qed.
Lemma any_partial_state_tw {S A} (p : parser C S A) p' : sim p p' -> sim (any_partial_state p) (any_partial_state p').
Proof.
  intros H. unfold any_partial_state. rewrite (s_count H). apply sim_both; [|exact (s_lazy H)].
  intros first i [st|] U; unfold any_partial_run; rewrite ?(s_init H); by_run H.
Qed.
Lemma lazy_tw {S A} (p : parser C S A) p' : sim p p' -> sim (lazy p) (lazy p').
Proof. intros []. constructor; simpl; auto. Qed.
Lemma opaque_tw {S A} (p : parser C S A) p' : sim p p' -> sim (opaque p) (opaque p').
Proof. intros []. constructor; simpl; auto using runs_cmode. Qed.
Lemma rerun_tw {S A} (p : parser C S A) p' a a' c c' n : sim p p' -> sim (mk_mode (p_init p) (p_run p) a c n) (mk_mode (p_init p') (p_run p') a' c' n).
Proof. intros H. rewrite (s_init H). apply sim_mode, (s_run H). Qed.
Lemma by_ref_tw {S A} (p : parser C S A) p' : sim p p' -> sim (by_ref p) (by_ref p').
Proof. intros H. unfold by_ref. rewrite (s_count H). apply rerun_tw, H. Qed.
Lemma spanned_tw {Q} (q : Q -> Q -> bool) a1 a2 m {S A} (p : parser C S A) p' : sim p p' -> sim (spanned q a1 a2 m p) (@spanned C' Q S A q a1 a2 m p').
Proof. intros H. unfold spanned. mode H. by_run H. Qed.
Lemma parser_fn0_tw {S A} (p : parser C S A) p' : sim p p' -> sim (parser_fn0 p) (parser_fn0 p').
Proof. intros H. unfold parser_fn0. apply sim_mode. intros first i st U. rewrite (s_init H). by_run H. Qed.
Lemma optional_tw {S A} (p : parser C S A) p' : sim p p' -> sim (optional p) (optional p').
Proof. intros H. unfold optional. mode H. by_run H. Qed.
Lemma left_tw {S1 S2 A} (p : parser C S1 A) p' : sim p p' -> sim (@either C S1 S2 A (inl p)) (@either C' S1 S2 A (inl p')).
Proof.
  intros H. apply sim_both; [|exact (s_lazy H)]. intros first i st U. simpl. rewrite (s_init H). by_run H.
Qed.
Lemma right_tw {S1 S2 A} (p : parser C S2 A) p' : sim p p' -> sim (@either C S1 S2 A (inr p)) (@either C' S1 S2 A (inr p')).
Proof.
  intros H. apply sim_both; [|exact (s_lazy H)]. intros first i st U. simpl. rewrite (s_init H). by_run H.
Qed.
Lemma input_converter_tw (D : Cfg) {S A} (p : parser D S A) (conv : input C -> (input D + Err C) * input C) (conv' : input C' -> (input D + Err C') * input C')
    (cerr : Err D -> input C -> Err C * input C) (cerr' : Err D -> input C' -> Err C' * input C') :
  (forall i, usable i -> same_sum (fst (conv i)) (fst (conv' (retyped i))) /\ snd (conv' (retyped i)) = retyped (snd (conv i)) /\ usable (snd (conv i))) ->
  (forall e i, usable i -> snd (cerr' e (retyped i)) = retyped (snd (cerr e i)) /\ usable (snd (cerr e i))) ->
  sim (input_converter p conv cerr) (input_converter p conv' cerr').
Proof.
  intros F G. apply sim_mode. intros first i st U. destruct (F i U) as [F1 [F2 F3]].
  destruct (conv i) as [x j], (conv' (retyped i)) as [x' j']. cbn [fst snd] in *. subst j'.
  destruct x as [k|e], x' as [k'|e']; simpl in F1; try contradiction; [subst|fin].
  destruct (p_run p first k st) as [[[r k1] s']| |]; simpl; auto. destruct r; try fin.
  - destruct (G e j F3) as [G1 G2]. destruct (cerr e j), (cerr' e (retyped j)). simpl in *. subst. fin.
  - destruct (G (terr e) j F3) as [G1 G2]. destruct (cerr (terr e) j), (cerr' (terr e) (retyped j)). simpl in *. subst. fin.
Qed.

(** ** Sequences *)
Definition same_k (k : seqk (C:=C)) (k' : seqk (C:=C')) : Prop :=
  match k, k' with
  | KOk f c n, KOk f' c' n' => f' = f /\ c' = c /\ n' = n
  | KCommit _, KCommit _ | KHead _, KHead _ => True
  | KPeek _ n, KPeek _ n' => n' = n
  | _, _ => False
  end.
Definition same_seq {SS} (x : seqk (C:=C) * input C * SS * N) (y : seqk (C:=C') * input C' * SS * N) : Prop :=
  match x, y with (k, i, s, o), (k', i', s', o') => same_k k k' /\ i' = retyped i /\ usable i /\ s' = s /\ o' = o end.
Ltac fins := solve [ simpl; repeat split; auto using usable_part ].

Lemma seq_head_tw {S A} (p : parser C S A) p' first i st off :
  sim p p' -> usable i -> both same_seq (seq_head p first i st off) (seq_head p' first (retyped i) st off).
Proof.
  intros H U. unfold seq_head. destruct st as [v s]. destruct (first || is_none v); [|fins].
  rewrite (s_count H). eapply both_map; [apply (s_run H), U|]. run3; fins.
Qed.
Lemma seq_elem_tw {S A} (p : parser C S A) p' first cur fep i st off :
  sim p p' -> usable i -> both same_seq (seq_elem p first cur fep i st off) (seq_elem p' first cur fep (retyped i) st off).
Proof.
  intros H U. unfold seq_elem. destruct st as [v s]. destruct (first || is_none v); [|fins].
  rewrite (s_count H). eapply both_map; [apply (s_run H), U|]. run3; fins.
Qed.

Inductive sim_tup : forall SS B, tup (C:=C) SS B -> tup (C:=C') SS B -> Prop :=
| st_one S A (p : parser C S A) p' : sim p p' -> sim_tup _ _ (T1 p) (T1 p')
| st_more S A SS B (p : parser C S A) p' (t : tup (C:=C) SS B) t' : sim p p' -> sim_tup _ _ t t' -> sim_tup _ _ (TC p t) (TC p' t').
Arguments sim_tup {SS B}.

Ltac runs4 :=
  let k := fresh "k" in let j := fresh "j" in let s := fresh "s" in let o := fresh "o" in
  let k' := fresh "k'" in let j' := fresh "j'" in let s' := fresh "s'" in let o' := fresh "o'" in
  let H := fresh "H" in let V := fresh "V" in
  intros [[[k j] s] o] [[[k' j'] s'] o'] [H [-> [V [-> ->]]]]; destruct k, k'; simpl in H; try contradiction;
  try (match type of H with _ /\ _ => destruct H as [-> [-> ->]] end); try subst.

Lemma seq_rest_tw {SS B} (t : tup (C:=C) SS B) t' : sim_tup t t' -> forall first cur fep i st off,
  usable i -> both same_seq (seq_rest t first cur fep i st off) (seq_rest t' first cur fep (retyped i) st off).
Proof.
  induction 1 as [S A p p' H|S A SS B p p' t t' H Ht IH]; intros first cur fep i st off U.
  - apply seq_elem_tw; auto.
  - simpl. eapply both_bind; [apply seq_elem_tw; eauto|]. runs4; try fins.
    eapply both_map; [apply IH, V|]. runs4; fins.
Qed.
Lemma seq_all_tw {SS B} (t : tup (C:=C) SS B) t' : sim_tup t t' -> forall first i st off,
  usable i -> both same_seq (seq_all t first i st off) (seq_all t' first (retyped i) st off).
Proof.
  intros [S A p p' H|S A SS' B' p p' r r' H Ht] first i st off U.
  - apply seq_head_tw; auto.
  - simpl. eapply both_bind; [apply seq_head_tw; eauto|]. runs4; try fins.
    eapply both_map; [apply (seq_rest_tw r r' Ht), V|]. runs4; fins.
Qed.
Lemma tup_take_tw {SS B} (t : tup (C:=C) SS B) t' : sim_tup t t' -> forall st, tup_take t' st = tup_take t st.
Proof. induction 1; intros st; simpl; auto. rewrite IHsim_tup. reflexivity. Qed.
Lemma tup_init_tw {SS B} (t : tup (C:=C) SS B) t' : sim_tup t t' -> tup_init t' = tup_init t.
Proof. induction 1; simpl; rewrite ?(s_init H), ?IHsim_tup; reflexivity. Qed.
Lemma tup_count_tw {SS B} (t : tup (C:=C) SS B) t' : sim_tup t t' -> tup_count (tup_errfns t') = tup_count (tup_errfns t).
Proof. unfold tup_count. induction 1; simpl; rewrite ?(s_count H), ?IHsim_tup; reflexivity. Qed.
Lemma add_errors_tw {A} i e e' fep off l l' : usable i ->
  same_out b (@add_errors C A i e fep off l) (@add_errors C' A (retyped i) e' fep off l').
Proof.
  intros U. unfold add_errors. destruct (fep =? 0); [fin|]. rewrite uncons_tw. pose proof (uncons_usable i U) as K.
  destruct (uncons i) as [[t|] j]; fin.
Qed.
Lemma tuple_tw {SS B} (t : tup (C:=C) SS B) t' : sim_tup t t' -> sim (tuple t) (tuple t').
Proof.
  intros H. unfold tuple. rewrite (tup_init_tw t t' H), (tup_count_tw t t' H). apply sim_mode. intros first i [st off] U.
  unfold tuple_run. eapply both_bind; [apply seq_all_tw; eauto|]. runs4; try fin.
  - rewrite (tup_take_tw t t' H). destruct (tup_take t s) as [[v s2]|]; [|exact I]. simpl. destruct (_ =? 0); fin.
  - match goal with |- both _ (let (_, _) := ?x in _) (let (_, _) := ?y in _) => assert (same_out b x y) as K by (apply add_errors_tw, V); destruct x as [r2 j2], y as [r2' j2'] end.
    apply same_out_inv in K. destruct K as [K [-> W]]. fin.
Qed.
Lemma with_tw {S1 S2 A B} (p : parser C S1 A) p' (q : parser C S2 B) q' : sim p p' -> sim q q' -> sim (with_ p q) (with_ p' q').
Proof.
  intros Hp Hq. unfold with_. assert (K : sim (pair2 (ignore p) q) (pair2 (ignore p') q')).
  { apply tuple_tw. constructor; [apply ignore_tw, Hp|constructor; exact Hq]. }
  rewrite (s_init K), (s_count K). apply sim_both.
  - intros first i st U. by_run K.
  - intros i U. eapply both_map; [apply (s_lazy K), U|]. run2; fin.
Qed.
Lemma skip_tw {S1 S2 A B} (p : parser C S1 A) p' (q : parser C S2 B) q' : sim p p' -> sim q q' -> sim (skip p q) (skip p' q').
Proof.
  intros Hp Hq. unfold skip. assert (K : sim (pair2 p (ignore q)) (pair2 p' (ignore q'))).
  { apply tuple_tw. constructor; [exact Hp|constructor; apply ignore_tw, Hq]. }
  mode K. by_run K.
Qed.
Lemma then_tw {S1 S2 A B} (p : parser C S1 A) p' s0 (f : A -> parser C S2 B) f' :
  sim p p' -> (forall a, runs (p_cmode (f a)) (p_cmode (f' a))) -> sim (then_ p s0 f) (then_ p' s0 f').
Proof.
  intros H F. unfold then_. mode H. unfold then_run. destruct st as [[sp c] sn].
  assert (G : forall com (sp : S1) (c : option (bool * A)) a first i sn, usable i ->
    both (same_run b) (omap (then_finish com sp c) (p_cmode (f a) first i sn)) (omap (then_finish com sp c) (p_cmode (f' a) first (retyped i) sn))).
  { intros com sp1 c1 a first1 i1 sn1 U1. eapply both_map; [apply F, U1|]. run3; simpl; destruct com; fin. }
  destruct (first || is_none c).
  - change (dbg C') with (dbg C). destruct (dbg C && negb (is_none c)); [exact I|].
    eapply both_bind; [apply (s_run H), U|]. run3; try fin; apply G; auto.
  - destruct c as [[com a]|]; [|exact I]. apply G, U.
Qed.
Lemma then_ref_tw {S1 S2 A B} (p : parser C S1 A) p' s0 (f : A -> parser C S2 B) f' :
  sim p p' -> (forall a, sim (f a) (f' a)) -> sim (then_ref p s0 f) (then_ref p' s0 f').
Proof.
  intros H F. unfold then_ref. apply then_tw; auto. intros a first i st U. simpl.
  eapply both_map; [apply (s_cmode (F a)), U|]. run3; fin.
Qed.

(** ** Choices *)
Inductive sim_alts : forall A SS, alts (C:=C) A SS -> alts (C:=C') A SS -> Prop :=
| sa_one S A (p : parser C S A) p' : sim p p' -> sim_alts _ _ (AL p) (AL p')
| sa_more S A SS (p : parser C S A) p' (t : alts (C:=C) A SS) t' : sim p p' -> sim_alts _ _ t t' -> sim_alts _ _ (AC p t) (AC p' t').
Arguments sim_alts {A SS}.
Definition same_tried {A SS} (x : tried (C:=C) A SS) (y : tried (C:=C') A SS) : Prop :=
  match x, y with
  | TEnd r i s, TEnd r' i' s' => same_pr r r' /\ i' = retyped i /\ usable i /\ s' = s
  | TFail l, TFail l' => length l' = length l
  | _, _ => False
  end.
Lemma try_one_tw {S A} (p : parser C S A) p' i : sim p p' -> usable i -> both same_tried (try_one p i) (try_one p' (retyped i)).
Proof.
  intros H U. unfold try_one. rewrite (s_init H). eapply both_map; [apply (s_run H), U|]. run3; fins.
Qed.
Ltac trs :=
  let r := fresh "r" in let j := fresh "j" in let s := fresh "s" in let l := fresh "l" in
  let r' := fresh "r'" in let j' := fresh "j'" in let s' := fresh "s'" in let l' := fresh "l'" in let H := fresh "H" in let V := fresh "V" in
  intros [r j s|l] [r' j' s'|l'] H; simpl in H; try contradiction; [destruct H as [H [-> [V ->]]]|].
Lemma choice_try_tw {A SS} (t : alts (C:=C) A SS) t' : sim_alts t t' -> forall i, usable i -> both same_tried (choice_try t i) (choice_try t' (retyped i)).
Proof.
  induction 1 as [S A p p' H|S A SS p p' t t' H Ht IH]; intros i U; simpl.
  - apply try_one_tw; auto.
  - eapply both_bind; [apply try_one_tw; eauto|]. trs; [fins|]. eapply both_map; [apply IH, U|]. trs; [fins|]. simpl. rewrite !app_length. congruence.
Qed.
Lemma choice_resume_tw {A SS} (t : alts (C:=C) A SS) t' : sim_alts t t' -> forall first i st, usable i ->
  both (same_run b) (choice_resume t first i st) (choice_resume t' first (retyped i) st).
Proof.
  induction 1 as [S A p p' H|S A SS p p' t t' H Ht IH]; intros first i st U; simpl.
  - apply (s_run H), U.
  - destruct st as [s|s].
    + by_run H.
    + eapply both_map; [apply IH, U|]. run3; fin.
Qed.
Lemma choice_run_tw {A SS} (t : alts (C:=C) A SS) t' : sim_alts t t' -> runs (choice_run t) (choice_run t').
Proof.
  intros H first i st U. unfold choice_run.
  match goal with |- both ?R (if _ then ?x else _) (if _ then ?y else _) => assert (G : both R x y) end.
  { eapply both_bind; [apply (choice_try_tw t t' H), U|]. trs; [destruct s; fin|].
    destruct l as [|e l], l' as [|e' l']; try discriminate; simpl; auto. fin. }
  destruct first; auto. destruct st as [s|]; auto. eapply both_map; [apply (choice_resume_tw t t' H), U|]. run3; fin.
Qed.
Lemma choice_tw {A SS} (t : alts (C:=C) A SS) t' : sim_alts t t' -> sim (choice t) (choice t').
Proof. intros H. apply sim_mode, choice_run_tw, H. Qed.
Lemma or_tw {S1 S2 A} (p : parser C S1 A) p' (q : parser C S2 A) q' : sim p p' -> sim q q' -> sim (or_ p q) (or_ p' q').
Proof. intros H K. apply sim_mode, choice_run_tw. constructor; auto. constructor; auto. Qed.

Lemma slice_loop_tw {S A} (ps : list (parser C S A)) ps' : Forall2 sim ps ps' -> forall all all' before first n last last' prev prev' idx st cur,
  usable before -> usable cur ->
  both (same_run b) (slice_loop all before first n last prev ps idx st cur) (slice_loop all' (retyped before) first n last' prev' ps' idx st (retyped cur)).
Proof.
  induction 1 as [|p p' l l' H Hl IH]; intros all all' before first n last last' prev prev' idx st cur U V; simpl.
  - fin.
  - eapply both_bind; [apply (s_run H), U|]. run3; try fin.
    destruct (slice_merge all n last prev e), (slice_merge all' n last' prev' e0). apply IH; auto.
Qed.
Lemma choice_slice_tw {S A} (s0 : S) (ps : list (parser C S A)) ps' : Forall2 sim ps ps' -> sim (choice_slice s0 ps) (choice_slice s0 ps').
Proof.
  intros H. apply sim_mode. intros first i [idx st] U. unfold slice_run. destruct (negb first && negb (idx =? 0)).
  - assert (G : match nth_error ps (idx - 1), nth_error ps' (idx - 1) with Some p, Some p' => sim p p' | None, None => True | _, _ => False end).
    { generalize (idx - 1). clear -H. induction H; intros [|n]; simpl; auto; try apply IHForall2. }
    destruct (nth_error ps _), (nth_error ps' _); try contradiction; [|exact I]. by_run G.
  - apply slice_loop_tw; auto.
Qed.

Inductive sim_disp : forall A SS, disp (C:=C) A SS -> disp (C:=C') A SS -> Prop :=
| sd_here S SS A (p : parser C S A) p' : sim p p' -> sim_disp _ _ (@DC C A S SS p) (@DC C' A S SS p')
| sd_later S SS A (d : disp (C:=C) A SS) d' : sim_disp _ _ d d' -> sim_disp _ _ (@DN C A S SS d) (@DN C' A S SS d').
Arguments sim_disp {A SS}.
Lemma disp_run_tw {A SS} (d : disp (C:=C) A SS) d' : sim_disp d d' -> runs (disp_run d) (disp_run d').
Proof.
  induction 1 as [S SS A p p' H|S SS A d d' H IH]; intros first i st U; simpl.
  - rewrite (s_init H). by_run H.
  - eapply both_map; [apply IH, U|]. run3; fin.
Qed.
Lemma dispatch_tw {A SS} (d : disp (C:=C) A SS) d' : sim_disp d d' -> sim (dispatch d) (dispatch d').
Proof. intros H. apply sim_mode, disp_run_tw, H. Qed.

(** ** Repetitions *)
Definition same_is (x : iter_state (C:=C)) (y : iter_state (C:=C')) : Prop :=
  match x, y with ISOk, ISOk | ISPeek _, ISPeek _ | ISCommit _, ISCommit _ => True | _, _ => False end.
Definition same_iter {A S} (x : list A * iter_state (C:=C) * bool * input C * S) (y : list A * iter_state (C:=C') * bool * input C' * S) : Prop :=
  match x, y with (l, is, c, i, s), (l', is', c', i', s') => l' = l /\ same_is is is' /\ c' = c /\ i' = retyped i /\ usable i /\ s' = s end.
Ltac its :=
  let l := fresh "l" in let is := fresh "is" in let c := fresh "c" in let j := fresh "j" in let s := fresh "s" in
  let l' := fresh "l'" in let is' := fresh "is'" in let c' := fresh "c'" in let j' := fresh "j'" in let s' := fresh "s'" in
  let H := fresh "H" in let V := fresh "V" in
  intros [[[[l is] c] j] s] [[[[l' is'] c'] j'] s'] [-> [H [-> [-> [V ->]]]]]; destruct is, is'; simpl in H; try contradiction.
Ltac iter H IH := eapply both_bind; [apply (s_run H); assumption|]; run3; try fins; (eapply both_map; [apply IH; assumption|]; its; fins).
Lemma iter_all_tw {S A} n (p : parser C S A) p' : sim p p' -> forall first c i st, usable i ->
  both same_iter (iter_all n p first c i st) (iter_all n p' first c (retyped i) st).
Proof. intros H. induction n as [|n IH]; intros first c i st U; [exact I|]. simpl. iter H IH. Qed.
Lemma iter_take_tw {S A} n (p : parser C S A) p' : sim p p' -> forall first c i st, usable i ->
  both same_iter (iter_take n p first c i st) (iter_take n p' first c (retyped i) st).
Proof. intros H. induction n as [|n IH]; intros first c i st U; [fins|]. simpl. iter H IH. Qed.
Lemma iter_scan_tw {S A} n (p : parser C S (option A)) p' : sim p p' -> forall first c i st, usable i ->
  both same_iter (iter_scan n p first c i st) (iter_scan n p' first c (retyped i) st).
Proof.
  intros H. induction n as [|n IH]; intros first c i st U; [exact I|]. simpl.
  eapply both_bind; [apply (s_run H); assumption|]. run3; try fins;
    (match goal with |- both _ (match ?x with _ => _ end) _ => destruct x end; try fins); (eapply both_map; [apply IH; assumption|]; its; fins).
Qed.
Ltac count_fin := simpl; repeat (match goal with |- context [if ?c then _ else _] => is_var c; destruct c end); fin.
Lemma count_min_max_tw {S A} mn mx (p : parser C S A) p' : sim p p' -> sim (count_min_max mn mx p) (count_min_max mn mx p').
Proof.
  intros H. unfold count_min_max. mode H. unfold count_min_max_run. destruct st as [[n l] s]. destruct (mx <? mn); [exact I|].
  eapply (both_bind same_iter).
  - destruct (mx <? n); [|apply iter_take_tw; auto]. change (dbg C') with (dbg C). destruct (dbg C); [exact I|]. change (fuel C') with (fuel C). apply iter_all_tw; auto.
  - its; destruct (_ <? mn); cbn [iter_fail into_result_fast]; count_fin.
Qed.
Lemma many_tw {S A} (p : parser C S A) p' : sim p p' -> sim (many p) (many p').
Proof.
  intros H. unfold many. mode H. unfold many_run. destruct st as [l s]. change (fuel C') with (fuel C).
  eapply both_map; [apply (iter_all_tw _ p p' H), U|]. its; count_fin.
Qed.
Lemma many1_tw {S A} (p : parser C S A) p' : sim p p' -> sim (many1 p) (many1 p').
Proof.
  intros H. unfold many1. mode H. unfold many1_run. destruct st as [[[one cs] l] s].
  assert (G : forall f c i l s, usable i -> both (same_run b) (many1_iter p f c i l s) (many1_iter p' f c (retyped i) l s)).
  { intros f c j l1 s1 V. unfold many1_iter. change (fuel C') with (fuel C). eapply both_map; [apply (iter_all_tw _ p p' H), V|]. its; count_fin. }
  destruct (first || negb one); auto. change (dbg C') with (dbg C). destruct (dbg C && one); [exact I|].
  eapply both_bind; [apply (s_run H), U|]. run3; try fin; apply G; auto.
Qed.
Lemma sep_rest_tw {S1 S2 A B} (p : parser C S1 A) p' (q : parser C S2 B) q' first i po rest l c : sim p p' -> sim q q' -> usable i ->
  both (same_run b) (sep_by1_rest p q first i po rest l c) (sep_by1_rest p' q' first (retyped i) po rest l c).
Proof.
  intros H K U. unfold sep_by1_rest. change (fuel C') with (fuel C).
  eapply both_map; [apply (iter_all_tw _ _ _ (with_tw _ _ _ _ (by_ref_tw _ _ K) (by_ref_tw _ _ H))), U|]. its; destruct rest; count_fin.
Qed.
Lemma sep_by1_tw {S1 S2 A B} (p : parser C S1 A) p' (q : parser C S2 B) q' : sim p p' -> sim q q' -> sim (sep_by1 p q) (sep_by1 p' q').
Proof.
  intros H K. unfold sep_by1. rewrite (s_init (with_tw _ _ _ _ K H)), (s_count H). apply sim_mode. intros first i [[po l] c] U. unfold sep_by1_run.
  destruct po as [r|]; [apply sep_rest_tw; auto|]. eapply both_bind; [apply (s_run H), U|]. run3; try fin; apply sep_rest_tw; auto.
Qed.
Lemma value_tw {A} (v : A) : sim (@value C A v) (@value C' A v).
Proof. apply sim_lazy. intros i U. fin. Qed.
Lemma sep_by_tw {S1 S2 A B} (p : parser C S1 A) p' (q : parser C S2 B) q' : sim p p' -> sim q q' -> sim (sep_by p q) (sep_by p' q').
Proof.
  intros H K. unfold sep_by. rewrite (s_count H). apply sim_mode, choice_run_tw. constructor; [apply sep_by1_tw; auto|]. constructor. apply value_tw.
Qed.
Lemma sep_end_rest_tw {S1 S2 A B} (p : parser C S1 A) p' (q : parser C S2 B) q' first i rest l c : sim p p' -> sim q q' -> usable i ->
  both (same_run b) (sep_end_by1_rest p q first i rest l c) (sep_end_by1_rest p' q' first (retyped i) rest l c).
Proof.
  intros H K U. unfold sep_end_by1_rest. change (fuel C') with (fuel C).
  eapply both_map; [apply (iter_scan_tw _ _ _ (with_tw _ _ _ _ (by_ref_tw _ _ K) (optional_tw _ _ (by_ref_tw _ _ H)))), U|]. its; destruct rest; count_fin.
Qed.
Lemma sep_end_by1_tw {S1 S2 A B} (p : parser C S1 A) p' (q : parser C S2 B) q' : sim p p' -> sim q q' -> sim (sep_end_by1 p q) (sep_end_by1 p' q').
Proof.
  intros H K. unfold sep_end_by1. rewrite (s_init (with_tw _ _ _ _ K (optional_tw _ _ H))). apply sim_mode. intros first i [[po l] c] U. unfold sep_end_by1_run.
  destruct po as [r|]; [apply sep_end_rest_tw; auto|]. eapply both_bind; [apply (s_run H), U|]. run3; try fin; apply sep_end_rest_tw; auto.
Qed.
Lemma sep_end_by_tw {S1 S2 A B} (p : parser C S1 A) p' (q : parser C S2 B) q' : sim p p' -> sim q q' -> sim (sep_end_by p q) (sep_end_by p' q').
Proof.
  intros H K. unfold sep_end_by. apply sim_mode, choice_run_tw. constructor; [apply sep_end_by1_tw; auto|]. constructor. apply value_tw.
Qed.
Lemma pair2_tw {S1 S2 A B} (p : parser C S1 A) p' (q : parser C S2 B) q' : sim p p' -> sim q q' -> sim (pair2 p q) (pair2 p' q').
Proof. intros H K. apply tuple_tw. constructor; auto. constructor; auto. Qed.
Lemma chainl_loop_tw {S1 S2 A} (p : parser C S1 A) p' (o : parser C S2 (A -> A -> A)) o' n : sim p p' -> sim o o' -> forall first l c i ch, usable i ->
  both (same_run b) (chainl_loop n p o first l c i ch) (chainl_loop n p' o' first l c (retyped i) ch).
Proof.
  intros H K. induction n as [|n IH]; intros first l c i ch U; [exact I|]. simpl.
  eapply both_bind; [apply (s_run (pair2_tw _ _ _ _ (by_ref_tw _ _ K) (by_ref_tw _ _ H))); assumption|].
  run3; simpl; try fin; try (match goal with |- both _ (match ?x with _ => _ end) _ => destruct x end; apply IH; auto). destruct c as [[]|[]]; fin.
Qed.
Lemma chainl1_tw {S1 S2 A} (p : parser C S1 A) p' (o : parser C S2 (A -> A -> A)) o' : sim p p' -> sim o o' -> sim (chainl1 p o) (chainl1 p' o').
Proof.
  intros H K. unfold chainl1. rewrite (s_init (pair2_tw _ _ _ _ K H)). apply sim_mode. intros first i [ls ch] U. unfold chainl1_run. change (fuel C') with (fuel C).
  destruct ls as [[l c]|]; [apply chainl_loop_tw; auto|]. eapply both_bind; [apply (s_run H), U|]. run3; try fin; apply chainl_loop_tw; auto.
Qed.
Lemma chainr_tw {S1 S2 A} (p : parser C S1 A) p' (o : parser C S2 (A -> A -> A)) o' n : sim p p' -> sim o o' ->
  (forall i, usable i -> both (same_out b) (chainr_lazy n p o i) (chainr_lazy n p' o' (retyped i))) /\
  (forall l c i, usable i -> both (same_out b) (chainr_loop n p o l c i) (chainr_loop n p' o' l c (retyped i))).
Proof.
  intros H K. induction n as [|n [IH1 IH2]]; [split; intros; exact I|]. split.
  - intros i U. simpl. eapply both_bind; [apply (s_lazy H), U|]. run2; try fin; apply IH2; auto.
  - intros l c i U. simpl. eapply both_bind; [apply (s_lazy K), U|]. run2; simpl; try fin; try (destruct c as [[]|[]]; fin);
      (eapply both_bind; [apply IH1; assumption|]; run2; simpl; try fin; try (apply IH2; auto); destruct c as [[]|[]]; fin).
Qed.
Lemma chainr1_tw {S1 S2 A} (p : parser C S1 A) p' (o : parser C S2 (A -> A -> A)) o' : sim p p' -> sim o o' -> sim (chainr1 p o) (chainr1 p' o').
Proof. intros H K. apply sim_lazy. intros i U. change (fuel C') with (fuel C). apply chainr_tw; auto. Qed.
Lemma take_until_loop_tw {S A} (p : parser C S A) p' first part l : sim p p' -> (b = true \/ part = false) -> forall c out pos st,
  both (same_run b) (take_until_loop p first c part out l pos st) (@take_until_loop C' S A p' first c part out l pos st).
Proof.
  intros H V. induction l as [|t l IH]; intros c out pos st; simpl.
  - eapply both_bind. { apply (s_run H first (@Inp C [] pos part)). exact V. }
    run3; simpl; try (destruct c as [[]|[]]; fin); try fin. unfold s_uncons, uncons, wrap_stream_error. simpl. destruct part; fin.
  - eapply both_bind. { apply (s_run H first (@Inp C (t :: l) pos part)). exact V. }
    run3; simpl; try (destruct c as [[]|[]]; fin); try fin; apply IH.
Qed.
Lemma take_until_tw {S A} (p : parser C S A) p' : sim p p' -> sim (take_until p) (@take_until C' S A p').
Proof. intros H. unfold take_until. mode H. apply take_until_loop_tw; auto. Qed.
Lemma repeat_until_loop_tw {S1 S2 A B} (p : parser C S1 A) p' (e : parser C S2 B) e' n : sim p p' -> sim e e' -> forall first c i out ip ps es, usable i ->
  both (same_run b) (repeat_until_loop n p e first c i out ip ps es) (repeat_until_loop n p' e' first c (retyped i) out ip ps es).
Proof.
  intros H K. induction n as [|n IH]; intros first c i out ip ps es U; [exact I|]. simpl. destruct ip.
  - eapply both_bind; [apply (s_run H), U|]. run3; try fin; apply IH; auto.
  - eapply both_bind; [apply (s_run K), U|]. run3; simpl; try (destruct c as [[]|[]]; fin); try fin; apply IH; auto.
Qed.
Lemma repeat_until_tw {S1 S2 A B} (p : parser C S1 A) p' (e : parser C S2 B) e' : sim p p' -> sim e e' -> sim (repeat_until p e) (repeat_until p' e').
Proof.
  intros H K. unfold repeat_until. rewrite (s_init H), (s_init K). apply sim_mode. intros first i [[[out ip] ps] es] U. change (fuel C') with (fuel C).
  apply repeat_until_loop_tw; auto.
Qed.
Lemma escaped_loop_tw {S1 S2 A B} (p : parser C S1 A) p' x (e : parser C S2 B) e' n : sim p p' -> sim e e' -> forall c i, usable i ->
  both (same_out b) (escaped_loop n p x e c i) (@escaped_loop C' S1 A S2 B n p' x e' c (retyped i)).
Proof.
  intros H K. induction n as [|n IH]; intros c i U; [exact I|]. simpl.
  eapply both_bind; [apply (s_lazy H), U|]. run2; try fin; try (apply IH; auto).
  pose proof (s_uncons_tw j U0) as G. destruct (s_uncons j) as [r1 j1], (s_uncons (retyped j)) as [r1' j1']. apply same_out_inv in G. destruct G as [G [-> W]].
  prs r1 r1' G; try (destruct c as [[]|[]]; fin);
    (match goal with |- context [tok_eqb C ?y x] => destruct (tok_eqb C y x) end; [|destruct c as [[]|[]]; fin]);
    rewrite (s_init K); (eapply both_bind; [apply (s_cmode K); assumption|]); run3; try fin; apply IH; auto.
Qed.
Lemma escaped_tw {S1 S2 A B} (p : parser C S1 A) p' x (e : parser C S2 B) e' : sim p p' -> sim e e' -> sim (escaped p x e) (@escaped C' S1 A S2 B p' x e').
Proof. intros H K. apply sim_lazy. intros i U. change (fuel C') with (fuel C). apply escaped_loop_tw; auto. Qed.

Definition same_items {J A S} (x : list A * option (J * list J * PR (list A) (Err C)) * bool * input C * S)
    (y : list A * option (J * list J * PR (list A) (Err C')) * bool * input C' * S) : Prop :=
  match x, y with (l, o, c, i, s), (l', o', c', i', s') =>
    l' = l /\ match o, o' with None, None => True | Some (x, m, r), Some (x', m', r') => x' = x /\ m' = m /\ same_pr r r' | _, _ => False end /\
    c' = c /\ i' = retyped i /\ usable i /\ s' = s end.
Ltac iti :=
  let l := fresh "l" in let o := fresh "o" in let c := fresh "c" in let j := fresh "j" in let s := fresh "s" in
  let l' := fresh "l'" in let o' := fresh "o'" in let c' := fresh "c'" in let j' := fresh "j'" in let s' := fresh "s'" in
  let H := fresh "H" in let V := fresh "V" in
  intros [[[[l o] c] j] s] [[[[l' o'] c'] j'] s'] [-> [H [-> [-> [V ->]]]]];
  destruct o as [[[? ?] ?]|], o' as [[[? ?] ?]|]; simpl in H; try contradiction; [destruct H as [-> [-> H]]|].
Lemma iterate_items_tw {J S A} (f : J -> parser C S A) f' items : (forall x, sim (f x) (f' x)) -> forall first c i st, usable i ->
  both same_items (iterate_items f first c items i st) (iterate_items f' first c items (retyped i) st).
Proof.
  intros F. induction items as [|x items IH]; intros first c i st U; simpl; [fins|].
  eapply both_bind; [apply (s_run (F x)), U|]. run3; try (destruct c; fins); try fins;
    (eapply both_map; [apply IH; assumption|]; iti; fins).
Qed.
Lemma iterate_tw {J S A} (s0 : S) items (f : J -> parser C S A) f' : (forall x, sim (f x) (f' x)) -> sim (iterate s0 items f) (iterate s0 items f').
Proof.
  intros F. apply sim_mode. intros first i [[[oi c] buf] nx] U. unfold iterate_run.
  destruct (match oi with Some it => if first then (items, None) else it | None => (items, None) end) as [it ni].
  eapply both_map; [apply iterate_items_tw; assumption|]. iti; [fin|]. simpl. destruct c0; fin.
Qed.
Lemma recognize_with_value_tw {S A} (p : parser C S A) p' : sim p p' -> sim (recognize_with_value p) (@recognize_with_value C' S A p').
Proof.
  intros H. unfold recognize_with_value. mode H. unfold recognize_with_value_run. destruct st as [d s].
  eapply (both_bind (fun j j' => j' = retyped j /\ usable j)).
  - destruct first; [fins|]. destruct (uncons_range_tw d i U) as [H1 [H2 H3]].
    destruct (uncons_range d i) as [x k], (uncons_range d (retyped i)) as [x' k']. simpl in H1, H2, H3. subst k'.
    destruct x, x'; simpl in H1; try contradiction; [fins|exact I].
  - intros j j' [-> V]. eapply both_bind; [apply (s_run H), V|]. run3; rewrite ?distance_tw; try fin;
    (match goal with |- context [s_uncons_range i ?n] => pose proof (s_uncons_range_tw n i U) as H5;
      destruct (s_uncons_range i n) as [r3 j3], (s_uncons_range (retyped i) n) as [r3' j3'] end; apply same_out_inv in H5; destruct H5 as [H5 [-> K5]];
      prs r3 r3' H5; fin).
Qed.
End TwinProofs.

Section TwinMain.
Context {C : Cfg} {X : errty (tok C) (Pos C)}.
Notation C' := (retype C X).

Local Ltac simple_lazy := apply sim_lazy; let i := fresh in let U := fresh in intros i U; repeat split; simpl; auto.
Lemma twin_sim (b : bool) : x_seoi X (x_eoi X) = se_is_eoi C (se_eoi C) ->
  forall S A (p : parser C S A) (p' : parser C' S A), twin b p p' -> sim b p p'.
Proof.
  intros Heoi.
  apply (twin_mut (C:=C) (X:=X) (any_stream:=b)
           (fun S A p p' => sim b p p') (fun SS B t t' => @sim_tup C X b SS B t t') (fun A SS t t' => @sim_alts C X b A SS t t')
           (fun A SS d d' => @sim_disp C X b A SS d d') (fun S A l l' => Forall2 (sim b) l l')); intros;
  [> apply any_tw
  | apply sim_lazy, satisfy_impl_tw
  | apply sim_lazy, satisfy_impl_tw
  | apply sim_lazy, satisfy_impl_tw
  | apply sim_lazy, satisfy_impl_tw
  | apply sim_lazy, satisfy_impl_tw
  | apply tokens_tw
  | apply tokens_cmp_tw
  | simple_lazy
  | simple_lazy
  | simple_lazy
  | simple_lazy
  | apply eof_sim; assumption
  | apply take_tw; assumption
  | apply range_tw; assumption
  | apply take_while_tw; assumption
  | apply take_while1_tw; assumption
  | apply take_until_range_tw; assumption
  | apply take_fn_tw; assumption
  | apply fn_parser_tw; assumption
  | apply num_parser_tw; assumption
  | apply message_tw; assumption
  | apply expected_tw; assumption
  | apply silent_tw; assumption
  | apply not_followed_by_tw; assumption
  | apply attempt_tw; assumption
  | apply look_ahead_tw; assumption
  | apply map_tw; assumption
  | apply map_input_tw; assumption
  | apply flat_map_tw; assumption
  | apply and_then_tw; assumption
  | apply from_str_tw; assumption
  | apply recognize_tw; assumption
  | apply no_partial_tw; assumption
  | apply ignore_tw; assumption
  | apply any_partial_state_tw; assumption
  | apply lazy_tw; assumption
  | apply rerun_tw; assumption
  | apply opaque_tw; assumption
  | apply spanned_tw; assumption
  | apply by_ref_tw; assumption
  | apply rerun_tw; assumption
  | apply parser_fn0_tw; assumption
  | apply optional_tw; assumption
  | apply left_tw; assumption
  | apply right_tw; assumption
  | apply dispatch_tw; assumption
  | apply input_converter_tw; assumption
  | apply tuple_tw; assumption
  | apply with_tw; assumption
  | apply skip_tw; assumption
  | apply then_tw; auto; intros; apply s_cmode; auto
  | apply then_ref_tw; assumption
  | apply choice_tw; assumption
  | apply or_tw; assumption
  | apply choice_slice_tw; assumption
  | apply count_min_max_tw; assumption
  | apply many_tw; assumption
  | apply many1_tw; assumption
  | apply sep_by_tw; assumption
  | apply sep_by1_tw; assumption
  | apply sep_end_by_tw; assumption
  | apply sep_end_by1_tw; assumption
  | apply chainl1_tw; assumption
  | apply chainr1_tw; assumption
  | apply take_until_tw; assumption
  | apply repeat_until_tw; assumption
  | apply escaped_tw; assumption
  | apply iterate_tw; assumption
  | apply recognize_with_value_tw; assumption
  | constructor; assumption
  | constructor; assumption
  | constructor; assumption
  | constructor; assumption
  | constructor; assumption
  | constructor; assumption
  | constructor
  | constructor; assumption ].
Qed.
End TwinMain.
