(** Proofs for C52: solid parsers always return. *)
From Coq Require Import String List Bool Arith NArith Lia.
Import ListNotations.
From Verif Require Import Base Parser Token Combinator Sequence Choice Repeat RangeP ByteP Spec AgreeSpec RepeatSpec ForwardProofs
  RangeProofs CombProofs2 TotalSpec.
Unset Implicit Arguments.

Section Total.
Context {C : Cfg} (L : lawful C) {z : nat}.
Notation T := (tok C).
Notation E := (Err C).
Notation advanced := (@Spec.advanced C).
Notation fits := (@TotalSpec.fits C z).
Notation shorter := (@Spec.shorter C).

Lemma adv_le (i j : input C) : advanced i j -> length (rest j) <= length (rest i).
Proof. intros [l [H _]]. rewrite H, app_length. lia. Qed.
Lemma adv_fits (i j : input C) : advanced i j -> fits i -> fits j.
Proof. intros H. apply adv_le in H. unfold TotalSpec.fits. lia. Qed.

(** One run: it returns, keeps the invariant of the state (after committed failures only if [b]), and (if [n]) consumes when
    it succeeds. *)
Definition good {S A} (b n : bool) (Inv : S -> Prop) (i : input C) (o : outcome (PR A E * input C * S)) : Prop :=
  exists r i' st', o = Done (r, i', st') /\ (b = true \/ not_commit_err r -> Inv st') /\ (n = true -> is_ok r = true -> shorter i' i).
Definition lgood {A} (n : bool) (i : input C) (o : outcome (PR A E * input C)) : Prop :=
  exists r i', o = Done (r, i') /\ (n = true -> is_ok r = true -> shorter i' i).
Definition run_good {S A} (b n : bool) (Inv : S -> Prop) (run : input C -> S -> outcome (PR A E * input C * S)) : Prop :=
  forall i st, fits i -> Inv st -> good b n Inv i (run i st).
Definition lz_good {A} (n : bool) (lz : input C -> outcome (PR A E * input C)) : Prop := forall i, fits i -> lgood n i (lz i).

Record tot {S A} (b n : bool) (Inv : S -> Prop) (p : parser C S A) : Prop := {
  t_fwd : fwd p;
  t_init : Inv (p_init p);
  t_run : run_good b n Inv (p_run p true);
  t_cmode : run_good b n Inv (p_cmode p true);
  t_lazy : lz_good n (p_lazy p);
  t_stream : lz_good n (p_stream p)
}.

Lemma good_done {S A} b n (Inv : S -> Prop) i (r : PR A E) i' st' :
  (b = true \/ not_commit_err r -> Inv st') -> (n = true -> is_ok r = true -> shorter i' i) -> good b n Inv i (Done (r, i', st')).
Proof. intros. exists r, i', st'. auto. Qed.
Lemma lgood_done {A} n i (r : PR A E) i' : (n = true -> is_ok r = true -> shorter i' i) -> lgood n i (Done (r, i')).
Proof. intros. exists r, i'. auto. Qed.

Lemma lz_default_lazy {S A} b n (Inv : S -> Prop) init (run : bool -> input C -> S -> outcome (PR A E * input C * S)) :
  Inv init -> run_good b n Inv (run true) -> lz_good n (default_lazy init run).
Proof.
  intros H1 H2 i Hi. unfold default_lazy. destruct (H2 i init Hi H1) as [r [i' [st' [-> [_ K]]]]]. cbn [omap].
  destruct r; apply lgood_done; simpl in *; auto; discriminate.
Qed.
Lemma rg_default_cmode {S A} b n (Inv : S -> Prop) (run : bool -> input C -> S -> outcome (PR A E * input C * S)) adderr :
  run_good b n Inv (run true) -> run_good b n Inv (default_cmode run adderr true).
Proof.
  intros H2 i st Hi Hs. unfold default_cmode. destruct (H2 i st Hi Hs) as [r [i' [st' [-> [K1 K]]]]]. cbn [omap].
  destruct r; apply good_done; simpl in *; auto; discriminate.
Qed.
Lemma lz_default_stream {S A} b n (Inv : S -> Prop) init (run : bool -> input C -> S -> outcome (PR A E * input C * S)) adderr :
  Inv init -> run_good b n Inv (run true) -> lz_good n (default_stream init run adderr).
Proof.
  intros H1 H2 i Hi. unfold default_stream. destruct (H2 i init Hi H1) as [r [i' [st' [-> [_ K]]]]]. cbn [omap].
  destruct r; apply lgood_done; simpl in *; auto; discriminate.
Qed.
Lemma tot_mk_mode {S A} b n (Inv : S -> Prop) init (run : bool -> input C -> S -> outcome (PR A E * input C * S)) x y k :
  fwd (mk_mode init run x y k) -> Inv init -> run_good b n Inv (run true) -> tot b n Inv (mk_mode init run x y k).
Proof.
  intros F H1 H2. constructor; simpl; auto.
  - apply rg_default_cmode; auto.
  - eapply lz_default_lazy; eauto.
  - eapply lz_default_stream; eauto.
Qed.
Lemma tot_mk_both {S A} b n (Inv : S -> Prop) init (run : bool -> input C -> S -> outcome (PR A E * input C * S)) lz x y k :
  fwd (mk_both init run lz x y k) -> Inv init -> run_good b n Inv (run true) -> lz_good n lz -> tot b n Inv (mk_both init run lz x y k).
Proof.
  intros F H1 H2 H3. constructor; simpl; auto.
  - apply rg_default_cmode; auto.
  - eapply lz_default_stream; eauto.
Qed.
Lemma rg_lazy {A} b n (lz : input C -> outcome (PR A E * input C)) f : lz_good n lz -> run_good b n (fun _ => True) (lazy_run lz f).
Proof.
  intros H i st Hi _. unfold lazy_run. destruct (H i Hi) as [r [i' [-> K]]]. cbn [omap fst snd]. apply good_done; auto.
Qed.
Lemma tot_mk_lazy {A} b n (lz : input C -> outcome (PR A E * input C)) x y k :
  fwd (mk_lazy lz x y k) -> lz_good n lz -> tot b n (fun _ => True) (mk_lazy lz x y k).
Proof.
  intros F H. pose proof (rg_lazy b n lz true H) as Hr. constructor; simpl; auto.
  - apply (rg_default_cmode b n _ (lazy_run lz)); auto.
  - apply (lz_default_stream b n (fun _ => True) tt (lazy_run lz)); auto.
Qed.

(** ** weakening *)
Lemma tot_weak_b {S A} n (Inv : S -> Prop) (p : parser C S A) : tot true n Inv p -> tot false n Inv p.
Proof.
  intros [H1 H2 H3 H4 H5 H6]. constructor; auto; intros i st Hi Hs; [destruct (H3 i st Hi Hs) as [r [i' [st' [-> [K1 K2]]]]]|
    destruct (H4 i st Hi Hs) as [r [i' [st' [-> [K1 K2]]]]]]; apply good_done; auto.
Qed.
Lemma lgood_weak {A} i (o : outcome (PR A E * input C)) : lgood true i o -> lgood false i o.
Proof. intros [r [i' [-> _]]]. apply lgood_done. discriminate. Qed.
Lemma tot_weak_n {S A} b (Inv : S -> Prop) (p : parser C S A) : tot b true Inv p -> tot b false Inv p.
Proof.
  intros [H1 H2 H3 H4 H5 H6]. constructor; auto.
  - intros i st Hi Hs. destruct (H3 i st Hi Hs) as [r [i' [st' [-> [K1 K2]]]]]. apply good_done; auto; try discriminate.
  - intros i st Hi Hs. destruct (H4 i st Hi Hs) as [r [i' [st' [-> [K1 K2]]]]]. apply good_done; auto; try discriminate.
  - intros i Hi. apply lgood_weak; auto.
  - intros i Hi. apply lgood_weak; auto.
Qed.
Lemma tot_unit {A} b b' n (Inv : unit -> Prop) (p : parser C unit A) : tot b n Inv p -> tot b' n (fun _ => True) p.
Proof.
  intros [H1 H2 H3 H4 H5 H6].
  assert (Hx : forall st, Inv st) by (intros []; destruct (p_init p); auto).
  constructor; auto; intros i st Hi _.
  - destruct (H3 i st Hi (Hx _)) as [r [i' [st' [-> [K1 K2]]]]]. apply good_done; auto.
  - destruct (H4 i st Hi (Hx _)) as [r [i' [st' [-> [K1 K2]]]]]. apply good_done; auto.
Qed.

(** ** tokens *)
Lemma s_uncons_cases (i : input C) : (exists t i', s_uncons i = (CommitOk t, i') /\ shorter i' i /\ advanced i i') \/
  (exists r, s_uncons i = (r, i) /\ is_ok r = false).
Proof.
  unfold s_uncons, uncons. destruct (rest i) as [|t l] eqn:Hr.
  - right. eexists. split; [reflexivity|]. unfold wrap_stream_error. destruct (ipart i); reflexivity.
  - left. do 2 eexists. split; [reflexivity|]. split; [unfold Spec.shorter; rewrite Hr; simpl; lia|]. exists [t]. repeat split. auto.
Qed.
Lemma lz_any : lz_good true (fun i => Done (@s_uncons C i)).
Proof.
  intros i _. destruct (s_uncons_cases i) as [[t [i' [-> [H _]]]]|[r [-> H]]]; apply lgood_done; auto. rewrite H. discriminate.
Qed.
Lemma lz_satisfy_impl {R} (f : T -> option R) : lz_good true (satisfy_impl f).
Proof.
  intros i _. unfold satisfy_impl. destruct (s_uncons_cases i) as [[t [i' [-> [H _]]]]|[r [-> H]]].
  - destruct (f t); apply lgood_done; auto; try discriminate.
  - destruct r; try discriminate; apply lgood_done; discriminate.
Qed.
Lemma tokens_loop_good {X} (cmp : X -> T -> bool) om start : forall l c i r i', tokens_loop cmp om start c l i = (r, i') ->
  is_ok r = true -> length (rest i') + length l <= length (rest i).
Proof.
  induction l as [|x l IH]; intros c i r i' H Ho; simpl in H.
  - inversion H; subst. simpl. lia.
  - destruct (s_uncons_cases i) as [[t [i1 [Hs [Hsh _]]]]|[r0 [Hs Hr]]]; rewrite Hs in H.
    + destruct (cmp x t).
      * apply IH in H; auto. unfold Spec.shorter in Hsh. simpl. lia.
      * destruct c; inversion H; subst; discriminate.
    + destruct r0; try discriminate; [inversion H; subst; discriminate|]. destruct c; inversion H; subst; discriminate.
Qed.
Lemma shorter_tokens {X} (l : list X) (i i' : input C) : length (rest i') + length l <= length (rest i) -> negb (length l =? 0) = true -> shorter i' i.
Proof. intros H K. unfold Spec.shorter. destruct l; [discriminate|]. simpl in H. lia. Qed.
Lemma lz_tokens {X Y} (cmp : X -> T -> bool) om (out : Y) (g : input C -> Pos C) l :
  lz_good (negb (length l =? 0)) (fun i => let (r, i') := tokens_loop cmp om (g i) false l i in Done (pr_map (fun _ => out) r, i')).
Proof.
  intros i _. destruct (tokens_loop cmp om (g i) false l i) as [r i'] eqn:Hl. apply lgood_done. intros Hn Ho.
  eapply shorter_tokens; eauto. eapply tokens_loop_good; eauto. destruct r; auto.
Qed.
Lemma lz_const {A} (f : input C -> PR A E) : lz_good false (fun i => Done (f i, i)).
Proof. intros i _. apply lgood_done. discriminate. Qed.
Lemma lz_eof : lz_good false (fun i : input C => match uncons i with
                    | (None, i') => if se_is_eoi C (se_eoi C) then Done (PeekOk tt, i')
                                    else Done (PeekErr (to_trk (e_empty C (ipos i))), i)
                    | (Some _, _) => Done (PeekErr (to_trk (e_empty C (ipos i))), i)
                    end).
Proof. intros i _. destruct (uncons i) as [[t|] j]; [|destruct (se_is_eoi C (se_eoi C))]; apply lgood_done; discriminate. Qed.

(** ** ranges *)
Lemma split_width_shorter n (l a b : list T) : split_width n l = inl (a, b) -> negb (n =? 0) = true -> length b < length l.
Proof.
  intros H Hn. destruct (split_width_ok _ _ _ _ H) as [H1 H2]. subst l. rewrite app_length.
  destruct a as [|t a]; [|simpl; lia]. simpl in H2. subst n. discriminate.
Qed.
Lemma lz_s_uncons_range n : lz_good (negb (n =? 0)) (fun i => Done (@s_uncons_range C i n)).
Proof.
  intros i _. unfold s_uncons_range, uncons_range. destruct (split_width n (rest i)) as [[a b]|e] eqn:Hs.
  - apply lgood_done. intros Hn _. unfold Spec.shorter, advance. cbn [rest]. eapply split_width_shorter; eauto.
  - apply lgood_done. intros _. unfold wrap_stream_error. destruct (ipart i); discriminate.
Qed.
Lemma lz_range r : lz_good (negb (range_len r =? 0)) (p_lazy (@range C r)).
Proof.
  intros i _. unfold range, mk_lazy. cbn [p_lazy]. unfold uncons_range. destruct (split_width (range_len r) (rest i)) as [[a b]|e] eqn:Hs.
  - destruct (list_eqb (tok_eqb C) a r); apply lgood_done; [|discriminate]. intros Hn _. unfold Spec.shorter, advance. cbn [rest].
    eapply split_width_shorter; eauto.
  - apply lgood_done. intros _. unfold wrap_stream_error. destruct (ipart i); discriminate.
Qed.
Lemma rg_partial_range n f g (Hf : forall i r i', f i = (r, i') -> n = true -> is_ok r = true -> shorter i' i) b :
  run_good b n (fun _ : nat => True) (@parse_partial_range C f g true).
Proof.
  intros i st _ _. unfold parse_partial_range. destruct (negb (ipart i)).
  - destruct (f i) as [r i'] eqn:Hq. apply good_done; eauto.
  - cbn [orb]. destruct (f i) as [r i'] eqn:Hq. destruct r; apply good_done; eauto; discriminate.
Qed.
Lemma uncons_while1_shorter f (i : input C) r i' : s_uncons_while1 i f = (r, i') -> is_ok r = true -> shorter i' i.
Proof.
  unfold s_uncons_while1, m_uncons_while1. destruct (rest i) as [|t l] eqn:Hr.
  - destruct (ipart i && input_at_eof i); intros H; inversion H; subst; discriminate.
  - destruct (f t).
    + destruct (span_while f l) as [a b] eqn:Hs. apply span_while_app in Hs.
      destruct (ipart _ && input_at_eof _); intros H; inversion H; subst; [discriminate|]. intros _.
      unfold Spec.shorter, advance. cbn [rest]. rewrite Hr. simpl. rewrite app_length. lia.
    + destruct (ipart i && input_at_eof i); intros H; inversion H; subst; discriminate.
Qed.
Lemma range_len_app (a b : list T) : range_len (a ++ b) = range_len a + range_len b.
Proof. induction a as [|t a IH]; simpl; [reflexivity|]. rewrite IH. lia. Qed.
Lemma range_len_nil (l : list T) : range_len l = 0 -> l = [].
Proof. destruct l as [|t l]; auto. simpl. pose proof (law_width L t). lia. Qed.

Lemma tur_total (r : list T) (i : input C) : forall l fe tc pos q, rest i = q ++ l -> exists x, tur_loop r i fe tc l pos = Done x.
Proof.
  induction l as [|t l IH]; intros fe tc pos q Hq; cbn [tur_loop]; unfold uncons_range at 1; cbn [rest].
  - destruct (split_width (range_len r) []) as [[a b]|e] eqn:Hs; [|eauto].
    destruct (split_width_ok _ _ _ _ Hs) as [Ha Hl]. symmetry in Ha. apply app_eq_nil in Ha. destruct Ha; subst a b.
    simpl in Hl. symmetry in Hl. apply range_len_nil in Hl. subst r. cbn [list_eqb]. unfold distance, advance. cbn [rest range_len fold_right].
    rewrite !Nat.sub_0_r. unfold uncons_range. pose proof (split_width_exact L (rest i) []) as Hx. rewrite app_nil_r in Hx.
    change (fold_right (fun t n => width C t + n) 0 (rest i)) with (range_len (rest i)). rewrite Hx.
    destruct (range_len (rest i) =? 0); eauto.
  - destruct (split_width (range_len r) (t :: l)) as [[a b]|e] eqn:Hs.
    + destruct (split_width_ok _ _ _ _ Hs) as [Ha Hl]. destruct (list_eqb (tok_eqb C) a r).
      * unfold distance, advance. cbn [rest]. unfold uncons_range. rewrite Hq, Ha, !range_len_app, Hl.
        replace (range_len q + (range_len r + range_len b) - range_len b - range_len r) with (range_len q) by lia.
        rewrite (split_width_exact L). destruct (range_len q =? 0); eauto.
      * apply (IH _ _ _ (q ++ [t])). rewrite Hq, <- app_assoc. reflexivity.
    + apply (IH _ _ _ (q ++ [t])). rewrite Hq, <- app_assoc. reflexivity.
Qed.
Lemma good_unit_inv {A S} b (i : input C) (o : outcome (PR A E * input C * S)) : (exists x, o = Done x) -> good b false (fun _ => True) i o.
Proof. intros [[[r i'] st'] ->]. apply good_done; auto; try discriminate. Qed.
Lemma rg_take_until_range b r : run_good b false (fun _ : nat => True) (take_until_range_run (C:=C) r true).
Proof.
  intros i tc _ _. apply good_unit_inv. unfold take_until_range_run. destruct (s_uncons_range i tc) as [r0 j] eqn:Hs.
  apply adv_s_uncons_range in Hs. destruct Hs as [q [Hq _]].
  destruct r0; eauto; eapply tur_total; eauto.
Qed.
Lemma rg_take_fn b s : run_good b false (fun _ : nat => True) (take_fn_run (C:=C) s true).
Proof.
  intros i tc _ _. apply good_unit_inv. unfold take_fn_run. destruct (s _) as [k|k].
  - destruct (s_uncons_range i (0 + k)); eauto.
  - match goal with |- context [if ?c then Done _ else Done _] => destruct c end; eauto.
Qed.
Lemma read_tokens_good : forall k (i : input C) r i', read_tokens k i = (r, i') -> is_ok r = true -> length (rest i') + k <= length (rest i).
Proof.
  induction k as [|k IH]; simpl; intros i r i' H Ho. { inversion H; subst. lia. }
  destruct (s_uncons_cases i) as [[t [i1 [Hs [Hsh _]]]]|[r0 [Hs Hr]]]; rewrite Hs in H.
  - destruct (read_tokens k i1) as [r1 j1] eqn:Hr. inversion H; subst. unfold Spec.shorter in Hsh.
    enough (length (rest i') + k <= length (rest i1)) by lia. eapply IH; eauto. destruct r1; auto.
  - destruct r0; try discriminate; inversion H; subst; discriminate.
Qed.
Lemma lz_fn {A} n (f : input C -> outcome (std_result A E * input C)) : fn_solid z n f -> lz_good n (p_lazy (fn_parser f)).
Proof.
  intros [_ H] i Hi. unfold fn_parser, mk_lazy. cbn [p_lazy]. destruct (H i Hi) as [r [i' [-> K]]]. cbn [omap fst snd]. apply lgood_done; auto.
Qed.
Lemma fn_solid_fwd {A} n (f : input C -> outcome (std_result A E * input C)) : fn_solid z n f -> fwd (fn_parser f).
Proof. intros [H _]. apply fwd_fn_parser. exact H. Qed.
Lemma lz_num {A} code k (d : list N -> A) : lz_good (negb (k =? 0)) (p_lazy (@num_parser C code A k d)).
Proof.
  intros i _. unfold num_parser, fn_parser, mk_lazy. cbn [p_lazy]. destruct (read_tokens k i) as [r i'] eqn:Hr.
  destruct r; cbn [omap fst snd into_std from_std]; apply lgood_done; try discriminate; intros Hk _; apply read_tokens_good in Hr; auto;
    unfold Spec.shorter; destruct k; try discriminate; lia.
Qed.

(** ** unary combinators *)
Ltac one Hp i Hi Hs :=
  let r := fresh "r" in let j := fresh "j" in let s := fresh "s" in let Hst := fresh "Hst" in let Hsh := fresh "Hsh" in let Heq := fresh "Heq" in
  destruct (Hp i _ Hi Hs) as [r [j [s [Heq [Hst Hsh]]]]]; rewrite Heq; cbn [omap obind].
Ltac fin := apply good_done; cbn [is_ok not_commit_err pr_map pr_map_err] in *; intuition (try discriminate; auto).

Section Unary.
Context {S A : Type} {b n : bool} {Inv : S -> Prop} (p : parser C S A) (H : tot b n Inv p).
Let Hr := t_run _ _ _ _ H.
Let F := t_fwd _ _ _ _ H.
Let H0 := t_init _ _ _ _ H.

Lemma tot_message m : tot b n Inv (message p m).
Proof. apply tot_mk_mode; auto; [apply fwd_message; auto|]. intros i st Hi Hs. one Hr i Hi Hs. destruct r; fin. Qed.
Lemma tot_expected m : tot b n Inv (expected p m).
Proof. apply tot_mk_mode; auto. apply fwd_expected; auto. Qed.
Lemma rg_result {B} (g : PR A E -> PR B E) : (forall r, is_ok (g r) = is_ok r) -> (forall r, not_commit_err (g r) -> not_commit_err r) ->
  run_good b n Inv (fun i st => omap (fun x => match x with (r, i', s') => (g r, i', s') end) (p_run p true i st)).
Proof.
  intros G1 G2 i st Hi Hs. one Hr i Hi Hs. apply good_done.
  - intros [K|K]; auto.
  - rewrite G1. auto.
Qed.
Lemma tot_silent : tot b n Inv (silent p).
Proof. apply tot_mk_mode; auto; [apply fwd_silent; auto|]. apply rg_result; intros []; simpl; auto. Qed.
Lemma tot_map {B} (f : A -> B) : tot b n Inv (map p f).
Proof. apply tot_mk_mode; auto; [apply fwd_map; auto|]. apply rg_result; intros []; simpl; auto. Qed.
Lemma tot_map_input {B} (f : A -> input C -> B * input C) : (forall a i, advanced i (snd (f a i))) -> tot b n Inv (map_input p f).
Proof.
  intros Hf. apply tot_mk_mode; auto; [apply fwd_map_input; auto|]. intros i st Hi Hs. one Hr i Hi Hs.
  destruct r as [a|a|e|e]; try (fin; fail); pose proof (Hf a j) as Ha; destruct (f a j) as [x i2]; apply adv_le in Ha; simpl in Ha;
    apply good_done; simpl; auto; intros Hn _; specialize (Hsh Hn eq_refl); unfold Spec.shorter in *; lia.
Qed.
Lemma tot_flat_map {B} (f : A -> B + E) : tot b n Inv (flat_map p f).
Proof.
  apply tot_mk_mode; auto; [apply fwd_flat_map; auto|]. intros i st Hi Hs. one Hr i Hi Hs.
  destruct r as [a|a|e|e]; try destruct (f a); fin.
Qed.
Lemma rg_and_then {B} (f : A -> B + SErr C) : run_good b n Inv (p_run (and_then p f) true).
Proof.
  intros i st Hi Hs. unfold and_then, mk_mode. cbn [p_run]. one Hr i Hi Hs.
  destruct r as [a|a|e|e]; try (destruct (f a)); try destruct (ipart j && input_at_eof j); fin.
Qed.
Lemma tot_and_then {B} (f : A -> B + SErr C) : tot b n Inv (and_then p f).
Proof. apply tot_mk_mode; auto; [apply fwd_and_then; auto|]. apply rg_and_then. Qed.
Lemma tot_from_str {B} (f : A -> option (B + string)) : tot b n Inv (from_str p f).
Proof. apply tot_mk_mode; auto; [apply fwd_from_str; auto|]. apply rg_and_then. Qed.
Lemma tot_recognize : tot b false (fun s => Inv (snd s)) (recognize p).
Proof.
  apply tot_mk_mode; auto; [apply fwd_recognize; auto|]. intros i [el st] Hi Hs. unfold recognize_run. cbn [snd] in Hs. one Hr i Hi Hs.
  destruct (replay (ipos j) (rest i) (ipos i)) as [[[a l'] p'] ok]. destruct r; try destruct ok; fin.
Qed.
Lemma tot_no_partial b' : tot b' n (fun _ => True) (no_partial p).
Proof.
  apply tot_mk_both; auto; [apply fwd_no_partial; auto| |exact (t_lazy _ _ _ _ H)].
  intros i st Hi _. destruct (t_lazy _ _ _ _ H i Hi) as [r [i' [-> K]]]. cbn [omap fst snd]. apply good_done; auto.
Qed.
Lemma lz_result {B} (g : PR A E -> PR B E) : (forall r, is_ok (g r) = is_ok r) ->
  lz_good n (fun i => omap (fun x => (g (fst x), snd x)) (p_lazy p i)).
Proof.
  intros G i Hi. destruct (t_lazy _ _ _ _ H i Hi) as [r [i' [-> K]]]. cbn [omap fst snd]. apply lgood_done. rewrite G. auto.
Qed.
Lemma tot_ignore : tot b n Inv (ignore p).
Proof.
  apply tot_mk_both; auto; [apply fwd_ignore; auto| |].
  - apply rg_result; intros []; simpl; auto.
  - apply lz_result. intros []; reflexivity.
Qed.
Lemma tot_any_partial_state : tot b n (fun o => match o with Some s => Inv s | None => True end) (any_partial_state p).
Proof.
  apply tot_mk_both; auto; [apply fwd_any_partial_state; auto| |exact (t_lazy _ _ _ _ H)].
  intros i [st|] Hi Hs; unfold any_partial_run.
  - one Hr i Hi Hs. apply good_done; auto.
  - one Hr i Hi H0. destruct r; fin.
Qed.
Lemma tot_lazy : tot b n Inv (lazy p).
Proof. destruct H. constructor; auto. apply fwd_lazy_; auto. Qed.
Lemma tot_factory : tot b n Inv (factory p).
Proof. apply tot_mk_mode; auto. apply fwd_factory; auto. Qed.
Lemma tot_opaque : tot b n Inv (opaque p).
Proof. destruct H. constructor; auto; [apply fwd_opaque; auto|]. apply (rg_default_cmode b n Inv (p_run p)). auto. Qed.
Lemma tot_spanned {Q} (q : Q -> Q -> bool) x y m : tot b n Inv (spanned q x y m p).
Proof. apply tot_mk_mode; auto; [apply fwd_spanned; auto|]. intros i st Hi Hs. one Hr i Hi Hs. destruct r; fin. Qed.
Lemma tot_by_ref : tot b n Inv (by_ref p).
Proof. apply tot_mk_mode; auto. apply fwd_by_ref; auto. Qed.
Lemma tot_parser_fn : tot b n Inv (parser_fn p).
Proof. apply tot_mk_mode; auto. apply fwd_parser_fn; auto. Qed.
Lemma tot_parser_fn0 b' : tot b' n (fun _ => True) (parser_fn0 p).
Proof.
  apply tot_mk_mode; auto; [apply fwd_parser_fn0; auto|]. intros i st Hi _. one Hr i Hi H0. cbn [fst]. apply good_done; auto.
Qed.
Lemma tot_optional : tot b false Inv (optional p).
Proof. apply tot_mk_mode; auto; [apply fwd_optional; auto|]. intros i st Hi Hs. one Hr i Hi Hs. destruct r; fin. Qed.
Lemma tot_left {S2} : tot b n (fun o => match o with Some (inl s) => Inv s | _ => True end) (@either C S S2 A (inl p)).
Proof.
  apply tot_mk_both; [exact (@fwd_either C S S2 A (inl p) F)|exact I| |exact (t_lazy _ _ _ _ H)].
  intros i st Hi Hs. unfold either_run. assert (K : Inv (match st with Some (inl s) => s | _ => p_init p end)) by (destruct st as [[s|s]|]; auto).
  one Hr i Hi K. apply good_done; auto.
Qed.
Lemma tot_right {S1} : tot b n (fun o => match o with Some (inr s) => Inv s | _ => True end) (@either C S1 S A (inr p)).
Proof.
  apply tot_mk_both; [exact (@fwd_either C S1 S A (inr p) F)|exact I| |exact (t_lazy _ _ _ _ H)].
  intros i st Hi Hs. unfold either_run. assert (K : Inv (match st with Some (inr s) => s | _ => p_init p end)) by (destruct st as [[s|s]|]; auto).
  one Hr i Hi K. apply good_done; auto.
Qed.
Lemma tot_dispatch_here {SS} : tot b n (fun o => match o with Some (inl s) => Inv s | _ => True end) (dispatch (@DC C A S SS p)).
Proof.
  apply tot_mk_mode; [exact (fwd_dispatch_here p F)|exact I|].
  intros i st Hi Hs. cbn [disp_run]. assert (K : Inv (match st with Some (inl s) => s | _ => p_init p end)) by (destruct st as [[s|s]|]; auto).
  one Hr i Hi K. apply good_done; auto.
Qed.
Lemma tot_look_ahead b' : tot b' false (fun _ => True) (look_ahead p).
Proof.
  apply tot_mk_lazy; [apply fwd_look_ahead; auto|]. intros i Hi. destruct (t_lazy _ _ _ _ H i Hi) as [r [i' [-> K]]]. cbn [omap].
  destruct r; apply lgood_done; discriminate.
Qed.
Lemma tot_recognize_with_value : tot b n (fun s => Inv (snd s)) (recognize_with_value p).
Proof.
  apply tot_mk_mode; auto; [apply fwd_recognize_with_value; auto|]. intros i [d st] Hi Hs. unfold recognize_with_value_run. cbn [snd] in Hs.
  cbn [obind]. one Hr i Hi Hs. apply (fwd_run _ F) in Heq. destruct Heq as [l [Hl [Hp Hq]]].
  assert (K : uncons_range (distance j i) i = (inl l, j)).
  { unfold uncons_range, distance. rewrite Hl, range_len_app. replace (range_len l + range_len (rest j) - range_len (rest j)) with (range_len l) by lia.
    rewrite (split_width_exact L). unfold advance. f_equal. rewrite <- Hp, <- Hq. destruct j; reflexivity. }
  unfold s_uncons_range. rewrite K. destruct r; try (fin; fail); destruct (distance j i =? 0); fin.
Qed.
End Unary.
Lemma tot_dispatch_later b n {S SS A} Inv (d : disp (C:=C) A SS) : tot b n Inv (dispatch d) ->
  tot b n (fun o => match o with Some (inr s) => Inv (Some s) | _ => True end) (dispatch (@DN C A S SS d)).
Proof.
  intros H. apply tot_mk_mode; [exact (fwd_dispatch_later d (t_fwd _ _ _ _ H))|exact I|].
  intros i st Hi Hs. cbn [disp_run].
  assert (K : Inv (match st with Some (inr s) => Some s | _ => None end)) by (destruct st as [[s|s]|]; auto; exact (t_init _ _ _ _ H)).
  change (disp_run d true i) with (p_run (dispatch d) true i). one (t_run _ _ _ _ H) i Hi K. apply good_done; auto. intros Hb. destruct s; cbn; auto.
Qed.

Lemma tot_recognize1 {S A} b (Inv : S -> Prop) (p : parser C S A) : pos_distinct C -> tot b true Inv p -> tot b true (fun s => Inv (snd s)) (recognize p).
Proof.
  intros D H. apply tot_mk_mode; [apply fwd_recognize, (t_fwd _ _ _ _ H)|exact (t_init _ _ _ _ H)|].
  intros i [el st] Hi Hs. unfold recognize_run. cbn [snd] in Hs. one (t_run _ _ _ _ H) i Hi Hs.
  apply (fwd_run _ (t_fwd _ _ _ _ H)) in Heq. destruct Heq as [l [Hl [Hp Hq]]]. rewrite Hl, Hp, (replay_exact L D).
  destruct r; fin.
Qed.
Lemma tot_not_followed_by {S A} b n (Inv : S -> Prop) (p : parser C S A) : tot true n Inv p -> tot b false Inv (not_followed_by p).
Proof.
  intros H. apply tot_mk_mode; [apply fwd_not_followed_by; auto|exact (t_init _ _ _ _ H)|]. intros i st Hi Hs.
  one (t_run _ _ _ _ H) i Hi Hs. apply good_done; auto; try discriminate.
Qed.
Lemma tot_attempt {S A} b n (Inv : S -> Prop) (p : parser C S A) : tot true n Inv p -> tot b n Inv (attempt p).
Proof.
  intros H. assert (K : run_good b n Inv (attempt_run p true)).
  { intros i st Hi Hs. unfold attempt_run. one (t_cmode _ _ _ _ H) i Hi Hs. destruct r as [a|a|e|e]; try (fin; fail).
    destruct (ipart j && e_is_eoi C e); fin. }
  constructor; auto.
  - apply fwd_attempt, (t_fwd _ _ _ _ H).
  - exact (t_init _ _ _ _ H).
  - apply (lz_default_lazy b n Inv); auto. exact (t_init _ _ _ _ H).
  - apply (lz_default_lazy b n Inv); auto. exact (t_init _ _ _ _ H).
Qed.
End Total.
