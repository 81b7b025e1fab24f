(** A choice of a slice that is resumed. *)
From Coq Require Import String List Bool Arith NArith Lia.
Import ListNotations.
From Verif Require Import Base Parser Errors Token Combinator Sequence Choice Repeat RangeP ByteP Spec AgreeSpec SliceSpec CombProofs.
Unset Implicit Arguments.
Section S.
Context {C : Cfg}.
Lemma slice_stored {S A} (ps : list (parser C S A)) s0 k p : nth_error ps k = Some p -> forall calls s,
  Forall (fun c => fst c = false) calls -> (forall x, In x (removelast (trace p s calls)) -> needs_more x) ->
  trace (choice_slice s0 ps) (k + 1, s) calls = trace p s calls.
Proof.
  intros Hk. induction calls as [|[f i] calls IH]; intros s Hf Hm; [reflexivity|]. inversion Hf as [|? ? Hf1 Hf2]; subst. cbn in Hf1. subst f.
  cbn [trace] in *. unfold choice_slice, mk_mode at 1. cbn [p_run]. unfold slice_run.
  replace (negb (k + 1 =? 0)) with true by (destruct (Nat.eqb_spec (k + 1) 0); [lia|reflexivity]). cbn [negb andb].
  replace (k + 1 - 1) with k by lia. rewrite Hk. destruct (p_run p false i s) as [[[r i'] s']| |] eqn:Hr; cbn; auto. f_equal.
  destruct calls as [|c calls]; [reflexivity|].
  assert (Y : exists y l, trace p s' (c :: calls) = y :: l) by (destruct c as [f2 i2]; cbn; destruct (p_run p f2 i2 s') as [[[? ?] ?]| |]; eauto).
  destruct Y as [y [l Y]]. rewrite Y in Hm.
  assert (Hx : needs_more (Done (r, i'))) by (apply Hm; cbn; auto). destruct Hx as [e [j Hx]]. inversion Hx; subst. cbn [is_ok].
  refine (IH s' Hf2 _). rewrite Y. intros x Hi. apply Hm. cbn. auto.
Qed.
End S.
Section S2.
Context {C : Cfg}.
Lemma slice_loop_passes {S A} all before first (s0 : S) idx : forall (qs : list (parser C S A)) p l i last prev cur e i' s',
  Forall (fun q => exists e j, p_run q first before s0 = Done (PeekErr e, j, s0)) qs ->
  p_run p first before s0 = Done (CommitErr e, i', s') ->
  slice_loop all before first i last prev (qs ++ p :: l) idx s0 cur = Done (CommitErr e, i', (i + length qs + 1, s')).
Proof.
  induction qs as [|q qs IH]; intros p l i last prev cur e i' s' Hq Hp.
  - cbn [app slice_loop length]. rewrite Hp. cbn. rewrite Nat.add_0_r. reflexivity.
  - inversion Hq as [|? ? [e1 [j Hq1]] Hq2]; subst. cbn [app slice_loop]. rewrite Hq1. cbn [obind]. destruct (slice_merge all i last prev e1) as [prev' last'].
    rewrite (IH p l (i + 1) last' prev' j e i' s' Hq2 Hp). cbn [length]. replace (i + 1 + length qs + 1) with (i + Datatypes.S (length qs) + 1) by lia. reflexivity.
Qed.
(** Once an alternative has failed having committed, the choice goes on as that alternative. *)
Lemma slice_calls {S A} (s0 : S) (qs : list (parser C S A)) p l first i calls :
  Forall (fun q => exists e j, p_run q first i s0 = Done (PeekErr e, j, s0)) qs ->
  (exists e i' s', p_run p first i s0 = Done (CommitErr e, i', s')) ->
  Forall (fun c => fst c = false) calls -> (forall x, In x (removelast (trace p s0 ((first, i) :: calls))) -> needs_more x) ->
  trace (choice_slice s0 (qs ++ p :: l)) (0, s0) ((first, i) :: calls) = trace p s0 ((first, i) :: calls).
Proof.
  intros Hq [e [i' [s' Hp]]] Hf Hm. cbn [trace] in *. unfold choice_slice, mk_mode at 1. cbn [p_run]. unfold slice_run.
  replace (negb first && negb (0 =? 0)) with false by (destruct first; reflexivity).
  rewrite (slice_loop_passes _ i first s0 0 qs p l 0 0 None i e i' s' Hq Hp), Hp in *. f_equal.
  refine (slice_stored (qs ++ p :: l) s0 (length qs) p _ calls s' Hf _).
  - rewrite nth_error_app2, Nat.sub_diag by auto. reflexivity.
  - intros x Hx. apply Hm. destruct (trace p s' calls); [destruct Hx|]. cbn. auto.
Qed.
(** When that alternative has succeeded, the choice is made anew. *)
Lemma slice_stored_next {S A} (ps : list (parser C S A)) s0 k p : nth_error ps k = Some p -> forall calls s s' v j more,
  Forall (fun c => fst c = false) calls -> (forall x, In x (removelast (trace p s calls)) -> needs_more x) ->
  last (trace p s calls) OOF = Done (CommitOk v, j) \/ last (trace p s calls) OOF = Done (PeekOk v, j) -> state_after p s calls = Some s' ->
  trace (choice_slice s0 ps) (k + 1, s) (calls ++ more) = trace p s calls ++ trace (choice_slice s0 ps) (0, s') more.
Proof.
  intros Hk. induction calls as [|[f i] calls IH]; intros s s' v j more Hf Hm Hl Ha; [cbn in Hl; destruct Hl; discriminate|]. inversion Hf as [|? ? Hf1 Hf2]; subst. cbn in Hf1. subst f.
  cbn [trace state_after app] in *. unfold choice_slice, mk_mode at 1. cbn [p_run]. unfold slice_run.
  replace (negb (k + 1 =? 0)) with true by (destruct (Nat.eqb_spec (k + 1) 0); [lia|reflexivity]). cbn [negb andb].
  replace (k + 1 - 1) with k by lia. rewrite Hk. destruct (p_run p false i s) as [[[r i'] s1]| |] eqn:Hr; try discriminate. cbn [omap obind].
  destruct calls as [|c calls].
  - cbn in Hl, Ha |- *. injection Ha as <-. replace (is_ok r) with true by (destruct Hl as [Hl|Hl]; injection Hl as -> ->; reflexivity). reflexivity.
  - assert (Y : exists y l, trace p s1 (c :: calls) = y :: l) by (destruct c as [f2 i2]; cbn; destruct (p_run p f2 i2 s1) as [[[? ?] ?]| |]; eauto).
    destruct Y as [y [l Y]]. assert (Hx : needs_more (Done (r, i'))) by (apply Hm; rewrite Y; cbn; auto). destruct Hx as [e [j' Hx]]. inversion Hx; subst. cbn [is_ok omap obind app].
    f_equal. apply (IH s1 s' v j more Hf2); [| |exact Ha].
    + rewrite Y in *. intros x Hi. apply Hm. cbn. auto.
    + rewrite Y in *. exact Hl.
Qed.
Lemma slice_next {S A} (s0 : S) (qs : list (parser C S A)) p l first i calls s' v j more :
  Forall (fun q => exists e j, p_run q first i s0 = Done (PeekErr e, j, s0)) qs ->
  (exists e i' s', p_run p first i s0 = Done (CommitErr e, i', s')) ->
  Forall (fun c => fst c = false) calls -> (forall x, In x (removelast (trace p s0 ((first, i) :: calls))) -> needs_more x) ->
  last (trace p s0 ((first, i) :: calls)) OOF = Done (CommitOk v, j) \/ last (trace p s0 ((first, i) :: calls)) OOF = Done (PeekOk v, j) ->
  state_after p s0 ((first, i) :: calls) = Some s' ->
  trace (choice_slice s0 (qs ++ p :: l)) (0, s0) ((first, i) :: calls ++ more) = trace p s0 ((first, i) :: calls) ++ trace (choice_slice s0 (qs ++ p :: l)) (0, s') more.
Proof.
  intros Hq [e [i' [s1 Hp]]] Hf Hm Hl Ha. cbn [trace state_after] in *. unfold choice_slice, mk_mode at 1. cbn [p_run]. unfold slice_run.
  replace (negb first && negb (0 =? 0)) with false by (destruct first; reflexivity).
  rewrite (slice_loop_passes _ i first s0 0 qs p l 0 0 None i e i' s1 Hq Hp), Hp in *. cbn [app]. f_equal.
  assert (Y : exists y t, trace p s1 calls = y :: t).
  { destruct calls as [|[f2 i2] calls]; [cbn in Hl; destruct Hl; discriminate|]. cbn. destruct (p_run p f2 i2 s1) as [[[? ?] ?]| |]; eauto. }
  destruct Y as [y [t Y]].
  refine (slice_stored_next (qs ++ p :: l) s0 (length qs) p _ calls s1 s' v j more Hf _ _ Ha).
  - rewrite nth_error_app2, Nat.sub_diag by auto. reflexivity.
  - rewrite Y in *. intros x Hx. apply Hm. cbn. auto.
  - rewrite Y in *. exact Hl.
Qed.
End S2.
