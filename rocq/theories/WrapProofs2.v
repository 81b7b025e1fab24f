(** Proofs for C54 (stacking) and C55 (pointer positions). *)
From Coq Require Import String List Bool Arith NArith Lia.
Import ListNotations.
From Verif Require Import Base StreamM StreamSpec StreamProofs PosProofs WrapM WrapSpec WrapProofs.
Unset Implicit Arguments.

Section Commute.
Context {S T R P K SE PE A : Type}.
Variable I : strm S T R P K SE PE.
Ltac go := cbn [run_client state_strm maybe_strm set_partial conv_strm pos_strm w_uncons w_partial w_position w_checkpoint w_reset w_range w_while w_while1 w_distance w_whole fst snd].

Lemma run_pos_conv {Q SE2 PE2} (posr : positioner Q T R) (fp : P -> P) (fs : SE -> SE2) (fe : PE -> PE2) (c : client T R Q SE2 PE2 A) : forall s ks,
  run_client (pos_strm (conv_strm I fp fs fe) posr) c s ks = run_client (conv_strm (pos_strm I posr) (fun q => q) fs fe) c s ks.
Proof.
  induction c as [a|k IH|k IH|k IH|k IH|n k IH|n k IH|X f x k IH|X f x k IH|n k IH|k IH]; intros s ks; go.
  - reflexivity.
  - destruct (w_uncons I (fst s)) as [[[r|e] s']| |]; cbn; auto.
  - apply IH.
  - apply IH.
  - apply IH.
  - destruct (nth_error ks n); auto. destruct (w_reset I (fst s) (fst p)) as [[[]|e] s']; cbn; auto.
  - destruct (w_range I n (fst s)) as [[[r|e] s']| |]; cbn; auto.
  - destruct (w_while I (ps_closure posr f) (fst s) (x, snd s)) as [[[r s'] [x' p']]| |]; cbn; auto.
  - destruct (w_while1 I (ps_closure posr f) (fst s) (x, snd s)) as [[[r s'] [x' p']]| |]; cbn; auto.
  - destruct (nth_error ks n); auto. destruct (w_distance I (fst s) (fst p)); cbn; auto.
  - apply IH.
Qed.
Lemma run_pos_partial {Q} (posr : positioner Q T R) b (c : client T R Q SE PE A) : forall s ks,
  run_client (pos_strm (set_partial I b) posr) c s ks = run_client (set_partial (pos_strm I posr) b) c s ks.
Proof.
  induction c as [a|k IH|k IH|k IH|k IH|n k IH|n k IH|X f x k IH|X f x k IH|n k IH|k IH]; intros s ks; go;
    [reflexivity|destruct (w_uncons I (fst s)) as [[[r|e] s']| |]|idtac|idtac|idtac
    |destruct (nth_error ks n); auto; destruct (w_reset I (fst s) (fst p)) as [[[]|e] s']
    |destruct (w_range I n (fst s)) as [[[r|e] s']| |]
    |destruct (w_while I (ps_closure posr f) (fst s) (x, snd s)) as [[[r s'] [x' p']]| |]
    |destruct (w_while1 I (ps_closure posr f) (fst s) (x, snd s)) as [[[r s'] [x' p']]| |]
    |destruct (nth_error ks n); auto; destruct (w_distance I (fst s) (fst p))
    |idtac]; try reflexivity; apply IH.
Qed.

(** The state of the stream and of its checkpoints after any client. *)
Lemma run_inv (Inv : S -> Prop) (InvK : K -> Prop)
  (H1 : forall s r s', Inv s -> w_uncons I s = Done (r, s') -> Inv s')
  (H2 : forall s, Inv s -> InvK (w_checkpoint I s))
  (H3 : forall s k r s', Inv s -> InvK k -> w_reset I s k = (r, s') -> Inv s')
  (H4 : forall n s r s', Inv s -> w_range I n s = Done (r, s') -> Inv s')
  (H5 : forall X (f : fnmut X T) s x r s' x', Inv s -> w_while I f s x = Done (r, s', x') -> Inv s')
  (H6 : forall X (f : fnmut X T) s x r s' x', Inv s -> w_while1 I f s x = Done (r, s', x') -> Inv s')
  (c : client T R P SE PE A) : forall s ks a s' ks', Inv s -> Forall InvK ks -> run_client I c s ks = Done (a, s', ks') -> Inv s' /\ Forall InvK ks'.
Proof.
  induction c as [a|k IH|k IH|k IH|k IH|n k IH|n k IH|X f x k IH|X f x k IH|n k IH|k IH]; intros s ks a0 s' ks' Hs Hk H; cbn [run_client] in H.
  - injection H as <- <- <-. auto.
  - destruct (w_uncons I s) as [[r s1]| |] eqn:E; try discriminate. eapply IH; [| |exact H]; eauto.
  - eapply IH; eauto.
  - eapply IH; eauto.
  - eapply IH; [| |exact H]; auto.
  - destruct (nth_error ks n) as [k0|] eqn:En; try discriminate. destruct (w_reset I s k0) as [r s1] eqn:E. eapply IH; [| |exact H]; auto.
    eapply H3; [exact Hs| |exact E]. rewrite Forall_forall in Hk. apply Hk. eapply nth_error_In; eauto.
  - destruct (w_range I n s) as [[r s1]| |] eqn:E; try discriminate. eapply IH; [| |exact H]; eauto.
  - destruct (w_while I f s x) as [[[r s1] x1]| |] eqn:E; try discriminate. eapply IH; [| |exact H]; eauto.
  - destruct (w_while1 I f s x) as [[[r s1] x1]| |] eqn:E; try discriminate. eapply IH; [| |exact H]; eauto.
  - destruct (nth_error ks n) as [k0|] eqn:En; try discriminate. destruct (w_distance I s k0); try discriminate. eapply IH; eauto.
  - eapply IH; eauto.
Qed.
End Commute.

(** * Pointers *)
Section Ptr.
Context {E T R : Type}.   (* elements, tokens *)
Variable size : N.
Variable ops : stream_ops (list E) T R.
Variable enc : list T -> list E.
Variable good : list T -> Prop.
Variable rrep : R -> list T -> Prop.
Variable sz : list T -> nat.
Hypothesis Enc : forall a b, enc (a ++ b) = enc a ++ enc b.
Hypothesis Good : forall a b, good (a ++ b) -> good b.
Hypothesis OK : ops_ok ops (fun s l => good l /\ s = enc l) rrep sz.
Variable dist : N * list E -> N * list E -> outcome nat.
Variable whole : list E -> R.
Notation I := (ptr_strm size (so_uncons ops) (@so_while _ _ _ ops) (@so_while1 _ _ _ ops) (so_range ops) dist whole).
Variable base : N.
Variable l0 : list T.
Definition place (s : N * list E) : Prop := exists a b, l0 = a ++ b /\ good b /\ s = ((base + size * N.of_nat (length (enc a)))%N, enc b).

Lemma place_move a b a1 b1 : l0 = a ++ b -> good b -> b = a1 ++ b1 -> 
  place (ptr_move size ((base + size * N.of_nat (length (enc a)))%N, enc b) (enc b1)).
Proof.
  intros H1 H2 ->. exists (a ++ a1), b1. split; [rewrite <- app_assoc; auto|]. split; [eapply Good; eauto|]. unfold ptr_move. cbn [fst snd].
  f_equal. rewrite !Enc, !app_length. replace (length (enc a1) + length (enc b1) - length (enc b1)) with (length (enc a1)) by lia. lia.
Qed.
Lemma run_place {A} (c : client T R N serr serr A) s ks a s' ks' : place s -> Forall place ks ->
  run_client I c s ks = Done (a, s', ks') -> place s' /\ Forall place ks'.
Proof.
  apply run_inv.
  - intros s1 r s2 [a1 [b [H1 [H2 ->]]]] H. cbn [w_uncons ptr_strm snd] in H.
    destruct (ok_uncons _ _ _ _ OK (enc b) b) as [[-> K]|[t [r1 [s3 [-> [K [Hg ->]]]]]]]; auto; rewrite K in H; cbn [omap fst snd] in H; injection H as <- <-.
    + apply (place_move a1 [] []); auto.
    + apply (place_move a1 (t :: r1) [t]); auto.
  - intros s1 H. exact H.
  - intros s1 k r s2 _ Hk H. cbn in H. injection H as <- <-. exact Hk.
  - intros n s1 r s2 [a1 [b [H1 [H2 ->]]]] H. cbn [w_range ptr_strm snd] in H.
    destruct (ok_range _ _ _ _ OK n (enc b) b) as [[a2 [b2 [r2 [s3 [K0 [_ [K [_ [Hg ->]]]]]]]]]|[_ [e K]]]; auto; rewrite K in H; cbn [omap fst snd] in H; injection H as <- <-.
    + eapply place_move; eauto.
    + apply (place_move a1 b []); auto.
  - intros X f s1 x r s2 x' [a1 [b [H1 [H2 ->]]]] H. cbn [w_while ptr_strm snd] in H.
    destruct (scans_total f x b) as [c1 [c2 [x2 Hc]]]. destruct (ok_while _ _ _ _ OK X f (enc b) b x c1 c2 x2) as [r2 [s3 [K [_ [Hg ->]]]]]; auto.
    rewrite K in H; cbn [omap fst snd] in H; injection H as <- <- <-. eapply place_move; eauto. eapply scans_app; eauto.
  - intros X f s1 x r s2 x' [a1 [b [H1 [H2 ->]]]] H. cbn [w_while1 ptr_strm snd] in H.
    destruct (ok_while1 _ _ _ _ OK X f (enc b) b x) as [[-> K]|[[t [r1 [x1 [-> [_ K]]]]]|[t [r1 [c1 [c2 [x1 [x2 [rg [s3 [-> [_ [Hs [K [_ [Hg ->]]]]]]]]]]]]]]]]; auto;
      rewrite K in H; cbn [omap fst snd] in H; injection H as <- <- <-.
    + apply (place_move a1 [] []); auto.
    + apply (place_move a1 (t :: r1) []); auto.
    + apply (place_move a1 (t :: r1) (t :: c1)); auto. cbn. f_equal. eapply scans_app; eauto.
Qed.
End Ptr.
Arguments place {E T}.

Lemma slice_place {T} debug size base (l : list T) A (c : client T (list T) N serr serr A) s ks a s' ks' :
  place size (fun l => l) (fun _ => True) base l s -> Forall (place size (fun l => l) (fun _ => True) base l) ks ->
  run_client (slice_strm debug size T) c s ks = Done (a, s', ks') ->
  place size (fun l => l) (fun _ => True) base l s' /\ Forall (place size (fun l => l) (fun _ => True) base l) ks'.
Proof.
  apply (run_place size (slice_ops debug T) (fun l => l) (fun _ => True) (fun r l => r = l) (@length T)); auto.
  pose proof (slice_ok debug T) as [H1 H2 H3 H4]. split.
  - intros s1 l1 [_ ->]. destruct (H1 l1 l1 eq_refl) as [?|[t [r [s2 [? [? ->]]]]]]; [left; auto|right; exists t, r, r; auto].
  - intros n s1 l1 [_ ->]. destruct (H2 n l1 l1 eq_refl) as [[u [v [r [s2 [? [? [? [? ->]]]]]]]]|?]; [left; exists u, v, r, v; auto 7|right; auto].
  - intros X f s1 l1 x u v x' [_ ->] Hs. destruct (H3 X f l1 l1 x u v x' eq_refl Hs) as [r [s2 [? [? ->]]]]. exists r, v. auto.
  - intros X f s1 l1 x [_ ->]. destruct (H4 X f l1 l1 x eq_refl) as [?|[?|[t [r [u [v [x' [x2 [rg [s2 [? [? [? [? [? ->]]]]]]]]]]]]]]]; [left; auto|right; left; auto|right; right].
    exists t, r, u, v, x', x2, rg, v. auto 8.
Qed.
Lemma str_place base (l : list N) A (c : client N (list N) N serr serr A) s ks a s' ks' :
  place 1 encode_all text base l s -> Forall (place 1 encode_all text base l) ks ->
  run_client str_strm c s ks = Done (a, s', ks') ->
  place 1 encode_all text base l s' /\ Forall (place 1 encode_all text base l) ks'.
Proof.
  apply (run_place 1 str_ops encode_all text str_repr (fun l => length (encode_all l))).
  - apply encode_all_app.
  - intros u v H. apply text_app in H. tauto.
  - exact str_ok.
Qed.
