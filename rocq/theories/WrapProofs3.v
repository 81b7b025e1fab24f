(** Positions of [position::Stream] under any client. *)
From Coq Require Import String List Bool Arith NArith Lia.
Import ListNotations.
From Verif Require Import Base StreamM StreamSpec StreamProofs PosProofs WrapM WrapSpec WrapProofs WrapProofs2.
Unset Implicit Arguments.

Section PosClient.
Context {E T R Q : Type}.
Variable size : N.
Variable ops : stream_ops (list E) T R.
Variable repr : list E -> list T -> Prop.
Variable rrep : R -> list T -> Prop.
Variable sz : list T -> nat.
Hypothesis OK : ops_ok ops repr rrep sz.
Variable posr : positioner Q T R.
Hypothesis AG : forall p r a, rrep r a -> po_range posr p r = stepped posr p a.
Variable dist : N * list E -> N * list E -> outcome nat.
Variable whole : list E -> R.
Notation I := (pos_strm (ptr_strm size (so_uncons ops) (@so_while _ _ _ ops) (@so_while1 _ _ _ ops) (so_range ops) dist whole) posr).
Variable l0 : list T.
Variable p0 : Q.
Definition followed (s : (N * list E) * Q) : Prop := exists a b, l0 = a ++ b /\ repr (snd (fst s)) b /\ snd s = stepped posr p0 a.

Lemma followed_step s q a b a1 b1 s1 : l0 = a ++ b -> b = a1 ++ b1 -> repr s1 b1 -> q = stepped posr p0 a -> followed ((s, s1), stepped posr q a1).
Proof. intros H1 -> H2 ->. exists (a ++ a1), b1. rewrite <- app_assoc, <- stepped_app. auto. Qed.
Lemma run_followed {A} (c : client T R Q serr serr A) s ks a s' ks' : followed s -> Forall followed ks ->
  run_client I c s ks = Done (a, s', ks') -> followed s' /\ Forall followed ks'.
Proof.
  apply run_inv.
  - intros [[n s1] q] r s2 [a1 [b [H1 [H2 H3]]]] H. cbn [w_uncons pos_strm ptr_strm fst snd] in H, H2, H3.
    destruct (ok_uncons _ _ _ _ OK s1 b H2) as [[-> K]|[t [r1 [s3 [-> [K Hg]]]]]]; rewrite K in H; cbn [omap fst snd] in H; injection H as <- <-.
    + eapply (followed_step _ q a1 [] [] []); try reflexivity; eauto.
    + eapply (followed_step _ q a1 (t :: r1) [t]); try reflexivity; eauto.
  - intros s1 H. destruct s1 as [[n s1] q]. exact H.
  - intros s1 k r s2 _ Hk H. destruct k as [[n k] q]. cbn in H. injection H as <- <-. exact Hk.
  - intros n [[n1 s1] q] r s2 [a1 [b [H1 [H2 H3]]]] H. cbn [w_range pos_strm ptr_strm fst snd] in H, H2, H3.
    destruct (ok_range _ _ _ _ OK n s1 b H2) as [[a2 [b2 [r2 [s3 [K0 [_ [K [Hr Hg]]]]]]]]|[_ [e K]]]; rewrite K in H; cbn [omap fst snd] in H; injection H as <- <-.
    + rewrite (AG _ _ _ Hr). eapply followed_step; eauto.
    + eapply (followed_step _ q a1 b [] b); try reflexivity; eauto.
  - intros X f [[n1 s1] q] x r s2 x' [a1 [b [H1 [H2 H3]]]] H. cbn [w_while pos_strm ptr_strm fst snd] in H, H2, H3.
    destruct (scans_total f x b) as [c1 [c2 [x2 Hc]]].
    destruct (ok_while _ _ _ _ OK _ (ps_closure posr f) _ _ _ _ _ _ H2 (closure_scans posr f _ _ _ _ _ q Hc)) as [r2 [s3 [K [_ Hg]]]].
    rewrite K in H; cbn [omap fst snd] in H; injection H as <- <- <-. eapply followed_step; eauto. eapply scans_app; eauto.
  - intros X f [[n1 s1] q] x r s2 x' [a1 [b [H1 [H2 H3]]]] H. cbn [w_while1 pos_strm ptr_strm fst snd] in H, H2, H3.
    pose proof (ps_while1_spec ops posr repr rrep sz OK f s1 q b x H2) as W. unfold ps_while1 in W. cbn [fst snd] in W.
    destruct (so_while1 ops (ps_closure posr f) s1 (x, q)) as [[[r2 s3] [x2 q2]]| |] eqn:K; cbn [omap] in H, W.
    2,3: destruct W as [[_ W]|[[? [? [? [_ [_ W]]]]]|[? [? [? [? [? [? [? [? [_ [_ [_ [W _]]]]]]]]]]]]]]; discriminate.
    cbn [fst snd] in H. injection H as <- <- <-.
    destruct W as [[-> W]|[[t [r1 [x1 [-> [_ W]]]]]|[t [r1 [c1 [c2 [x1 [x3 [rg [s4 [-> [_ [Hs [W [_ Hg]]]]]]]]]]]]]]]; injection W as -> -> -> ->.
    + eapply (followed_step _ q a1 [] [] []); try reflexivity; eauto.
    + eapply (followed_step _ q a1 (t :: r1) [] (t :: r1)); try reflexivity; eauto.
    + eapply (followed_step _ q a1 (t :: r1) (t :: c1)); eauto. cbn. f_equal. eapply scans_app; eauto.
Qed.
End PosClient.
