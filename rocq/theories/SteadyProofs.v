(** Proofs for C74: every call of a session returns. *)
From Coq Require Import String List Bool Arith NArith Lia.
Import ListNotations.
From Verif Require Import Base Parser Token Combinator Sequence Choice Repeat RangeP ByteP Spec SeqSpec ChoiceSpec TidySpec RepeatSpec AgreeSpec.
From Verif Require Import ResultProofs SeqProofs CombProofs ChoiceProofs CombProofs2 RepeatProofs ChunkSpec ChunkProofs ChunkProofs2 ChunkProofs3 ChunkProofs4 ChunkProofs5 ChunkProofs6 ChunkProofs7 ChunkProofs8 ChunkProofs9 ChunkProofs10 ChunkProofs11.
From Verif Require Import TotalSpec TotalProofs TotalProofs2 SteadySpec.
Unset Implicit Arguments.

Section Steady.
Context {C : Cfg}.
Notation T := (tok C).
Notation E := (Err C).
Variable z : nat.
Variable L : lawful C.
Notation few := (TotalSpec.fits z).

Lemma returns_done {X} (x : X) : returns (Done x).
Proof. exists x. reflexivity. Qed.
Lemma returns_omap {X Y} (g : X -> Y) o : returns o -> returns (omap g o).
Proof. intros [x ->]. exists (g x). reflexivity. Qed.
Lemma few_suffix (i : input C) q (r : list T) pos f : few i -> rest i = q ++ r -> few (Inp r pos f).
Proof. intros [K1 K2] Q. rewrite Q, app_length in K1, K2. split; cbn [rest]; lia. Qed.

(** Runs on the states of C29's proof return. *)
Definition ret_by {S A} (Cln : bool -> S -> Prop) (Res : bool -> Pos C -> list T -> list T -> S -> Prop) (p : parser C S A) : Prop :=
  forall f first pos l k r' s, started Cln Res f first pos l k s -> few (Inp (k ++ r') (pos_after pos l) f) ->
    returns (p_run p first (Inp (k ++ r') (pos_after pos l) f) s).

Lemma ret_literal {S A} (q : parser C S A) : (forall i, returns (p_lazy q i)) -> ret_by ucln ures (no_partial q).
Proof. intros Q f first pos l k r' s _ _. cbn [p_run no_partial mk_both]. apply returns_omap. apply Q. Qed.
Lemma ret_post {S A B} Cln Res (p : parser C S A) (q : parser C S B) : ret_by Cln Res p ->
  (forall first i st, exists g, p_run q first i st = omap g (p_run p first i st)) -> ret_by Cln Res q.
Proof. intros H HR f first pos l k r' s St Hf. destruct (HR first (Inp (k ++ r') (pos_after pos l) f) s) as [g ->]. apply returns_omap. apply H; auto. Qed.
Lemma ret_same {S A} Cln Res (p q : parser C S A) : ret_by Cln Res p -> (forall first i st, p_run q first i st = p_run p first i st) -> ret_by Cln Res q.
Proof. intros H HR f first pos l k r' s St Hf. rewrite HR. apply H; auto. Qed.

Lemma ret_lz {A} b n (lz : input C -> outcome (PR A E * input C)) ad ce cnt : solid z b n (mk_lazy lz ad ce cnt) -> ret_by ucln ures (mk_lazy lz ad ce cnt).
Proof.
  intros H f first pos l k r' s _ Hf. cbn [p_run mk_lazy]. unfold lazy_run. apply returns_omap.
  destruct (solid_lazy L _ _ _ _ _ _ H _ Hf) as [r [i' [K _]]]. cbn [p_lazy mk_lazy] in K. rewrite K. apply returns_done.
Qed.

Section One.
Context {S A : Type} (Cln : bool -> S -> Prop) (Res : bool -> Pos C -> list T -> list T -> S -> Prop) (p : parser C S A).
Hypothesis H : ret_by Cln Res p.

Lemma ret_message m : ret_by Cln Res (message p m).
Proof. apply (ret_post Cln Res p); auto. intros. eexists. reflexivity. Qed.
Lemma ret_expected m : ret_by Cln Res (expected p m).
Proof. apply (ret_same Cln Res p); auto. Qed.
Lemma ret_silent : ret_by Cln Res (silent p).
Proof. apply (ret_post Cln Res p); auto. intros. eexists. reflexivity. Qed.
Lemma ret_map {B} (g : A -> B) : ret_by Cln Res (map p g).
Proof. apply (ret_post Cln Res p); auto. intros. eexists. reflexivity. Qed.
Lemma ret_flat_map {B} (g : A -> B + E) : ret_by Cln Res (flat_map p g).
Proof. apply (ret_post Cln Res p); auto. intros. eexists. reflexivity. Qed.
Lemma ret_and_then {B} (g : A -> B + SErr C) : ret_by Cln Res (and_then p g).
Proof. apply (ret_post Cln Res p); auto. intros. eexists. reflexivity. Qed.
Lemma ret_from_str {B} (g : A -> option (B + string)) : ret_by Cln Res (from_str p g).
Proof. apply (ret_post Cln Res p); auto. intros. eexists. reflexivity. Qed.
Lemma ret_ignore : ret_by Cln Res (ignore p).
Proof. apply (ret_post Cln Res p); auto. intros. eexists. reflexivity. Qed.
Lemma ret_lazy : ret_by Cln Res (lazy p).
Proof. apply (ret_same Cln Res p); auto. Qed.
Lemma ret_factory : ret_by Cln Res (factory p).
Proof. apply (ret_same Cln Res p); auto. Qed.
Lemma ret_opaque : ret_by Cln Res (opaque p).
Proof. apply (ret_same Cln Res p); auto. Qed.
Lemma ret_by_ref : ret_by Cln Res (by_ref p).
Proof. apply (ret_same Cln Res p); auto. Qed.
Lemma ret_parser_fn : ret_by Cln Res (parser_fn p).
Proof. apply (ret_same Cln Res p); auto. Qed.
Lemma ret_spanned {Q} qe (sa sb : Pos C -> Q) mk : ret_by Cln Res (spanned qe sa sb mk p).
Proof. apply (ret_post Cln Res p); auto. intros. eexists. reflexivity. Qed.
Lemma ret_optional : ret_by Cln Res (optional p).
Proof. apply (ret_post Cln Res p); auto. intros. eexists. reflexivity. Qed.
Lemma ret_pair {B} (v0 : B) : ret_by Cln Res (MkParser (p_init p)
      (fun first i st => omap (fun x => match x with (r, i', s') => (pr_map (pair v0) r, i', s') end) (p_run p first i st))
      (fun i => omap (fun x => (pr_map (pair v0) (fst x), snd x)) (p_lazy p i))
      (fun first i st => omap (fun x => match x with (r, i', s') => (pr_map (pair v0) r, i', s') end) (p_cmode p first i st))
      (fun i => omap (fun x => (pr_map (pair v0) (fst x), snd x)) (p_stream p i))
      (p_adderr p) (p_addcexp p) (p_count p)).
Proof. apply (ret_post Cln Res p); auto. intros. eexists. reflexivity. Qed.

(** The other modes. *)
Context {x a n h : bool}.
Hypothesis K : chunk_by x a n h Cln Res p.
Lemma ret_cmode f first pos l k r' s : started Cln Res f first pos l k s -> few (Inp (k ++ r') (pos_after pos l) f) ->
  returns (p_cmode p first (Inp (k ++ r') (pos_after pos l) f) s).
Proof.
  intros St Hf. destruct (cb_cmode K first (Inp (k ++ r') (pos_after pos l) f) s) as [Q|Q]; rewrite Q; [|apply H; auto].
  unfold default_cmode. apply returns_omap. apply H; auto.
Qed.
Lemma ret_start i s : Cln (ipart i) s -> few i -> returns (p_run p true i s).
Proof. intros Hs Hf. destruct i as [r pos f]. apply (H f true pos [] [] r s); auto. cbn. auto. Qed.
Lemma ret_lazy_mode i : few i -> returns (p_lazy p i).
Proof.
  intros Hf. pose proof (ret_start i (p_init p) (cb_init K _) Hf) as [[[r j] s] R]. destruct (cb_lazy K i) as [Q|Q]; rewrite Q.
  - unfold default_lazy. apply returns_omap. rewrite R. apply returns_done.
  - unfold fresh. apply returns_omap. rewrite R. apply returns_done.
Qed.
Lemma ret_look_ahead : ret_by ucln ures (look_ahead p).
Proof. intros f first pos l k r' s _ Hf. cbn [p_run look_ahead mk_lazy]. unfold lazy_run. apply returns_omap. apply returns_omap. apply ret_lazy_mode. exact Hf. Qed.
Lemma ret_no_partial : ret_by ucln ures (no_partial p).
Proof. intros f first pos l k r' s _ Hf. cbn [p_run no_partial mk_both]. apply returns_omap. apply ret_lazy_mode. exact Hf. Qed.
Lemma ret_parser_fn0 : ret_by ucln ures (parser_fn0 p).
Proof.
  intros f first pos l k r' s St Hf. cbn [p_run parser_fn0 mk_mode]. apply returns_omap. assert (Hl : l = []) by (destruct first; [apply St|exact St]). subst l. destruct first.
  - apply ret_start; [apply (cb_init K)|exact Hf].
  - apply (H f false pos [] [] (k ++ r')); [apply (cb_res K); apply (cb_init K)|exact Hf].
Qed.
Lemma ret_any_partial_state : ret_by (oCln S Cln) (oRes S Res) (any_partial_state p).
Proof.
  intros f first pos l k r' s St Hf. cbn [p_run any_partial_state mk_both]. destruct s as [s|]; cbn [any_partial_run]; apply returns_omap.
  - apply H; [destruct first; exact St|exact Hf].
  - assert (Hl : l = []) by (destruct first; apply St). subst l. destruct first.
    + apply ret_start; [apply (cb_init K)|exact Hf].
    + apply (H f false pos [] [] (k ++ r')); [apply (cb_res K); apply (cb_init K)|exact Hf].
Qed.
Lemma ret_left {S2} (Cln2 : bool -> S2 -> Prop) : ret_by (eicln Cln Cln2) (lres Res) (either (inl p)).
Proof.
  intros f first pos l k r' st St Hf. cbn [p_run either mk_both either_run]. apply returns_omap. apply H; [|exact Hf].
  destruct first; cbn in *.
  - destruct St as [K1 [K2 K3]]. split; [exact K1|]. split; [exact K2|]. destruct st as [[s1|s1]|]; [exact K3|apply (cb_init K)|apply (cb_init K)].
  - destruct st as [[s1|s1]|]; [exact St| |]; destruct St as [-> ->]; apply (cb_res K); apply (cb_init K).
Qed.
Lemma ret_right {S2} (Cln2 : bool -> S2 -> Prop) : ret_by (eicln Cln2 Cln) (rres_ Res) (either (inr p)).
Proof.
  intros f first pos l k r' st St Hf. cbn [p_run either mk_both either_run]. apply returns_omap. apply H; [|exact Hf].
  destruct first; cbn in *.
  - destruct St as [K1 [K2 K3]]. split; [exact K1|]. split; [exact K2|]. destruct st as [[s1|s1]|]; [apply (cb_init K)|exact K3|apply (cb_init K)].
  - destruct st as [[s1|s1]|]; [|exact St|]; destruct St as [-> ->]; apply (cb_res K); apply (cb_init K).
Qed.
Lemma ret_disp_here {SS} (Cln2 : bool -> option SS -> Prop) : ret_by (dcln Cln Cln2) (lres Res) (dispatch (DC p)).
Proof.
  intros f first pos l k r' st St Hf. cbn [p_run dispatch mk_mode disp_run]. apply returns_omap. apply H; [|exact Hf].
  destruct first; cbn in *.
  - destruct St as [K1 [K2 K3]]. split; [exact K1|]. split; [exact K2|]. destruct st as [[s1|s1]|]; [exact K3|apply (cb_init K)|apply (cb_init K)].
  - destruct st as [[s1|s1]|]; [exact St| |]; destruct St as [-> ->]; apply (cb_res K); apply (cb_init K).
Qed.
End One.

Lemma ret_disp_later x a n h {S SS A} (Cln1 : bool -> S -> Prop) Cln2 Res2 (d : disp (C:=C) A SS) : chunk_by x a n h Cln2 Res2 (dispatch d) ->
  ret_by Cln2 Res2 (dispatch d) -> ret_by (dcln Cln1 Cln2) (dres Res2) (dispatch (DN d)).
Proof.
  intros K H f first pos l k r' st St Hf. cbn [p_run dispatch mk_mode disp_run].
  set (s := match st with Some (inr s) => Some s | _ => None end).
  assert (St' : started Cln2 Res2 f first pos l k s).
  { destruct first; cbn in *.
    - destruct St as [K1 [K2 K3]]. split; [exact K1|]. split; [exact K2|]. unfold s. destruct st as [[s1|s1]|]; [apply (cb_init K)|exact K3|apply (cb_init K)].
    - unfold s. destruct st as [[s1|s1]|]; [|exact St|]; destruct St as [-> ->]; apply (cb_res K); apply (cb_init K). }
  pose proof (H f first pos l k r' s St' Hf) as R. cbn [p_run dispatch mk_mode] in R. apply returns_omap. exact R.
Qed.

Lemma ret_cln {S A} Cln Cln' Res (p : parser C S A) : (forall f s, Cln' f s <-> Cln f s) -> ret_by Cln Res p -> ret_by Cln' Res p.
Proof. intros HE H f first pos l k r' s St Hf. apply H; auto. destruct first; cbn in *; [rewrite <- HE; exact St|exact St]. Qed.

(** * Ranges *)
Lemma ret_tw one g : ret_by wcln (wres g) (tw one g).
Proof.
  intros f first pos l k r' d St Hf. cbn [p_run tw mk_mode]. unfold parse_partial_range. cbn [ipart].
  destruct f; cbn [negb]; [|destruct (tw_first one g _); apply returns_done].
  destruct (first || (d =? 0)) eqn:FD.
  - destruct (tw_first one g _) as [r i']. destruct r; apply returns_done.
  - apply orb_false_iff in FD. destruct FD as [-> _]. cbn in St. destruct St as [-> St]. destruct (St eq_refl) as [-> _]. cbn [pos_after fold_left].
    assert (HA : advanced_by (Inp (k ++ r') pos true) k (Inp r' (pos_after pos k) true)) by (repeat split; reflexivity).
    rewrite (uncons_range_exact L _ _ _ HA). destruct (s_uncons_while _ g) as [r i2]. destruct r; try apply returns_done; destruct (s_uncons_range _ _); apply returns_done.
Qed.
Lemma ret_take_fn s Cln Res : ret_by Cln Res (take_fn s).
Proof.
  intros f first pos l k r' d St Hf. cbn [p_run take_fn mk_mode]. unfold take_fn_run. destruct (s _) as [q|q].
  - destruct (s_uncons_range _ _); apply returns_done.
  - destruct (_ && _); apply returns_done.
Qed.
Lemma ret_take_until_range r : ret_by tcln (tres r) (take_until_range r).
Proof.
  intros f first pos l k r' d St Hf. cbn [p_run take_until_range mk_mode].
  destruct (rg_take_until_range L (z:=z) false r _ d Hf I) as [r0 [i' [st' [Q _]]]].
  assert (Q' : take_until_range_run r first (Inp (k ++ r') (pos_after pos l) f) d = take_until_range_run r true (Inp (k ++ r') (pos_after pos l) f) d) by reflexivity.
  rewrite Q', Q. apply returns_done.
Qed.
Lemma ret_recognize {S A} Cln Res (p : parser C S A) : ret_by Cln Res p -> ret_by (ChunkProofs11.rcln Cln) (ChunkProofs11.rres Res) (recognize p).
Proof.
  intros H f first pos l k r' [els s] St Hf. cbn [p_run recognize mk_mode recognize_run]. apply returns_omap. apply H; [|exact Hf].
  destruct first; cbn in *; [destruct St as [K1 [K2 [K3 K4]]]; auto|apply St].
Qed.
Lemma ret_recognize_with_value {S A} Cln Res (p : parser C S A) : ret_by Cln Res p -> ret_by (ChunkProofs3.rcln Cln) (ChunkProofs3.rres Res) (recognize_with_value p).
Proof.
  intros H f first pos l k r' [d s] St Hf. cbn [p_run recognize_with_value mk_mode recognize_with_value_run].
  assert (K : exists lc kc, l = [] /\ k = lc ++ kc /\ d = range_len lc /\ started Cln Res f first pos lc kc s).
  { destruct first; cbn in St.
    - destruct St as [St1 [St2 [St3 St4]]]. exists [], []. cbn in *. auto 10.
    - destruct St as [St1 [lc [kc [St2 [St3 St4]]]]]. exists lc, kc. cbn in *. auto. }
  destruct K as [lc [kc [-> [-> [-> Sc]]]]]. cbn [pos_after fold_left]. rewrite <- app_assoc in *.
  assert (HA : advanced_by (Inp (lc ++ kc ++ r') pos f) lc (Inp (kc ++ r') (pos_after pos lc) f)) by (repeat split; reflexivity).
  assert (R : returns (p_run p first (Inp (kc ++ r') (pos_after pos lc) f) s)). { apply H; [exact Sc|]. eapply few_suffix; [exact Hf|reflexivity]. }
  destruct R as [[[r i2] s2] R].
  assert (Q : (if first then Done (Inp (lc ++ kc ++ r') pos f) else match uncons_range (range_len lc) (Inp (lc ++ kc ++ r') pos f) with (inl _, i1) => Done i1 | (inr _, _) => Panic end) =
    Done (Inp (kc ++ r') (pos_after pos lc) f)).
  { destruct first; [destruct Sc as [-> _]; reflexivity|]. rewrite (uncons_range_exact L _ _ _ HA). reflexivity. }
  cbn [pos_after fold_left] in *. rewrite Q. cbn [obind]. rewrite R. cbn [obind]. destruct r; try apply returns_done; destruct (s_uncons_range _ _); apply returns_done.
Qed.

End Steady.
