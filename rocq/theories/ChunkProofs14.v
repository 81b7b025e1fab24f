(** Proofs for C29: [parser!] functions without state, and literals inside [no_partial]. *)
From Coq Require Import String List Bool Arith NArith Lia.
Import ListNotations.
From Verif Require Import Base Parser Token Combinator Sequence Choice Repeat RangeP ByteP Spec TokenProofs.
From Verif Require Import ResultProofs CombProofs ChunkSpec ChunkProofs ChunkProofs2 ChunkProofs3.
Unset Implicit Arguments.

Section Stateless.
Context {C : Cfg}.
Notation T := (tok C).
Notation E := (Err C).
Variable EL : eoi_laws C.

(** The state is thrown away; a parser that consumes nothing while it waits starts over. *)
Lemma chunk_parser_fn0 x n h {S A} Cln Res (p : parser C S A) : chunk_by x true n h Cln Res p ->
  chunk_by x true n h ucln ures (parser_fn0 p).
Proof.
  intros H. constructor; auto.
  - intros. exact I.
  - intros f pos s _. reflexivity.
  - apply (cb_adderr H).
  - apply (cb_cexp H).
  - intros f first pos l k r' [] St out E0. assert (Hl : l = []) by (destruct first; [apply St|exact St]). subst l.
    cbn [p_run parser_fn0 mk_mode] in E0. destruct (p_run p first (Inp (k ++ r') (pos_after pos []) f) (p_init p)) as [[[r i'] s']| |] eqn:Q; try discriminate.
    cbn [omap] in E0. inversion E0; subst out; clear E0.
    assert (St2 : started Cln Res f first pos [] [] (p_init p)).
    { destruct first; cbn; [split; [reflexivity|]; split; [reflexivity|apply (cb_init H)]|apply (cb_res H); apply (cb_init H)]. }
    pose proof (cb_run H f first pos [] [] (k ++ r') _ St2 _ Q) as F. cbn [app] in F.
    apply fits_beh with (b := fresh p); [intros i; unfold fresh; cbn; destruct (p_run p true i (p_init p)) as [[[? ?] ?]| |]; reflexivity|].
    unfold fits in *. cbn [fst]. destruct r as [v|v|e|e].
    + destruct F as [F1 [_ F3]]. split; [exact F1|]. split; [exact I|exact F3].
    + destruct F as [F1 [_ F3]]. split; [exact F1|]. split; [exact I|exact F3].
    + destruct F as [[F1 [F2 [r1 [F3 [F4 [F5 F6]]]]]]|F]; [left|right; exact F]. split; [exact F1|]. split; [exact F2|]. exists r1.
      split; [exact F3|]. split; [exact F4|]. split; [exact F5|]. intros g. unfold ures. rewrite (F5 eq_refl). reflexivity.
    + destruct F as [F1 [F2 [F3 [F4 F5]]]]. split; [exact F1|]. split; [exact F2|]. split; [exact F3|]. split; [intros _; exact I|exact F5].
Qed.

(** A literal inside [no_partial] is tried again from its beginning. *)
Definition lit_run {X B} (cmp : X -> T -> bool) (l : list X) (g : unit -> B) (i : input C) : PR B E * input C :=
  let (r, i') := tokens_loop cmp (fun e => e) (ipos i) false l i in
  match r with CommitErr e => (CommitErr e, if ipart i then i else i') | _ => (pr_map g r, i') end.

Lemma chunk_literal {X B} (cmp : X -> T -> bool) (l : list X) (g : unit -> B) (q : parser C unit B) : l <> [] ->
  noneoi (p_adderr q) -> noneoi (p_addcexp q) ->
  (forall first i st, p_cmode q first i st = default_cmode (p_run q) (p_adderr q) first i st \/ p_cmode q first i st = p_run q first i st) ->
  (forall i, p_lazy q i = default_lazy (p_init q) (p_run q) i \/ p_lazy q i = fresh q i) ->
  (forall first i st, p_run q first i st = Done (lit_run cmp l g i, tt)) ->
  chunk_by true true false true ucln ures q.
Proof.
  intros Hl H1 H2 H3 H4 H5. apply chunk_unit; auto; [intros; rewrite !H5; reflexivity|].
  assert (HF : forall i, fresh q i = Done (lit_run cmp l g i)) by (intros i; unfold fresh; rewrite H5; reflexivity).
  intros f pos r res i' Q. rewrite H5 in Q.
  assert (Q1 : lit_run cmp l g (Inp r pos f) = (res, i')) by congruence. clear Q.
  assert (LM : forall ts pos f rr, Forall2 (fun x t => cmp x t = true) l ts -> lit_run cmp l g (Inp (ts ++ rr) pos f) = (CommitOk (g tt), Inp rr (pos_after pos ts) f)).
  { intros ts pos1 f1 rr M. unfold lit_run. pose proof (tokens_loop_spec (fun e => e) (ipos (Inp (ts ++ rr) pos1 f1)) false (@LitMatch C X cmp l (Inp (ts ++ rr) pos1 f1) ts rr eq_refl M)) as K.
    cbn beta iota in K. rewrite K. destruct l; [congruence|]. reflexivity. }
  assert (LN : forall l1 x l2 ts t pos f rr, l = l1 ++ x :: l2 -> Forall2 (fun x t => cmp x t = true) l1 ts -> cmp x t = false ->
    fst (lit_run cmp l g (Inp (ts ++ t :: rr) pos f)) = if 0 <? length l1 then CommitErr (e_from C pos (se_unexpected C (IToken t))) else PeekErr (to_trk (e_empty C pos))).
  { intros l1 x l2 ts t pos1 f1 rr HL M N. unfold lit_run.
    pose proof (tokens_loop_spec (fun e => e) (ipos (Inp (ts ++ t :: rr) pos1 f1)) false (@LitMismatch C X cmp l (Inp (ts ++ t :: rr) pos1 f1) l1 l2 x ts rr t eq_refl HL M N)) as K.
    cbn beta iota in K. rewrite K. cbn [orb]. destruct (0 <? length l1); reflexivity. }
  destruct (literal_outcome_total cmp l (Inp r pos f)) as [ts rr HH M|l1 l2 x ts rr t HH HL M N|l1 l2 x HL M]; cbn [rest] in *.
  - subst r. rewrite LM in Q1 by exact M. inversion Q1; subst res i'. unfold fits. assert (HN : ts <> []) by (intros ->; inversion M; subst; congruence).
    split; [|split; [exact I|intros _ _ K; apply app_eq_nil in K; destruct K; congruence]].
    exists ts. split; [reflexivity|]. split; [reflexivity|]. split; [|intros _; destruct ts; [congruence|reflexivity]].
    intros m Hm r0 i0 Q. rewrite HF in Q. cbn [app rest] in Q. rewrite LM in Q by exact M. inversion Q; subst. destruct ts; [congruence|]. split; reflexivity.
  - subst r. specialize (LN l1 x l2 ts t). pose proof (LN pos f rr HL M N) as K. rewrite Q1 in K. cbn [fst] in K.
    assert (AE : always_err f (fresh q) pos (ts ++ t :: rr) (0 <? length l1)).
    { intros m Hm r0 i0 Q. rewrite HF in Q. rewrite <- app_assoc in Q. cbn [app] in Q. pose proof (LN pos false (rr ++ m) HL M N) as K0. inversion Q as [Q0]. rewrite Q0 in K0. cbn [fst] in K0.
      subst r0. destruct (0 <? length l1); auto. }
    subst res. unfold fits. destruct (0 <? length l1).
    + right. split; [|exact AE]. intros _. split; [rewrite (el_from EL); apply (el_unexpected EL)|]. intros _ K. destruct ts; discriminate.
    + split; [reflexivity|]. split; [intros _; split; [apply (el_empty EL)|destruct ts; discriminate]|]. split; [left; reflexivity|]. split; [intros _; exact I|exact AE].
  - assert (KE : forall f, lit_run cmp l g (Inp r pos f) = let j := Inp [] (pos_after pos r) f in let e := e_setpos C (e_from C (ipos j) (se_eoi C)) pos in
      if f || (0 <? length l1) then (CommitErr e, if f then Inp r pos f else j) else (PeekErr (to_trk e), j)).
    { intros f1. unfold lit_run. pose proof (tokens_loop_spec (fun e => e) (ipos (Inp r pos f1)) false (@LitEnd C X cmp l (Inp r pos f1) l1 l2 x HL M)) as K.
      cbn beta iota in K. rewrite K. cbn [ipos rest ipart orb advance]. destruct (f1 || (0 <? length l1)); reflexivity. }
    rewrite KE in Q1. cbn zeta in Q1.
    assert (AE : f = false -> always_err f (fresh q) pos r (0 <? length l1)).
    { intros -> m [Hm|Hm] r0 i0 Q; [discriminate|]. subst m. rewrite app_nil_r, HF, KE in Q. cbn [orb] in Q. cbn zeta in Q. destruct (0 <? length l1); inversion Q; auto. }
    destruct f; cbn [orb] in Q1.
    + inversion Q1; subst res i'. unfold fits. left. split; [reflexivity|]. split; [rewrite (el_setpos EL), (el_from EL); apply (el_se EL)|].
      exists []. repeat split.
    + destruct (0 <? length l1); inversion Q1; subst res i'; unfold fits.
      * right. split; [discriminate|]. apply AE. reflexivity.
      * split; [reflexivity|]. split; [discriminate|]. split; [left; reflexivity|]. split; [intros _; exact I|]. apply AE. reflexivity.
Qed.

Lemma noneoi_expected (x : info T) f : noneoi f -> noneoi (fun t : trk E => e_set_expected C t (se_expected C x) f).
Proof. intros H t Ht. apply (el_set EL); [exact Ht|apply (el_expected EL)|exact H]. Qed.

Lemma chunk_string_cmp text (s : list T) cmp : s <> [] -> chunk_by true true false true ucln ures (no_partial (string_cmp text s cmp)).
Proof.
  intros Hs. eapply (chunk_literal cmp s (fun _ => text)); auto; try apply noneoi_no.
  - cbn. apply noneoi_expected. apply noneoi_no.
  - intros i. right. unfold fresh. cbn. destruct (default_lazy tt _ i) as [[r j]| |]; reflexivity.
  - intros first i []. unfold lit_run. cbn. unfold default_lazy, lazy_run. cbn. destruct (tokens_loop cmp (fun e => e) (ipos i) false s i) as [r j]. destruct r; cbn; try reflexivity; destruct (ipart i); reflexivity.
Qed.
Lemma chunk_string text (s : list T) : s <> [] -> chunk_by true true false true ucln ures (no_partial (string_p text s)).
Proof. apply chunk_string_cmp. Qed.
Lemma chunk_bytes_cmp (s : list T) cmp : s <> [] -> chunk_by true true false true ucln ures (no_partial (bytes_cmp s cmp)).
Proof.
  intros Hs. eapply (chunk_literal cmp s (fun _ => s)); auto; try apply noneoi_no.
  - cbn. apply noneoi_expected. apply noneoi_no.
  - intros i. right. unfold fresh. cbn. destruct (default_lazy tt _ i) as [[r j]| |]; reflexivity.
  - intros first i []. unfold lit_run. cbn. unfold default_lazy, lazy_run. cbn. destruct (tokens_loop cmp (fun e => e) (ipos i) false s i) as [r j]. destruct r; cbn; try reflexivity; destruct (ipart i); reflexivity.
Qed.
Lemma chunk_bytes (s : list T) : s <> [] -> chunk_by true true false true ucln ures (no_partial (bytes s)).
Proof.
  intros Hs. eapply (chunk_literal (tok_eqb C) s (fun _ => s)); auto; try apply noneoi_no.
  - cbn. apply noneoi_expected. apply noneoi_no.
  - intros i. right. unfold fresh. cbn. destruct (default_lazy tt _ i) as [[r j]| |]; reflexivity.
  - intros first i []. unfold lit_run. cbn. unfold default_lazy, lazy_run. cbn. destruct (tokens_loop (tok_eqb C) (fun e => e) (ipos i) false s i) as [r j]. destruct r; cbn; try reflexivity; destruct (ipart i); reflexivity.
Qed.
End Stateless.
