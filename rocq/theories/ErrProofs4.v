(** What a failed choice of any alternatives reports, and a sequence whose failing part is a sequence. *)
From Coq Require Import String List Bool Arith NArith Lia.
Import ListNotations.
From Verif Require Import Base Errors Parser Token Combinator Sequence Choice Repeat RangeP ByteP Spec LibSpec SeqSpec CombProofs SeqProofs AgreeSpec AgreeProofs ErrSpec ErrProofs ErrProofs2 ErrProofs3.
Unset Implicit Arguments.

Section Nested.
Context {C : Cfg}.
Notation E := (Err C).

(** The leaves of a sequence: the first [n + 1] of them are asked. *)
Lemma adderr_rest_leaves : forall (l : list (errfns (C:=C))) n e, Forall plain_part l -> n < length l ->
  tuple_adderr_rest (Trk e (N.of_nat (S n))) l = Trk (expectations (firstn (S n) l) e) 0.
Proof.
  induction l as [|f l IH]; intros n e Hl Hn; [cbn in Hn; lia|]. inversion Hl as [|? ? [Hc [Ha _]] Hl']; subst. cbn [tuple_adderr_rest].
  rewrite Ha. cbn [terr toff]. destruct n as [|n]; [reflexivity|].
  destruct (N.of_nat (S (S n)) <=? 1)%N eqn:E1; [apply N.leb_le in E1; lia|]. cbn in Hn. destruct l as [|g l]; [cbn in Hn; lia|].
  rewrite N.eqb_refl, Hc. unfold set_off, sat_sub. cbn [terr toff]. replace (N.of_nat (S (S n)) - 1)%N with (N.of_nat (S n)) by lia.
  rewrite IH; auto; lia.
Qed.
Lemma adderr_leaves (l : list (errfns (C:=C))) n e : Forall plain_part l -> n < length l ->
  tuple_adderr l (Trk e (N.of_nat (S n))) = Trk (expectations (firstn (S n) l) e) 0.
Proof.
  destruct l as [|f l]; intros Hl Hn; [cbn in Hn; lia|]. inversion Hl as [|? ? [Hc [Ha _]] Hl']; subst. cbn [tuple_adderr].
  rewrite Ha. cbn [terr toff]. destruct n as [|n]; [reflexivity|].
  destruct (N.of_nat (S (S n)) <=? 1)%N eqn:E1; [apply N.leb_le in E1; lia|]. cbn in Hn.
  rewrite N.eqb_refl, Hc. unfold set_off, sat_sub. cbn [terr toff]. replace (N.of_nat (S (S n)) - 1)%N with (N.of_nat (S n)) by lia.
  rewrite adderr_rest_leaves; auto; lia.
Qed.

(** A sequence that fails without commitment in leaf [n]: the error carries [n + 1]. *)
Lemma tuple_peek {SS B} (t : tup (C:=C) SS B) n i ib e : Forall plain_part (tup_errfns t) -> seq_prefix t i n 0 ib e -> toff e = 1%N -> n <= 254 ->
  exists ia, fresh (tuple t) i = Done (PeekErr (Trk (terr e) (N.of_nat (S n))), ia).
Proof.
  intros Hp H He Hn. unfold fresh, tuple, mk_mode. cbn [p_run p_init]. unfold tuple_run. cbn [fst snd].
  assert (Hend : forall st off', seq_all t true i (tup_init t) 0 = Done (KPeek e 0, ib, st, off') -> off' = N.of_nat (S n) ->
    exists ia, omap fst (obind (seq_all t true i (tup_init t) 0) (fun x => match x with (k, i', s', off') =>
      match k with
      | KCommit e => Done (CommitErr e, i', (s', off'))
      | KHead e => Done (PeekErr e, i', (s', off'))
      | KPeek e fep => let (r, i2) := add_errors i' e fep off' (tup_errfns t) in Done (r, i2, (s', off'))
      | KOk _ _ fep => match tup_take t s' with
        | Some (b, s2) => Done (if fep =? 0 then PeekOk b else CommitOk b, i', (s2, off'))
        | None => Panic
        end
      end end)) = Done (PeekErr (Trk (terr e) (N.of_nat (S n))), ia)).
  { intros st off' -> ->. cbn. eexists. reflexivity. }
  destruct t as [S A p|S A SS B p r]; cbn [seq_prefix] in H.
  - destruct H as [-> [_ [-> [ia H]]]]. apply fresh_run in H. destruct H as [s H]. cbn [seq_all tup_init]. unfold seq_head. cbn [orb]. rewrite H. cbn.
    destruct e as [e o]. cbn in He. subst o. eexists. reflexivity.
  - destruct H as [[-> [_ [-> [ia H]]]]|[c [a [i1 [k' [f' [H1 [H2 [-> Hf]]]]]]]]].
    + apply fresh_run in H. destruct H as [s H]. cbn [seq_all tup_init]. unfold seq_head. cbn [orb fst snd]. rewrite H. cbn.
      destruct e as [e o]. cbn in He. subst o. eexists. reflexivity.
    + destruct (f' =? 0) eqn:Ef; [|discriminate]. destruct c; [discriminate|]. apply Nat.eqb_eq in Ef. subst f'.
      cbn [tup_errfns] in Hp. inversion Hp as [|? ? [Hc _] Hp']; subst. cbn in Hc. apply fresh_run in H1. destruct H1 as [s H1].
      assert (Ho : sat_add (p_count p) 1 = 2%N) by (rewrite Hc; reflexivity).
      destruct (seq_rest_prefix r Hp' k' 0 i1 ib e 0 0 2%N H2) as [st [off' [K1 K2]]].
      eapply (Hend ((Some a, s), st) off').
      * cbn [seq_all tup_init fst snd]. unfold seq_head. cbn [orb]. rewrite H1. cbn [okr omap obind]. rewrite Ho, K1. reflexivity.
      * rewrite K2; lia.
Qed.

Lemma nested_tail (f : nat) (g : errfns (C:=C)) leaves post n : ef_add g = tuple_adderr leaves -> Forall plain_part leaves -> n < length leaves ->
  forall pre j e0 o, Forall plain_part pre -> f <= j -> (o = N.of_nat (S (length pre)) \/ (pre = [] /\ (o <= 1)%N)) ->
  terr (add_sequence_errors j f (N.of_nat (S n)) (Trk e0 o) (pre ++ g :: post)) = expectations (pre ++ firstn (S n) leaves) e0.
Proof.
  intros Hg Hl Hn. induction pre as [|x pre IH]; intros j e0 o Hp Hf Ho.
  - cbn [app add_sequence_errors]. unfold add_sequence_error. destruct (j + 1 =? f) eqn:E1; [apply Nat.eqb_eq in E1; lia|].
    destruct (f <=? j) eqn:E2; [|apply Nat.leb_gt in E2; lia]. cbn [toff].
    assert (Hle : (o <=? 1)%N = true) by (apply N.leb_le; destruct Ho as [->|[_ Ho]]; cbn [length] in *; lia). rewrite Hle.
    change (set_off {| terr := e0; toff := o |} (N.of_nat (S n))) with (Trk e0 (N.of_nat (S n))). rewrite Hg, adderr_leaves by auto. reflexivity.
  - inversion Hp as [|? ? [Hc [Ha _]] Hp']; subst. destruct Ho as [->|[Ho _]]; [|discriminate]. cbn [app add_sequence_errors expectations fold_left].
    unfold add_sequence_error. destruct (j + 1 =? f) eqn:E1; [apply Nat.eqb_eq in E1; lia|].
    destruct (f <=? j) eqn:E2; [|apply Nat.leb_gt in E2; lia]. cbn [toff length].
    destruct (N.of_nat (S (S (length pre))) <=? 1)%N eqn:E3; [apply N.leb_le in E3; lia|]. rewrite Ha. cbn [terr toff]. rewrite E3.
    unfold set_off, sat_sub. cbn [terr toff]. rewrite Hc. rewrite IH; auto; try lia.
Qed.
Lemma nested_blame (f : nat) (g : errfns (C:=C)) leaves post n : ef_add g = tuple_adderr leaves -> Forall plain_part leaves -> n < length leaves ->
  forall done last pre j e0 o, Forall plain_part done -> plain_part last -> Forall plain_part pre -> f = j + S (length done) ->
  (o = N.of_nat (S (length (done ++ last :: pre))) \/ (pre = [] /\ (o <= N.of_nat (S (length (done ++ last :: pre))))%N)) ->
  terr (add_sequence_errors j f (N.of_nat (S n)) (Trk e0 o) (done ++ last :: pre ++ g :: post)) = expectations (pre ++ firstn (S n) leaves) (could_continue last e0).
Proof.
  intros Hg Hl Hn. induction done as [|x done IH]; intros last pre j e0 o Hd [Hc [Ha Hx]] Hp Hf Ho; cbn [app add_sequence_errors]; unfold add_sequence_error; cbn [length] in Hf.
  - destruct (f <=? j) eqn:E2; [apply Nat.leb_le in E2; lia|]. destruct (j + 1 =? f) eqn:E1; [|apply Nat.eqb_neq in E1; lia].
    rewrite Hx. unfold set_off, sat_sub. cbn [terr toff]. rewrite Hc. rewrite (nested_tail f g leaves post n Hg Hl Hn); auto; [lia|].
    cbn [app length] in Ho. destruct Ho as [->|[-> Ho]]; [left; lia|right; split; auto; cbn in Ho; lia].
  - inversion Hd as [|? ? [Dc _] Hd']; subst. destruct (j + S (S (length done)) <=? j) eqn:E2; [apply Nat.leb_le in E2; lia|].
    destruct (j + 1 =? j + S (S (length done))) eqn:E1; [apply Nat.eqb_eq in E1; lia|]. unfold set_off, sat_sub. cbn [terr toff]. rewrite Dc.
    rewrite IH; auto; [split; auto|lia|]. cbn [app length] in Ho. destruct Ho as [->|[-> Ho]]; [left; lia|right; split; auto; lia].
Qed.

(** The offset after the parts before the failing one. *)
Lemma seq_rest_prefix' {SS B} (t : tup (C:=C) SS B) : forall k f i ib e cur fep off, Forall plain_part (firstn k (tup_errfns t)) -> seq_prefix t i k f ib e ->
  exists st off', seq_rest t true cur fep i (tup_init t) off = Done (KPeek e (if f =? 0 then fep else cur + 1 + f), ib, st, off') /\
    ((off <= 255)%N -> off' = N.min 255 (off + N.of_nat k)).
Proof.
  induction t as [S A p|S A SS B p r IH]; intros k f i ib e cur fep off Hp H; cbn [seq_prefix] in H.
  - destruct H as [-> [-> [-> [ia H]]]]. apply fresh_run in H. destruct H as [s H]. cbn. unfold seq_elem. cbn. rewrite H. cbn.
    eexists _, _. split; [reflexivity|]. intros Ho. lia.
  - destruct H as [[-> [-> [-> [ia H]]]]|[c [a [i1 [k' [f' [H1 [H2 [-> ->]]]]]]]]].
    + apply fresh_run in H. destruct H as [s H]. cbn. unfold seq_elem. cbn. rewrite H. cbn. eexists _, _. split; [reflexivity|]. intros Ho. lia.
    + cbn [tup_errfns firstn] in Hp. inversion Hp as [|? ? [Hc _] Hp']; subst. cbn in Hc.
      apply fresh_run in H1. destruct H1 as [s H1]. cbn [seq_rest tup_init fst snd]. unfold seq_elem at 1. cbn [orb]. rewrite H1.
      assert (Hs : (off <= 255 -> sat_add off (p_count p) <= 255 /\ sat_add off (p_count p) = N.min 255 (off + 1))%N).
      { intros Ho. unfold sat_add. rewrite Hc. lia. }
      destruct c; cbn [okr omap obind].
      * destruct (IH k' f' i1 ib e (cur + 1) (cur + 1 + 1) (sat_add off (p_count p)) Hp' H2) as [st [off' [K1 K2]]]. rewrite K1. cbn [omap].
        eexists _, off'. split; [|intros Ho; destruct (Hs Ho) as [Hs1 Hs2]; rewrite (K2 Hs1), Hs2; lia].
        match goal with |- Done (KPeek e ?a, _, _, _) = Done (KPeek e ?b, _, _, _) => replace a with b; [reflexivity|] end; destruct (f' =? 0) eqn:Ef; cbn; lia.
      * destruct (IH k' f' i1 ib e (cur + 1) fep (sat_add off (p_count p)) Hp' H2) as [st [off' [K1 K2]]]. rewrite K1. cbn [omap].
        eexists _, off'. split; [|intros Ho; destruct (Hs Ho) as [Hs1 Hs2]; rewrite (K2 Hs1), Hs2; lia].
        match goal with |- Done (KPeek e ?a, _, _, _) = Done (KPeek e ?b, _, _, _) => replace a with b; [reflexivity|] end; destruct (f' =? 0) eqn:Ef; cbn; lia.
Qed.

(** The failing part is itself a sequence, failed in its leaf [n]. *)
Lemma tuple_nested {SS B S2 B2} (t : tup (C:=C) SS B) (t2 : tup (C:=C) S2 B2) done last pre post f i ib e n :
  tup_errfns t = done ++ last :: pre ++ errfns_of (tuple t2) :: post -> Forall plain_part (done ++ last :: pre) -> Forall plain_part (tup_errfns t2) ->
  seq_prefix t i (length (done ++ last :: pre)) f ib e -> f = S (length done) -> toff e = N.of_nat (S n) -> n < length (tup_errfns t2) ->
  length (done ++ last :: pre) <= 254 ->
  fails_with (fresh (tuple t)) i true
    (expectations (pre ++ firstn (S n) (tup_errfns t2)) (could_continue last (with_found ib (terr e)))).
Proof.
  intros Ht Hp Hp2 H Hf He Hn Hk.
  set (k := length (done ++ last :: pre)) in *.
  assert (Hp' : Forall plain_part (firstn k (tup_errfns t))).
  { rewrite Ht. replace (done ++ last :: pre ++ errfns_of (tuple t2) :: post) with ((done ++ last :: pre) ++ errfns_of (tuple t2) :: post) by (rewrite <- app_assoc; reflexivity).
    unfold k. rewrite firstn_app_len. exact Hp. }
  assert (Hall : exists st off', seq_all t true i (tup_init t) 0 = Done (KPeek e f, ib, st, off') /\ off' = N.min 255 (N.of_nat (S k))).
  { clear Ht. destruct t as [S A p|S A SS B p r]; cbn [seq_prefix] in H; [destruct H as [_ [K _]]; lia|].
    destruct H as [[_ [K _]]|[c [a [i1 [k' [f' [H1 [H2 [Ek Ef]]]]]]]]]; [lia|].
    rewrite Ek in Hp'. cbn [tup_errfns firstn] in Hp'. inversion Hp' as [|? ? [Hc _] Hp'']; subst. cbn in Hc.
    apply fresh_run in H1. destruct H1 as [s H1]. cbn [seq_all tup_init fst snd]. unfold seq_head. cbn [orb]. rewrite H1.
    assert (Ho : sat_add (p_count p) 1 = 2%N) by (rewrite Hc; reflexivity). rewrite Ho.
    destruct c; cbn [okr omap obind].
    - destruct (seq_rest_prefix' r k' f' i1 ib e 0 1 2%N Hp'' H2) as [st [off' [K1 K2]]]. rewrite K1. cbn [omap]. eexists _, off'. split.
      + match goal with |- Done (KPeek e ?a, _, _, _) = Done (KPeek e ?b, _, _, _) => replace a with b; [reflexivity|] end; destruct (f' =? 0) eqn:Ef'; cbn; lia.
      + rewrite K2; lia.
    - destruct (seq_rest_prefix' r k' f' i1 ib e 0 0 2%N Hp'' H2) as [st [off' [K1 K2]]]. rewrite K1. cbn [omap]. eexists _, off'. split.
      + match goal with |- Done (KPeek e ?a, _, _, _) = Done (KPeek e ?b, _, _, _) => replace a with b; [reflexivity|] end; destruct (f' =? 0) eqn:Ef'; cbn; lia.
      + rewrite K2; lia. }
  destruct Hall as [st [off' [Hall Hoff]]].
  unfold fails_with. change (fresh (tuple t) i) with (omap fst (tuple_run t true i (tup_init t, 0%N))). unfold tuple_run. cbn [fst snd]. rewrite Hall. cbn [obind].
  unfold add_errors. destruct (f =? 0) eqn:Ef; [apply Nat.eqb_eq in Ef; lia|]. rewrite He.
  assert (Hu : exists i2, (match uncons ib with
      | (Some t0, i') => (on_err (fun e0 => e_add C e0 (se_unexpected C (IToken t0))) (set_off e off'), i')
      | (None, i') => (set_off e off', i') end) = (Trk (with_found ib (terr e)) off', i2)).
  { unfold uncons, with_found, on_err, set_off. destruct (rest ib); cbn; eauto. }
  destruct Hu as [i2 Hu]. rewrite Hu. eexists _, i2. split; [reflexivity|]. cbn [error_of committed]. split; auto. f_equal. rewrite Ht.
  rewrite Forall_app in Hp. destruct Hp as [P1 P2]. inversion P2; subst.
  apply (nested_blame (S (length done)) (errfns_of (tuple t2)) (tup_errfns t2) post n); auto. fold k. left. lia.
Qed.
End Nested.

(** ** Choices of any alternatives *)
Section AnyChoice.
Context {T : TokCfg} {fl : nat} {dg : bool}.
Notation C := (cfg_easy T fl dg).
Notation E := (Err C).

Lemma alts_fail_try {A SS} (t : alts (C:=C) A SS) (i : input C) : forall es, alts_fail t i es -> choice_try t i = Done (TFail (List.map to_trk es)).
Proof.
  induction t as [S p|S SS p r IH]; intros es H; cbn [alts_fail] in H.
  - destruct H as [e [ia [-> H]]]. apply fresh_run in H. destruct H as [s H]. cbn. unfold try_one. rewrite H. reflexivity.
  - destruct H as [e [ia [es' [-> [H Hr]]]]]. apply fresh_run in H. destruct H as [s H]. cbn [choice_try]. unfold try_one at 1. rewrite H. cbn [omap obind].
    rewrite (IH es' Hr). reflexivity.
Qed.
Lemma merge_merged : forall (es : list E) e, merge_errs (C:=C) (to_trk e) (List.map to_trk es) = merged (C:=C) e es.
Proof. induction es as [|e' es IH]; intros e; [reflexivity|]. cbn [List.map merge_errs merged]. rewrite IH. reflexivity. Qed.
Lemma extract_plain : forall (es : list E) fns u, choice_extract (C:=C) (List.map to_trk es) fns u = u.
Proof. induction es as [|e es IH]; intros fns u; [reflexivity|]. destruct fns as [|f fns]; [reflexivity|]. cbn. apply IH. Qed.
Lemma fold_alts {A SS} (t : alts (C:=C) A SS) : forall u : trk E,
  terr (fold_left (fun e f => f (set_off (C:=C) e 1%N)) (alts_adderr t) u) = expectations (alts_errfns t) (terr u).
Proof. induction t as [S p|S SS p r IH]; intros u; cbn; [reflexivity|]. rewrite IH. reflexivity. Qed.

Lemma choice_report {A SS} (t : alts (C:=C) A SS) (i : input C) e es : alts_fail t i (e :: es) ->
  parse (choice t) i = Done (inr (expectations (alts_errfns t) (own_report i (merged (C:=C) e es))), i).
Proof.
  intros H. assert (K : fresh (choice t) i = Done (PeekErr (to_trk (merged (C:=C) e es)), i)).
  { unfold fresh, choice, mk_mode, choice_run. cbn [p_run p_init]. rewrite (alts_fail_try t i _ H). cbn [obind]. unfold choice_error.
    cbn [List.map]. change (to_trk e :: List.map to_trk es) with (List.map to_trk (e :: es)). rewrite extract_plain, merge_merged. reflexivity. }
  rewrite (parse_peek (choice t) i _ i (fun _ => eq_refl) K). f_equal. f_equal. f_equal.
  cbn [p_adderr choice mk_mode terr toff to_trk]. unfold choice_adderr, add_error_choice. cbn [toff N.eqb].
  unfold set_off at 1. cbn [terr]. apply fold_alts.
Qed.
End AnyChoice.
