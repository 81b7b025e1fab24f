(** Proofs for C80: the decoder of the test [take_until_committed], for texts without colons that two colons end. *)
From Coq Require Import String List Bool Arith NArith Lia.
Import ListNotations.
From Verif Require Import Base Errors Parser Token Combinator Sequence Choice Repeat RangeP ByteP DecodeM.
From Verif Require Import Spec RangeSpec ChunkSpec ResultProofs TokenProofs SeqProofs CombProofs ChunkProofs FramedM FramedM3 FramedSpec RangeProofs FramedProofs FramedProofs2 UntilProofs.
Unset Implicit Arguments.

Section Until2.
Context {C : Cfg}.
Notation T := (tok C).
Notation E := (Err C).
Variable EL : eoi_laws C.
Variable L : lawful C.
Variable SL : is_slice (C:=C).
Variable lit : N -> T.
Notation c := (lit 58).
Notation q := (map (token c) (fun _ => tt)).
Notation ep := (attempt (tuple (TC q (T1 (token c))))).
Notation sk := (tuple (TC (token c) (T1 (token c)))).
Notation eoi_at pos := (e_from C pos (se_eoi C)).

Lemma c_hit first r pos f : p_run (token c) first (Inp (c :: r) pos f) tt = Done (CommitOk c, Inp r (pos_step C pos c) f, tt).
Proof. unfold token, mk_lazy. cbn [p_run]. unfold lazy_run, satisfy_impl, s_uncons, uncons. cbn [rest ipos ipart]. rewrite (proj2 (law_tok L c c) eq_refl). reflexivity. Qed.
Lemma c_nil first pos : p_run (token c) first (Inp [] pos true) tt = Done (CommitErr (eoi_at pos), Inp [] pos true, tt).
Proof. reflexivity. Qed.
Lemma q_hit2 first r pos f : p_run q first (Inp (c :: r) pos f) tt = Done (CommitOk tt, Inp r (pos_step C pos c) f, tt).
Proof. unfold map, mk_mode. cbn [p_run]. rewrite c_hit. reflexivity. Qed.
Lemma q_miss2 first t r pos f : t <> c -> exists e i', p_run q first (Inp (t :: r) pos f) tt = Done (PeekErr e, i', tt).
Proof.
  intros H. unfold map, token, mk_lazy, mk_mode. cbn [p_run]. unfold lazy_run, satisfy_impl, s_uncons, uncons. cbn [rest ipos ipart].
  destruct (tok_eqb C t c) eqn:K; [apply (law_tok L) in K; contradiction|]. do 2 eexists. reflexivity.
Qed.

(** A pair, by what its parts do. *)
Section Pair.
Context {S1 A1 S2 A2 : Type} (p1 : parser C S1 A1) (p2 : parser C S2 A2).
Notation pr := (tuple (TC p1 (T1 p2))).
Lemma pair_ok first i s1 s2 off v i' s1' b i2 s2' : p_run p1 first i s1 = Done (CommitOk v, i', s1') -> p_run p2 true i' s2 = Done (CommitOk b, i2, s2') ->
  exists off', p_run pr first i (((None, s1), (None, s2)), off) = Done (CommitOk (v, b), i2, (((None, s1'), (None, s2')), off')).
Proof.
  intros H1 H2. unfold tuple, mk_mode. cbn [p_run]. unfold tuple_run, seq_all, seq_head. cbn [fst snd is_none]. rewrite orb_true_r, H1. cbn [omap obind].
  unfold seq_rest, seq_elem. cbn [fst snd is_none]. rewrite orb_true_r, H2. cbn. eexists. reflexivity.
Qed.
Lemma pair_half first i s1 s2 off v i' s1' e i2 s2' : p_run p1 first i s1 = Done (CommitOk v, i', s1') -> p_run p2 true i' s2 = Done (CommitErr e, i2, s2') ->
  exists off', p_run pr first i (((None, s1), (None, s2)), off) = Done (CommitErr e, i2, (((Some v, s1'), (None, s2')), off')).
Proof.
  intros H1 H2. unfold tuple, mk_mode. cbn [p_run]. unfold tuple_run, seq_all, seq_head. cbn [fst snd is_none]. rewrite orb_true_r, H1. cbn [omap obind].
  unfold seq_rest, seq_elem. cbn [fst snd is_none]. rewrite orb_true_r, H2. cbn. eexists. reflexivity.
Qed.
Lemma pair_none first i s1 s2 off e i' s1' : p_run p1 first i s1 = Done (CommitErr e, i', s1') ->
  p_run pr first i (((None, s1), (None, s2)), off) = Done (CommitErr e, i', (((None, s1'), (None, s2)), off)).
Proof. intros H1. unfold tuple, mk_mode. cbn [p_run]. unfold tuple_run, seq_all, seq_head. cbn [fst snd is_none]. rewrite orb_true_r, H1. reflexivity. Qed.
Lemma pair_peek first i s1 s2 off e i' s1' : p_run p1 first i s1 = Done (PeekErr e, i', s1') ->
  p_run pr first i (((None, s1), (None, s2)), off) = Done (PeekErr e, i', (((None, s1'), (None, s2)), off)).
Proof. intros H1. unfold tuple, mk_mode. cbn [p_run]. unfold tuple_run, seq_all, seq_head. cbn [fst snd is_none]. rewrite orb_true_r, H1. reflexivity. Qed.
Lemma pair_second i s1 s2 off v b i2 s2' : p_run p2 false i s2 = Done (CommitOk b, i2, s2') ->
  exists off', p_run pr false i (((Some v, s1), (None, s2)), off) = Done (CommitOk (v, b), i2, (((None, s1), (None, s2')), off')).
Proof.
  intros H2. unfold tuple, mk_mode. cbn [p_run]. unfold tuple_run, seq_all, seq_head. cbn [fst snd is_none orb omap obind].
  unfold seq_rest, seq_elem. cbn [fst snd is_none orb]. rewrite H2. cbn. eexists. reflexivity.
Qed.
Lemma pair_wait i s1 s2 off v e i2 s2' : p_run p2 false i s2 = Done (CommitErr e, i2, s2') ->
  p_run pr false i (((Some v, s1), (None, s2)), off) = Done (CommitErr e, i2, (((Some v, s1), (None, s2')), off)).
Proof.
  intros H2. unfold tuple, mk_mode. cbn [p_run]. unfold tuple_run, seq_all, seq_head. cbn [fst snd is_none orb omap obind].
  unfold seq_rest, seq_elem. cbn [fst snd is_none orb]. rewrite H2. reflexivity.
Qed.
End Pair.

(** The end parser: nothing seen, or the first colon. *)
Notation EST := (((option unit * unit) * (option T * unit)) * N)%type.
Definition es (seen : bool) (off : N) : EST := (((if seen then Some tt else None, tt), (None, tt)), off).
Lemma attempt_ok {S A} (p : parser C S A) first i s v i' s' : p_cmode p = default_cmode (p_run p) (p_adderr p) -> p_run p first i s = Done (CommitOk v, i', s') -> p_run (attempt p) first i s = Done (CommitOk v, i', s').
Proof. intros Hc H. cbn [p_run attempt]. unfold attempt_run. rewrite Hc. unfold default_cmode. rewrite H. reflexivity. Qed.
Lemma attempt_wait {S A} (p : parser C S A) first i s pos l s' : p_cmode p = default_cmode (p_run p) (p_adderr p) -> p_run p first i s = Done (CommitErr (eoi_at pos), Inp l pos true, s') ->
  p_run (attempt p) first i s = Done (CommitErr (eoi_at pos), Inp l pos true, s').
Proof. intros Hc H. cbn [p_run attempt]. unfold attempt_run. rewrite Hc. unfold default_cmode. rewrite H. cbn. rewrite (el_from EL), (el_se EL). reflexivity. Qed.
Lemma attempt_peek {S A} (p : parser C S A) first i s e i' s' : p_cmode p = default_cmode (p_run p) (p_adderr p) -> p_run p first i s = Done (PeekErr e, i', s') -> exists e2 i2, p_run (attempt p) first i s = Done (PeekErr e2, i2, s').
Proof. intros Hc H. cbn [p_run attempt]. unfold attempt_run. rewrite Hc. unfold default_cmode. rewrite H. do 2 eexists. reflexivity. Qed.

Lemma ep_both first off r pos f : exists b off' i', p_run ep first (Inp (c :: c :: r) pos f) (es false off) = Done (CommitOk b, i', es false off').
Proof.
  destruct (pair_ok q (token c) first (Inp (c :: c :: r) pos f) tt tt off _ _ _ _ _ _ (q_hit2 first (c :: r) pos f) (c_hit true _ _ _)) as [off' Q].
  eexists _, off', _. apply attempt_ok; [reflexivity|exact Q].
Qed.
Lemma ep_half first off pos : exists off', p_run ep first (Inp [c] pos true) (es false off) = Done (CommitErr (eoi_at (pos_step C pos c)), Inp [] (pos_step C pos c) true, es true off').
Proof.
  destruct (pair_half q (token c) first (Inp [c] pos true) tt tt off _ _ _ _ _ _ (q_hit2 first [] pos true) (c_nil true _)) as [off' Q].
  exists off'. apply attempt_wait; [reflexivity|exact Q].
Qed.
Lemma ep_second off r pos f : exists b off' i', p_run ep false (Inp (c :: r) pos f) (es true off) = Done (CommitOk b, i', es false off').
Proof.
  destruct (pair_second q (token c) (Inp (c :: r) pos f) tt tt off tt _ _ _ (c_hit false _ _ _)) as [off' Q].
  eexists _, off', _. apply attempt_ok; [reflexivity|exact Q].
Qed.
Lemma ep_nil first off pos : p_run ep first (Inp [] pos true) (es false off) = Done (CommitErr (eoi_at pos), Inp [] pos true, es false off).
Proof. apply attempt_wait; [reflexivity|]. apply (pair_none q (token c) first (Inp [] pos true) tt tt off). reflexivity. Qed.
Lemma ep_miss first off t r pos f : t <> c -> exists e i', p_run ep first (Inp (t :: r) pos f) (es false off) = Done (PeekErr e, i', es false off).
Proof.
  intros H. destruct (q_miss2 first t r pos f H) as [e [i' Q]]. eapply attempt_peek; [reflexivity|].
  exact (pair_peek q (token c) first _ tt tt off _ _ _ Q).
Qed.

(** [take_until]. *)
Lemma loop2_both first f r : forall w cm out pos off, ~ In c w -> exists off',
  take_until_loop ep first cm f out (w ++ c :: c :: r) pos (es false off) = Done (CommitOk (out ++ w), Inp (c :: c :: r) (pos_after pos w) f, ([], es false off')).
Proof.
  induction w as [|t w IH]; intros cm out pos off H; cbn [take_until_loop app]; cbv zeta.
  - destruct (ep_both first off r pos f) as [b [off' [i' Q]]]. rewrite Q. exists off'. cbn. rewrite app_nil_r. destruct cm; reflexivity.
  - destruct (ep_miss first off t (w ++ c :: c :: r) pos f) as [e [i' Q]]; [intros K; apply H; left; exact K|]. rewrite Q. cbn [obind into_std].
    destruct (IH (Commit tt) (out ++ [t]) (pos_step C pos t) off) as [off' R]; [intros K; apply H; right; exact K|]. exists off'. rewrite R, <- app_assoc. reflexivity.
Qed.
Lemma loop2_half first : forall w cm out pos off, ~ In c w -> exists off',
  take_until_loop ep first cm true out (w ++ [c]) pos (es false off) =
  Done (CommitErr (eoi_at (pos_after pos (w ++ [c]))), Inp [c] (pos_after pos w) true, (out ++ w, es true off')).
Proof.
  induction w as [|t w IH]; intros cm out pos off H; cbn [take_until_loop app]; cbv zeta.
  - destruct (ep_half first off pos) as [off' Q]. rewrite Q. exists off'. cbn. rewrite app_nil_r. reflexivity.
  - destruct (ep_miss first off t (w ++ [c]) pos true) as [e [i' Q]]; [intros K; apply H; left; exact K|]. rewrite Q. cbn [obind into_std].
    destruct (IH (Commit tt) (out ++ [t]) (pos_step C pos t) off) as [off' R]; [intros K; apply H; right; exact K|]. exists off'. rewrite R, <- app_assoc. reflexivity.
Qed.
Lemma loop2_no first : forall w cm out pos off, ~ In c w ->
  take_until_loop ep first cm true out w pos (es false off) = Done (CommitErr (eoi_at (pos_after pos w)), Inp [] (pos_after pos w) true, (out ++ w, es false off)).
Proof.
  induction w as [|t w IH]; intros cm out pos off H; cbn [take_until_loop app]; cbv zeta.
  - rewrite ep_nil, app_nil_r. reflexivity.
  - destruct (ep_miss first off t w pos true) as [e [i' Q]]; [intros K; apply H; left; exact K|]. rewrite Q. cbn [obind into_std].
    rewrite IH by (intros K; apply H; right; exact K). rewrite <- app_assoc. reflexivity.
Qed.
Lemma loop2_second f r cm out pos off : exists off', take_until_loop ep false cm f out (c :: r) pos (es true off) = Done (CommitOk out, Inp (c :: r) pos f, ([], es false off')).
Proof. destruct (ep_second off r pos f) as [b [off' [i' Q]]]. exists off'. cbn [take_until_loop]. cbv zeta. rewrite Q. cbn. destruct cm; reflexivity. Qed.

(** The whole parser. *)
Notation up := (until_committed_parser lit).
Notation uc := (any_partial_state up).
Notation tu := (take_until ep).
Notation SST := (((option T * unit) * (option T * unit)) * N)%type.
Notation UST := (option (((option (list T) * (list T * EST)) * (option unit * SST)) * N)).
Definition sks (seen : bool) (off : N) : SST := (((if seen then Some c else None, tt), (None, tt)), off).
Definition full (v : option (list T)) (out : list T) (e : EST) (s : SST) (d : N) := (((v, (out, e)), (@None unit, s)), d).
Definition atA (st : UST) (out : list T) : Prop := (st = None /\ out = []) \/ exists a b d, st = Some (full None out (es false a) (sks false b) d).
Definition atB (st : UST) (out : list T) : Prop := exists a b d, st = Some (full None out (es true a) (sks false b) d).
Definition atD (st : UST) (v : list T) : Prop := exists a b d, st = Some (full (Some v) [] (es false a) (sks true b) d).

Lemma up_run first i st : p_run up first i st = omap (fun x => match x with (r, i', s') => (pr_map fst r, i', s') end) (p_run (tuple (TC tu (T1 (ignore sk)))) first i st).
Proof. reflexivity. Qed.
Lemma ign_run {S A} (p : parser C S A) first i st : p_run (ignore p) first i st = omap (fun x => match x with (r, i', s') => (pr_map (fun _ => tt) r, i', s') end) (p_run p first i st).
Proof. reflexivity. Qed.
Lemma sk_both first off r pos f : exists off', p_run (ignore sk) first (Inp (c :: c :: r) pos f) (sks false off) = Done (CommitOk tt, Inp r (pos_step C (pos_step C pos c) c) f, sks false off').
Proof.
  destruct (pair_ok (token c) (token c) first (Inp (c :: c :: r) pos f) tt tt off _ _ _ _ _ _ (c_hit first (c :: r) pos f) (c_hit true _ _ _)) as [off' Q].
  exists off'. rewrite ign_run. unfold sks. rewrite Q. reflexivity.
Qed.
Lemma sk_half first off pos : exists off', p_run (ignore sk) first (Inp [c] pos true) (sks false off) = Done (CommitErr (eoi_at (pos_step C pos c)), Inp [] (pos_step C pos c) true, sks true off').
Proof.
  destruct (pair_half (token c) (token c) first (Inp [c] pos true) tt tt off _ _ _ _ _ _ (c_hit first [] pos true) (c_nil true _)) as [off' Q].
  exists off'. rewrite ign_run. unfold sks. rewrite Q. reflexivity.
Qed.
Lemma sk_second off r pos f : exists off', p_run (ignore sk) false (Inp (c :: r) pos f) (sks true off) = Done (CommitOk tt, Inp r (pos_step C pos c) f, sks false off').
Proof.
  destruct (pair_second (token c) (token c) (Inp (c :: r) pos f) tt tt off c _ _ _ (c_hit false _ _ _)) as [off' Q].
  exists off'. rewrite ign_run. unfold sks. rewrite Q. reflexivity.
Qed.
Lemma sk_wait off pos : p_run (ignore sk) false (Inp [] pos true) (sks true off) = Done (CommitErr (eoi_at pos), Inp [] pos true, sks true off).
Proof. rewrite ign_run. unfold sks. rewrite (pair_wait (token c) (token c) (Inp [] pos true) tt tt off c _ _ _ (c_nil false pos)). reflexivity. Qed.

Lemma tu_run first i st : p_run tu first i st = take_until_loop ep first (Peek tt) (ipart i) (fst st) (rest i) (ipos i) (snd st).
Proof. reflexivity. Qed.

Lemma any_run st out i r i' (P : UST -> Prop) : atA st out ->
  (forall a b d, exists st', p_run up false i (full None out (es false a) (sks false b) d) = Done (r, i', st') /\ P (Some st')) ->
  (match r with CommitErr _ => True | _ => P None end) -> exists st', p_run uc false i st = Done (r, i', st') /\ P st'.
Proof.
  intros [[-> ->]|[a [b [d ->]]]] H HN.
  - destruct (H 0%N 0%N 0%N) as [st' [Q HP]]. cbn [p_run any_partial_state mk_both]. unfold any_partial_run.
    rewrite (Q : p_run up false i (p_init up) = _). cbn [omap]. destruct r; eexists; (split; [reflexivity|]); auto.
  - destruct (H a b d) as [st' [Q HP]]. cbn [p_run any_partial_state mk_both]. unfold any_partial_run. rewrite Q. eexists. split; [reflexivity|exact HP].
Qed.
Lemma some_run (s : (((option (list T) * (list T * EST)) * (option unit * SST)) * N)) i r i' s' : p_run up false i s = Done (r, i', s') -> p_run uc false i (Some s) = Done (r, i', Some s').
Proof. intros H. cbn [p_run any_partial_state mk_both]. unfold any_partial_run. rewrite H. reflexivity. Qed.

Lemma runA_both st out w r pos f : atA st out -> ~ In c w -> exists st', p_run uc false (Inp (w ++ c :: c :: r) pos f) st = Done (CommitOk (out ++ w), Inp r (pos_after pos (w ++ [c; c])) f, st') /\ atA st' [].
Proof.
  intros HS H. apply (any_run st out _ _ _ (fun st' => atA st' []) HS); [|left; auto]. intros a b d.
  destruct (loop2_both false f r w (Peek tt) out pos a H) as [a' Q]. destruct (sk_both true b r (pos_after pos w) f) as [b' R].
  destruct (pair_ok tu (ignore sk) false (Inp (w ++ c :: c :: r) pos f) (out, es false a) (sks false b) d _ _ _ _ _ _ Q R) as [d' K].
  eexists. split; [rewrite up_run; unfold full; rewrite K; cbn [omap pr_map fst]; rewrite pos_after_app; reflexivity|]. right. exists a', b', d'. reflexivity.
Qed.
Lemma runA_half st out w pos : atA st out -> ~ In c w -> exists st', p_run uc false (Inp (w ++ [c]) pos true) st = Done (CommitErr (eoi_at (pos_after pos (w ++ [c]))), Inp [c] (pos_after pos w) true, st') /\ atB st' (out ++ w).
Proof.
  intros HS H. apply (any_run st out _ _ _ (fun st' => atB st' (out ++ w)) HS); [|exact I]. intros a b d.
  destruct (loop2_half false w (Peek tt) out pos a H) as [a' Q].
  pose proof (pair_none tu (ignore sk) false (Inp (w ++ [c]) pos true) (out, es false a) (sks false b) d _ _ _ Q) as K.
  eexists. split; [rewrite up_run; unfold full; rewrite K; reflexivity|]. exists a', b, d. reflexivity.
Qed.
Lemma runA_no st out w pos : atA st out -> ~ In c w -> exists st', p_run uc false (Inp w pos true) st = Done (CommitErr (eoi_at (pos_after pos w)), Inp [] (pos_after pos w) true, st') /\ atA st' (out ++ w).
Proof.
  intros HS H. apply (any_run st out _ _ _ (fun st' => atA st' (out ++ w)) HS); [|exact I]. intros a b d.
  pose proof (pair_none tu (ignore sk) false (Inp w pos true) (out, es false a) (sks false b) d _ _ _ (loop2_no false w (Peek tt) out pos a H)) as K.
  eexists. split; [rewrite up_run; unfold full; rewrite K; reflexivity|]. right. exists a, b, d. reflexivity.
Qed.
Lemma runB_both st out r pos f : atB st out -> exists st', p_run uc false (Inp (c :: c :: r) pos f) st = Done (CommitOk out, Inp r (pos_after pos [c; c]) f, st') /\ atA st' [].
Proof.
  intros [a [b [d ->]]]. destruct (loop2_second f (c :: r) (Peek tt) out pos a) as [a' Q]. destruct (sk_both true b r pos f) as [b' R].
  destruct (pair_ok tu (ignore sk) false (Inp (c :: c :: r) pos f) (out, es true a) (sks false b) d _ _ _ _ _ _ Q R) as [d' K].
  eexists. split; [apply some_run; rewrite up_run; unfold full; rewrite K; reflexivity|]. right. exists a', b', d'. reflexivity.
Qed.
Lemma runB_half st out pos : atB st out -> exists st', p_run uc false (Inp [c] pos true) st = Done (CommitErr (eoi_at (pos_step C pos c)), Inp [] (pos_step C pos c) true, st') /\ atD st' out.
Proof.
  intros [a [b [d ->]]]. destruct (loop2_second true [] (Peek tt) out pos a) as [a' Q]. destruct (sk_half true b pos) as [b' R].
  destruct (pair_half tu (ignore sk) false (Inp [c] pos true) (out, es true a) (sks false b) d _ _ _ _ _ _ Q R) as [d' K].
  eexists. split; [apply some_run; rewrite up_run; unfold full; rewrite K; reflexivity|]. exists a', b', d'. reflexivity.
Qed.
Lemma runD_ok st v r pos f : atD st v -> exists st', p_run uc false (Inp (c :: r) pos f) st = Done (CommitOk v, Inp r (pos_step C pos c) f, st') /\ atA st' [].
Proof.
  intros [a [b [d ->]]]. destruct (sk_second b r pos f) as [b' R].
  destruct (pair_second tu (ignore sk) (Inp (c :: r) pos f) ([], es false a) (sks true b) d v _ _ _ R) as [d' K].
  eexists. split; [apply some_run; rewrite up_run; unfold full; rewrite K; reflexivity|]. right. exists a, b', d'. reflexivity.
Qed.
Lemma runD_wait st v pos : atD st v -> exists st', p_run uc false (Inp [] pos true) st = Done (CommitErr (eoi_at pos), Inp [] pos true, st') /\ atD st' v.
Proof.
  intros [a [b [d ->]]]. pose proof (pair_wait tu (ignore sk) (Inp [] pos true) ([], es false a) (sks true b) d v _ _ _ (sk_wait b pos)) as K.
  eexists. split; [apply some_run; rewrite up_run; unfold full; rewrite K; reflexivity|]. exists a, b, d. reflexivity.
Qed.

(** One call of the decoder. *)
Lemma call_ok st src pos eof v used r st' : src = used ++ r -> p_run uc false (Inp src pos (negb eof)) st = Done (CommitOk v, Inp r (pos_after pos used) (negb eof), st') ->
  decode_stream uc eof (Fd st src pos) = Done (inl (Some v), Fd st' r (pos_after pos used)).
Proof.
  intros -> H. unfold decode_stream, decode_tokio, parse_with_state, parse_stream_partial. cbn [fd_src fd_pos fd_state]. rewrite H. cbn [omap obind augment3 augment entry_result].
  rewrite (advance_to SL used); reflexivity.
Qed.
Lemma call_wait st src pos pe used r st' : src = used ++ r -> p_run uc false (Inp src pos true) st = Done (CommitErr (eoi_at pe), Inp r (pos_after pos used) true, st') ->
  decode_stream uc false (Fd st src pos) = Done (inl None, Fd st' r (pos_after pos used)).
Proof.
  intros -> H. unfold decode_stream, decode_tokio, parse_with_state, parse_stream_partial. cbn [fd_src fd_pos fd_state negb]. rewrite H. cbn [omap obind augment3 augment entry_result ipart].
  rewrite (el_from EL), (el_se EL). rewrite (advance_to SL used); reflexivity.
Qed.
Lemma call_end st pos : atA st [] -> exists d', decode_stream uc true (Fd st [] pos) = Done (inl None, d').
Proof.
  intros HS. unfold decode_stream, decode_tokio, parse_with_state, parse_stream_partial. cbn [fd_src fd_pos fd_state negb].
  assert (K : exists st' e, p_run uc false (Inp [] pos false) st = Done (PeekErr e, Inp [] pos false, st')).
  { destruct HS as [[-> _]|[a [b [d ->]]]]; do 2 eexists; reflexivity. }
  destruct K as [st' [e K2]]. rewrite K2. cbn [omap obind augment3 augment entry_result ipart].
  assert (KE : forall t, e_is_eoi C (terr t) = true -> e_is_eoi C (terr (p_adderr uc t)) = true).
  { assert (KT : keep (p_adderr (token c))) by (apply (keep_add EL)).
    change (keep (p_adderr uc)). apply keep_tuple. constructor; [intros t H; exact H|]. constructor; [|constructor].
    change (keep (p_adderr sk)). apply keep_tuple. constructor; [exact KT|]. constructor; [exact KT|constructor]. }
  unfold augment_err. rewrite KE by (cbn; rewrite (el_add EL), (el_se EL); apply orb_true_r).
  cbn. rewrite (el_se EL). cbn. eexists. reflexivity.
Qed.

Definition enc (ms : list (list T)) : list T := concat (List.map (fun w => w ++ [c; c]) ms).
Lemma enc_first x r ms : ~ In c x -> Forall (fun w => ~ In c w) ms -> x ++ c :: r = enc ms -> exists ms', ms = x :: ms' /\ r = c :: enc ms'.
Proof.
  intros Hx HM H. destruct ms as [|w ms]; [destruct x; discriminate|]. inversion HM as [|? ? H1 H2]; subst. unfold enc in H. cbn [List.map concat] in H. rewrite <- app_assoc in H. cbn [app] in H.
  fold (enc ms) in H. exists ms. assert (K : x = w /\ r = c :: enc ms); [|destruct K as [-> ->]; auto]. clear H2 HM. revert w H H1. induction x as [|t x IH]; intros [|u w] H H1; cbn in H; inversion H; subst; auto.
  - exfalso. apply H1. left. reflexivity.
  - exfalso. apply Hx. left. reflexivity.
  - destruct (IH (fun K => Hx (or_intror K)) w) as [-> ->]; auto. intros K. apply H1. right. exact K.
Qed.
Lemma enc_none x ms : ~ In c x -> x = enc ms -> ms = [] /\ x = [].
Proof. intros Hx H. destruct ms as [|w ms]; [auto|]. exfalso. apply Hx. rewrite H. unfold enc. cbn [List.map concat]. apply in_or_app. left. apply in_or_app. right. left. reflexivity. Qed.

(** Where the decoder is: in a text, at its first colon, or behind that. *)
Definition phase (st : UST) (src pre : list T) : Prop :=
  (atA st pre /\ ~ In c pre) \/ (atB st pre /\ ~ In c pre /\ exists s, src = c :: s) \/ exists v, pre = v ++ [c] /\ atD st v /\ ~ In c v.
Lemma step2 st src pre pos more ms : phase st src pre -> Forall (fun w => ~ In c w) ms -> pre ++ src ++ more = enc ms ->
  (exists v ms' st' r pos', ms = v :: ms' /\ decode_stream uc false (Fd st src pos) = Done (inl (Some v), Fd st' r pos') /\ phase st' r [] /\ r ++ more = enc ms') \/
  (exists st' src' pos' pre', decode_stream uc false (Fd st src pos) = Done (inl None, Fd st' src' pos') /\ pre' ++ src' = pre ++ src /\ (forall ch, phase st' (src' ++ ch) pre') /\
    (more = [] -> ms = [] /\ src' = [] /\ atA st' [])).
Proof.
  assert (A0 : forall st r, atA st [] -> phase st r []) by (intros; left; split; [assumption|intros []]).
  intros [[HS HN]|[[HS [HN [s ->]]]|[v [-> [HS HN]]]]] HM EQ.
  - assert (NC : ~ In c src \/ exists w r, src = w ++ c :: r /\ ~ In c w).
    { clear -L. induction src as [|t src IH]; [left; auto|]. destruct (tok_eqb C t c) eqn:Q.
      - apply (law_tok L) in Q. subst t. right. exists [], src. auto.
      - assert (N : t <> c) by (intros K; apply (law_tok L) in K; congruence). destruct IH as [IH|[w [r [-> IH]]]].
        + left. intros [K|K]; auto.
        + right. exists (t :: w), r. split; [reflexivity|]. intros [K|K]; auto. }
    assert (NA : forall w, ~ In c w -> ~ In c (pre ++ w)) by (intros w Hw K; apply in_app_or in K; tauto).
    destruct NC as [NC|[w [r [-> NC]]]].
    + right. destruct (runA_no st pre src pos HS NC) as [st' [Q HS']]. exists st', [], (pos_after pos src), (pre ++ src).
      split; [eapply call_wait; [rewrite app_nil_r; reflexivity|exact Q]|]. split; [apply app_nil_r|]. split; [intros ch; left; auto|].
      intros ->. rewrite app_nil_r in EQ. destruct (enc_none _ _ (NA _ NC) EQ) as [-> Z]. rewrite Z in HS'. auto.
    + assert (EQ' : (pre ++ w) ++ c :: (r ++ more) = enc ms) by (rewrite <- EQ, <- !app_assoc; reflexivity).
      destruct (enc_first _ _ _ (NA _ NC) HM EQ') as [ms' [-> EQ2]]. destruct r as [|t r].
      * right. destruct (runA_half st pre w pos HS NC) as [st' [Q HS']]. exists st', [c], (pos_after pos w), (pre ++ w).
        split; [eapply call_wait; [reflexivity|exact Q]|]. split; [rewrite app_assoc; reflexivity|]. split; [intros ch; right; left; split; [exact HS'|split; [auto|exists ch; reflexivity]]|].
        intros ->. discriminate EQ2.
      * left. cbn [app] in EQ2. inversion EQ2; subst. destruct (runA_both st pre w r pos true HS NC) as [st' [Q HS']].
        exists (pre ++ w), ms', st', r, (pos_after pos (w ++ [c; c])). split; [reflexivity|]. split; [apply (call_ok _ _ _ false); [rewrite <- app_assoc; reflexivity|exact Q]|]. auto.
  - assert (EQ' : pre ++ c :: (s ++ more) = enc ms) by exact EQ.
    destruct (enc_first _ _ _ HN HM EQ') as [ms' [-> EQ2]]. destruct s as [|t r].
    + right. destruct (runB_half st pre pos HS) as [st' [Q HS']]. exists st', [], (pos_after pos [c]), (pre ++ [c]).
      split; [eapply call_wait; [reflexivity|exact Q]|]. split; [apply app_nil_r|]. split; [intros ch; right; right; exists pre; auto|]. intros ->. discriminate EQ2.
    + left. cbn [app] in EQ2. inversion EQ2; subst. destruct (runB_both st pre r pos true HS) as [st' [Q HS']].
      exists pre, ms', st', r, (pos_after pos [c; c]). split; [reflexivity|]. split; [apply (call_ok _ _ _ false); [reflexivity|exact Q]|]. auto.
  - assert (EQ' : v ++ c :: (src ++ more) = enc ms) by (rewrite <- EQ, <- app_assoc; reflexivity).
    destruct (enc_first _ _ _ HN HM EQ') as [ms' [-> EQ2]]. destruct src as [|t r].
    + right. destruct (runD_wait st v pos HS) as [st' [Q HS']]. exists st', [], (pos_after pos []), (v ++ [c]).
      split; [eapply call_wait; [reflexivity|exact Q]|]. split; [reflexivity|]. split; [intros ch; right; right; exists v; auto|]. intros ->. discriminate EQ2.
    + left. cbn [app] in EQ2. inversion EQ2; subst. destruct (runD_ok st v r pos true HS) as [st' [Q HS']].
      exists v, ms', st', r, (pos_after pos [c]). split; [reflexivity|]. split; [apply (call_ok _ _ _ false); [reflexivity|exact Q]|]. auto.
Qed.
Lemma until2_items m : forall cs st src pos pre ms, phase st src pre -> Forall (fun w => ~ In c w) ms -> pre ++ src ++ concat cs = enc ms ->
  length ms + length cs + 1 < m -> framed_items m uc false (Fd st src pos) cs = Done (inl ms).
Proof.
  induction m as [|m IH]; intros cs st src pos pre ms HS HM EQ Hm; [lia|]. cbn [framed_items].
  destruct (step2 st src pre pos (concat cs) ms HS HM EQ) as [[v [ms' [st' [r [pos' [-> [Q [HS' EQ']]]]]]]]|[st' [src' [pos' [pre' [Q [E1 [HS' HE]]]]]]]]; rewrite Q; cbn [obind].
  - inversion HM; subst. rewrite (IH cs st' r pos' [] ms'); auto. cbn [length] in Hm. lia.
  - destruct cs as [|ch cs].
    + destruct (HE eq_refl) as [-> [-> HA]]. destruct m as [|m]; [cbn in Hm; lia|]. cbn [framed_items]. destruct (call_end st' pos' HA) as [d' Q2]. rewrite Q2. reflexivity.
    + unfold fd_add. cbn [fd_state fd_src fd_pos]. apply (IH cs st' (src' ++ ch) pos' pre' ms); auto; [|cbn [length] in Hm; lia].
      cbn [concat] in EQ. rewrite <- app_assoc, (app_assoc pre'), E1, <- app_assoc. exact EQ.
Qed.
Lemma until2_runs pos cs ms m : Forall (fun w => ~ In c w) ms -> concat cs = enc ms -> length ms + length cs + 1 < m -> run_decoder m up pos cs = Done (inl ms).
Proof.
  intros HM EQ Hm. unfold run_decoder. destruct cs as [|ch cs].
  - assert (ms = []) as ->. { destruct ms as [|[|t w] ms]; [reflexivity|discriminate|discriminate]. }
    destruct m as [|m]; [lia|]. cbn [framed_items]. destruct (call_end None pos) as [d' Q]; [left; auto|]. rewrite Q. reflexivity.
  - eapply (until2_items m cs None ch pos [] ms); auto; [|cbn [length] in Hm; lia]. left. split; [left; auto|intros []].
Qed.
End Until2.
