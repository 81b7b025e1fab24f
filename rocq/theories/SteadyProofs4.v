(** Proofs for C74: sessions, [decode!] and its asynchronous variants come to an end. *)
From Coq Require Import String List Bool Arith NArith Lia.
Import ListNotations.
From Verif Require Import Base Parser Spec AgreeSpec ResultProofs CombProofs ForwardProofs ChunkSpec ChunkProofs ChunkProofs7.
From Verif Require Import DecodeM DecodeSpec DecodeProofs AsyncM AsyncSpec AsyncProofs AsyncProofs2 TotalSpec SteadySpec SteadyProofs SteadyProofs2 SteadyProofs3.
Unset Implicit Arguments.

Section Steady4.
Context {C : Cfg}.
Notation T := (tok C).
Notation E := (Err C).
Variable z : nat.
Notation few := (TotalSpec.fits z).
Variable EL : eoi_laws C.

Lemma few_len (i j : input C) : few i -> length (rest j) <= length (rest i) -> few j.
Proof. intros [K1 K2] H. split; lia. Qed.

Section Calls.
Context {S A : Type} (x a n h : bool) (Cln : bool -> S -> Prop) (Res : bool -> Pos C -> list T -> list T -> S -> Prop) (p : parser C S A).
Hypothesis H : chunk_by x a n h Cln Res p.
Hypothesis HR : ret_by z Cln Res p.
Hypothesis F : fwd p.

(** The states in which a session may be: [l] consumed since [pos0], [k] seen but not consumed. *)
Definition mid (pos : Pos C) (b : list T) (eof : bool) (st : S) : Prop :=
  exists pos0 l k c, pos = pos_after pos0 l /\ b = k ++ c /\ forall g, (eof = true -> g = false) -> Res g pos0 l k st.

Lemma mid_clean pos b eof st : (forall g, (eof = true -> g = false) -> Cln g st) -> mid pos b eof st.
Proof. intros K. exists pos, [], [], b. split; [reflexivity|]. split; [reflexivity|]. intros g Hg. apply (cb_res H). auto. Qed.
Lemma mid_more pos b bs eof eof' st : (eof = true -> eof' = true) -> mid pos b eof st -> mid pos (b ++ bs) eof' st.
Proof.
  intros He [pos0 [l [k [c [K1 [K2 K3]]]]]]. exists pos0, l, k, (c ++ bs). rewrite K2, app_assoc. split; [exact K1|]. split; [reflexivity|].
  intros g Hg. apply K3. intros Q. apply Hg. auto.
Qed.

Lemma call_out pos b eof st : mid pos b eof st -> few (Inp b pos (negb eof)) -> exists res i' st' used,
  parse_with_state p (Inp b pos (negb eof)) st = Done (res, i', st') /\
  b = used ++ rest i' /\ i' = Inp (rest i') (pos_after pos used) (negb eof) /\
  match res with
  | inl v => forall g, (eof = true -> g = false) -> Cln g st'
  | inr e => e_is_eoi C e = true -> eof = false -> mid (pos_after pos used) (rest i') false st'
  end.
Proof.
  intros [pos0 [l [k [c [-> [-> K]]]]]] Hf.
  assert (HE : eof = true -> negb eof = false) by (intros ->; reflexivity).
  assert (St : started Cln Res (negb eof) false pos0 l k st) by (apply K; exact HE).
  destruct (HR (negb eof) false pos0 l k c st St Hf) as [[[r i'] st'] Q].
  pose proof (cb_run H _ false _ _ _ _ _ St _ Q) as Fi.
  assert (PW : exists res i2, parse_with_state p (Inp (k ++ c) (pos_after pos0 l) (negb eof)) st = Done (res, i2, st') /\
    match r with CommitOk v | PeekOk v => res = inl v /\ i2 = i' | CommitErr e => res = inr e /\ i2 = i' | PeekErr e => res = inr (terr (augment_err (p_adderr p) (Inp (k ++ c) (pos_after pos0 l) (negb eof)) e)) end).
  { unfold parse_with_state, parse_stream_partial. rewrite Q. cbn [omap augment3]. destruct r; cbn [entry_result]; eexists _, _; split; try reflexivity; auto. }
  destruct PW as [res [i2 [PW PM]]].
  destruct (fwd_parse_with_state _ F _ _ _ _ _ PW) as [used [U1 [U2 U3]]]. cbn [rest ipos ipart] in *.
  exists res, i2, st', used. split; [exact PW|]. split; [exact U1|]. split; [rewrite <- U2, <- U3; destruct i2; reflexivity|].
  destruct r as [v|v|e|e].
  - destruct PM as [-> ->]. destruct Fi as [_ [KC _]]. intros [] Hg; destruct eof; cbn in KC; try exact KC; [discriminate (Hg eq_refl)|]. apply (cb_cln H). exact KC.
  - destruct PM as [-> ->]. destruct Fi as [_ [KC _]]. intros [] Hg; destruct eof; cbn in KC; try exact KC; [discriminate (Hg eq_refl)|]. apply (cb_cln H). exact KC.
  - destruct PM as [-> ->]. intros He ->. cbn [negb] in *. destruct Fi as [[_ [_ [r1 [F3 [F4 [_ F6]]]]]]|[F1 _]]; [|destruct (F1 eq_refl); congruence].
    assert (used = r1). { rewrite F3 in U1. apply app_inv_tail in U1. auto. } subst r1.
    exists pos0, (l ++ used), (rest i'), []. rewrite app_nil_r, pos_after_app. auto.
  - subst res.
    intros He ->. exfalso. destruct Fi as [_ [Fi _]]. destruct (Fi eq_refl) as [F1 F2]. cbn [negb] in He. rewrite (augment_eoi EL _ _ _ _ _ _ _ H) in He; auto. discriminate.
Qed.

(** * Sessions *)
Variable IoE : Type.
Lemma session_end cs : (forall c, In c cs -> c <> []) -> forall st pos b eof, mid pos b eof st -> few (Inp (b ++ concat cs) pos true) ->
  exists cs1 cs2 used (fin : ending (C:=C) IoE A) st' pos' b' eof', (if eof then cs1 = [] else cs ++ [[]] = cs1 ++ cs2) /\
    session p st pos b eof cs1 used fin st' pos' b' eof' /\ (forall q e, fin <> EndIo q e).
Proof.
  assert (last : forall st pos b, mid pos b true st -> few (Inp b pos true) ->
    exists used (fin : ending (C:=C) IoE A) st' pos' b' eof', session p st pos b true [] used fin st' pos' b' eof' /\ (forall q e, fin <> EndIo q e)).
  { intros st pos b M Hf. destruct (call_out _ _ _ _ M) as [res [i' [st' [used [Q [U1 [U2 K]]]]]]]; [apply (few_len _ _ Hf); reflexivity|]. destruct res as [v|e].
    - exists used, (EndValue v), st', (pos_after pos used), (rest i'), true. split; [|discriminate]. apply ses_value; [exact U1|]. unfold call_value. rewrite Q, U2. reflexivity.
    - exists [], (EndParse e), st', (pos_after pos used), b, true. split; [|discriminate]. eapply ses_error with (b' := rest i'); [|auto]. unfold call_error. rewrite Q, U2. reflexivity. }
  induction cs as [|bs cs IH]; intros HN st pos b eof M Hf.
  all: destruct eof.
  1,3: destruct (last st pos b M) as (used & fin & st' & pos' & b' & eof' & K1 & K2); [apply (few_len _ _ Hf); cbn [rest]; rewrite ?app_length; lia|]; exists [], [], used, fin, st', pos', b', eof'; auto.
  all: destruct (call_out _ _ _ _ M) as [res [i' [st1 [used [Q [U1 [U2 K]]]]]]]; [apply (few_len _ _ Hf); cbn [rest]; rewrite ?app_length; lia|].
  all: destruct res as [v|e];
    [eexists [], _, used, (EndValue v), st1, (pos_after pos used), (rest i'), false; split; [reflexivity|]; split; [|discriminate]; apply ses_value; [exact U1|]; unfold call_value; rewrite Q, U2; reflexivity|].
  all: destruct (e_is_eoi C e) eqn:He;
    [|eexists [], _, [], (EndParse e), st1, (pos_after pos used), b, false; split; [reflexivity|]; split; [|discriminate]; eapply ses_error with (b' := rest i'); [|auto]; unfold call_error; rewrite Q, U2; reflexivity].
  all: specialize (K eq_refl eq_refl).
  - assert (M1 : mid (pos_after pos used) (rest i') true st1). { pose proof (mid_more _ _ [] false true _ (fun q => match diff_false_true q with end) K) as Z. rewrite app_nil_r in Z. exact Z. }
    destruct (last _ _ _ M1) as (used2 & fin & st' & pos' & b' & eof' & K1 & K2).
    { apply (few_len _ _ Hf). cbn [rest]. rewrite U1, !app_length. lia. }
    exists [[]], [], (used ++ used2), fin, st', pos', b', eof'. split; [reflexivity|]. split; [|exact K2].
    eapply ses_eof; [exact U1| |exact He|exact K1]. unfold call_error. cbn [negb] in *. rewrite Q, U2. reflexivity.
  - pose proof (mid_more _ _ bs false false _ (fun q => q) K) as M1.
    destruct (IH (fun c Hc => HN c (or_intror Hc)) st1 (pos_after pos used) (rest i' ++ bs) false M1) as (cs1 & cs2 & used2 & fin & st' & pos' & b' & eof' & K0 & K1 & K2).
    { apply (few_len _ _ Hf). cbn [rest concat]. rewrite U1, !app_length. lia. }
    exists (bs :: cs1), cs2, (used ++ used2), fin, st', pos', b', eof'. split; [cbn [app]; f_equal; exact K0|]. split; [|exact K2].
    eapply ses_read; [exact U1| |exact He|apply HN; left; reflexivity|exact K1]. unfold call_error. cbn [negb] in *. rewrite Q, U2. reflexivity.
Qed.

(** * [decode!] *)
Variable W : forall t, width C t = 1.
Variables Rd : Type.
Variable grow : nat -> nat -> nat.
Hypothesis G : forall len add, len + add <= grow len add.

Definition mid_dec (d : dec (C:=C) S) : Prop := buf_ok (dbuf d) /\ mid (dpos d) (bbytes (dbuf d)) (deoi d) (dstate d).

Lemma decode_out d : mid_dec d -> few (Inp (bbytes (dbuf d)) (dpos d) true) ->
  exists res i' st', decode p (Inp (bbytes (dbuf d)) (dpos d) (negb (deoi d))) (dstate d) = Done (res, i', st') /\
  match res with
  | inr e => True
  | inl (o, m) => exists b, b_advance m (dbuf d) = Done b /\ length (bbytes b) <= length (bbytes (dbuf d)) /\ mid_dec (Dec (ipos i') st' b (deoi d)) /\
      (o = None -> deoi d = false)
  end.
Proof.
  intros [Hb M] Hf. destruct (call_out _ _ _ _ M) as [res [i' [st' [used [Q [U1 [U2 K]]]]]]]; [apply (few_len _ _ Hf); reflexivity|].
  unfold decode. rewrite Q. cbn [omap]. eexists _, i', st'. split; [reflexivity|].
  destruct (drops_slice W _ _ (fwd_parse_with_state _ F _ _ _ _ _ Q)) as [D1 D2]. set (m := distance i' _) in *. clearbody m. cbn [rest] in D1, D2.
  assert (BA : b_advance m (dbuf d) = Done (Buf (skipn m (bbytes (dbuf d))) (bcap (dbuf d) - m))).
  { unfold b_advance. pose proof (proj2 (Nat.leb_le m (length (bbytes (dbuf d)))) ltac:(lia)) as Hl. rewrite Hl. reflexivity. }
  assert (Hb' : buf_ok (Buf (skipn m (bbytes (dbuf d))) (bcap (dbuf d) - m))).
  { unfold buf_ok in *. cbn [bbytes bcap]. rewrite D1. lia. }
  assert (Hpos : ipos i' = pos_after (dpos d) used) by (rewrite U2; reflexivity).
  assert (Hpart : ipart i' = negb (deoi d)) by (rewrite U2; reflexivity).
  destruct res as [v|e].
  - eexists. split; [exact BA|]. split; [cbn [bbytes]; rewrite D1; lia|]. split; [|discriminate]. split; [exact Hb'|].
    apply mid_clean. exact K.
  - destruct (e_is_eoi C e) eqn:He; [|exact I]. destruct (ipart i') eqn:Hp; [|exact I].
    eexists. split; [exact BA|]. split; [cbn [bbytes]; rewrite D1; lia|].
    assert (He2 : deoi d = false) by (destruct (deoi d); [discriminate|reflexivity]).
    split; [|intros _; exact He2]. split; [exact Hb'|]. cbn [dpos dbuf deoi dstate bbytes]. rewrite D1, He2, Hpos. apply K; auto.
Qed.

Section Sync.
Variable rd_read : Rd -> nat -> (list T + IoE) * Rd.
Variable left : Rd -> nat.
Hypothesis FR : finite_reader rd_read left.
Definition small (d : dec (C:=C) S) (rd : Rd) : Prop := length (bbytes (dbuf d)) + left rd < z /\ 2 * (length (bbytes (dbuf d)) + left rd) + 1 < fuel C.

Lemma small_few d rd : small d rd -> few (Inp (bbytes (dbuf d)) (dpos d) true).
Proof. intros [K1 K2]. split; cbn [rest]; lia. Qed.

Lemma before_out d rd : mid_dec d -> small d rd -> exists r d' rd', before_parse rd_read grow d rd = Done (r, d', rd') /\ mid_dec d' /\ small d' rd' /\
  left rd' <= left rd /\ (deoi d = true -> deoi d' = true) /\
  match r with inl _ => deoi d' = true \/ left rd' < left rd | inr _ => True end.
Proof.
  intros [Hb M] [Z1 Z2]. unfold before_parse.
  assert (HL : forall rd m bs rd', rd_read rd m = (inl bs, rd') -> length bs <= m) by (intros rd1 m bs rd2 Q; pose proof (FR rd1 m) as P; rewrite Q in P; apply P).
  destruct (extend_buf_sync rd_read grow (dbuf d) rd) as [[[r b'] rd']| |] eqn:HE;
    [|exfalso; exact (proj1 (extend_not_panic _ _ rd_read grow (dbuf d) rd HL) HE)|exfalso; exact (proj2 (extend_not_panic _ _ rd_read grow (dbuf d) rd HL) HE)].
  destruct (extend_ok _ _ rd_read grow G _ _ _ _ _ Hb HE) as [Hb' [room [Hroom R]]]. cbn [omap]. destruct r as [m|e].
  - destruct R as [bs [R1 [R2 [R3 R4]]]]. pose proof (FR rd room) as P. rewrite R1 in P. destruct P as [_ P].
    eexists _, _, _. split; [reflexivity|]. split; [|split; [|split; [|split]]].
    + split; [exact Hb'|]. cbn [dpos dbuf deoi dstate]. rewrite R4. eapply mid_more; [|exact M]. intros ->. destruct (m =? 0); reflexivity.
    + unfold small. cbn [dbuf]. rewrite R4, app_length. lia.
    + lia.
    + cbn [deoi]. intros ->. destruct (m =? 0); reflexivity.
    + cbn [deoi]. destruct (m =? 0) eqn:Hm; [left; reflexivity|right]. apply Nat.eqb_neq in Hm. lia.
  - destruct R as [R1 R2]. pose proof (FR rd room) as P. rewrite R1 in P.
    eexists _, _, _. split; [reflexivity|]. split; [|split; [|split; [|split]]]; auto.
    + split; [exact Hb'|]. cbn [dpos dbuf deoi dstate]. rewrite R2. exact M.
    + unfold small. cbn [dbuf]. rewrite R2. lia.
Qed.

Lemma loop_out : forall fl d rd, left rd + (if deoi d then 1 else 2) <= fl -> mid_dec d -> small d rd ->
  exists r d' rd', decode_loop rd_read grow fl p d rd = Done (r, d', rd') /\ left rd' <= left rd /\
  match r with inr (DParse _) => True | _ => mid_dec d' /\ small d' rd' end.
Proof.
  induction fl as [|fl IH]; intros d rd Hl M Z; [destruct (deoi d); lia|]. cbn [decode_loop].
  destruct (decode_out d M (small_few _ _ Z)) as [res [i' [st' [Q K]]]]. rewrite Q. cbn [obind]. destruct res as [[o m]|e].
  - destruct K as [b [B1 [B2 [B3 B4]]]]. rewrite B1. cbn [obind].
    assert (Z1 : small (Dec (ipos i') st' b (deoi d)) rd) by (unfold small in *; cbn [dbuf]; lia).
    destruct o as [v|]; [eexists _, _, _; split; [reflexivity|]; split; [lia|]; split; [exact B3|exact Z1]|].
    specialize (B4 eq_refl). rewrite B4 in *.
    destruct (before_out _ rd B3 Z1) as [r [d2 [rd2 [E1 [E2 [E3 [E4 [_ E5]]]]]]]]. rewrite E1. cbn [obind].
    destruct r as [[]|e].
    + destruct (IH d2 rd2) as [r [d' [rd' [R1 [R2 R3]]]]]; auto.
      { destruct E5 as [E5|E5]; [rewrite E5; lia|]. destruct (deoi d2); lia. }
      exists r, d', rd'. split; [exact R1|]. split; [lia|exact R3].
    + eexists _, _, _. split; [reflexivity|]. split; [lia|]. split; [exact E2|exact E3].
  - eexists _, _, _. split; [reflexivity|]. split; [lia|exact I].
Qed.

Lemma messages_out fl d0 rd0 d rd : messages rd_read grow fl p d0 rd0 d rd -> mid_dec d0 -> small d0 rd0 -> left rd0 + 2 <= fl ->
  exists r d' rd', decode_loop rd_read grow fl p d rd = Done (r, d', rd').
Proof.
  induction 1 as [d rd|d rd v d1 rd1 d' rd' Q _ IH|d rd pos e d1 rd1 d' rd' Q _ IH]; intros M Z Hl.
  - destruct (loop_out fl d rd) as [r [d' [rd' [K _]]]]; auto; [destruct (deoi d); lia|]. eauto.
  - destruct (loop_out fl d rd) as [r [d2 [rd2 [K1 [K2 K3]]]]]; auto; [destruct (deoi d); lia|]. rewrite Q in K1. inversion K1; subst. destruct K3. apply IH; auto; lia.
  - destruct (loop_out fl d rd) as [r [d2 [rd2 [K1 [K2 K3]]]]]; auto; [destruct (deoi d); lia|]. rewrite Q in K1. inversion K1; subst. destruct K3. apply IH; auto; lia.
Qed.
End Sync.

Section Polls.
Variable poll_read : Rd -> nat -> poll (list T + IoE) * Rd.
Variable left : Rd -> nat.
Hypothesis FR : finite_poll_reader poll_read left.

Lemma pbefore_out d rd : mid_dec d -> small left d rd -> exists r d' rd', poll_before_parse poll_read grow d rd = Done (r, d', rd') /\ mid_dec d' /\ small left d' rd' /\
  left rd' <= left rd /\ (deoi d = true -> deoi d' = true) /\
  match r with Ready (inl _) => deoi d' = true \/ left rd' < left rd | _ => True end.
Proof.
  intros [Hb M] [Z1 Z2]. unfold poll_before_parse.
  assert (HL : forall rd m bs rd', poll_read rd m = (Ready (inl bs), rd') -> length bs <= m) by (intros rd1 m bs rd2 Q; pose proof (FR rd1 m) as P; rewrite Q in P; apply P).
  destruct (poll_extend_buf poll_read grow (dbuf d) rd) as [[[r b'] rd']| |] eqn:HE;
    [|exfalso; exact (proj1 (pextend_not_panic _ _ poll_read grow (dbuf d) rd HL) HE)|exfalso; exact (proj2 (pextend_not_panic _ _ poll_read grow (dbuf d) rd HL) HE)].
  destruct (pextend_ok _ _ poll_read grow G _ _ _ _ _ Hb HE) as [Hb' [room [Hroom R]]]. cbn [omap]. destruct r as [|[m|e]].
  - destruct R as [R1 R2]. pose proof (FR rd room) as P. rewrite R1 in P.
    eexists _, _, _. split; [reflexivity|]. split; [|split; [|split; [|split]]]; auto.
    + split; [exact Hb'|]. cbn [dpos dbuf deoi dstate]. rewrite R2. exact M.
    + unfold small. cbn [dbuf]. rewrite R2. lia.
  - destruct R as [bs [R1 [R2 [R3 R4]]]]. pose proof (FR rd room) as P. rewrite R1 in P. destruct P as [_ P].
    eexists _, _, _. split; [reflexivity|]. split; [|split; [|split; [|split]]].
    + split; [exact Hb'|]. cbn [dpos dbuf deoi dstate]. rewrite R4. eapply mid_more; [|exact M]. intros ->. destruct (m =? 0); reflexivity.
    + unfold small. cbn [dbuf]. rewrite R4, app_length. lia.
    + lia.
    + cbn [deoi]. intros ->. destruct (m =? 0); reflexivity.
    + cbn [deoi]. destruct (m =? 0) eqn:Hm; [left; reflexivity|right]. apply Nat.eqb_neq in Hm. lia.
  - destruct R as [R1 R2]. pose proof (FR rd room) as P. rewrite R1 in P.
    eexists _, _, _. split; [reflexivity|]. split; [|split; [|split; [|split]]]; auto.
    + split; [exact Hb'|]. cbn [dpos dbuf deoi dstate]. rewrite R2. exact M.
    + unfold small. cbn [dbuf]. rewrite R2. lia.
Qed.

Lemma poll_out : forall fl w d rd, left rd + (if deoi d && negb w then 1 else 2) <= fl -> mid_dec d -> small left d rd ->
  exists r d' rd', poll_decode poll_read grow fl w p d rd = Done (r, d', rd') /\ left rd' <= left rd /\
  match r with Ready (inr (DParse _)) => True | _ => mid_dec d' /\ small left d' rd' end.
Proof.
  induction fl as [|fl IH]; intros w d rd Hl M Z; [destruct (deoi d && negb w); lia|]. cbn [poll_decode].
  assert (reads : forall d1, left rd + 2 <= Datatypes.S fl -> mid_dec d1 -> small left d1 rd -> exists r d' rd',
    obind (poll_before_parse poll_read grow d1 rd) (fun y => match y with
        | (Pending, d2, rd') => Done (Pending, d2, rd')
        | (Ready (inr e), d2, rd') => Done (Ready (inr (DIo (dpos d2) e)), d2, rd')
        | (Ready (inl tt), d2, rd') => poll_decode poll_read grow fl false p d2 rd'
        end) = Done (r, d', rd') /\ left rd' <= left rd /\
    match r with Ready (inr (DParse _)) => True | _ => mid_dec d' /\ small left d' rd' end).
  { intros d1 Hl1 M1 Z1. destruct (pbefore_out d1 rd M1 Z1) as [r [d2 [rd2 [E1 [E2 [E3 [E4 [_ E5]]]]]]]]. rewrite E1. cbn [obind].
    destruct r as [|[[]|e]].
    - eexists _, _, _. split; [reflexivity|]. split; [lia|]. split; [exact E2|exact E3].
    - destruct (IH false d2 rd2) as [r [d' [rd' [R1 [R2 R3]]]]]; auto.
      { destruct E5 as [E5|E5]; [rewrite E5; cbn; lia|]. destruct (deoi d2 && negb false); lia. }
      exists r, d', rd'. split; [exact R1|]. split; [lia|exact R3].
    - eexists _, _, _. split; [reflexivity|]. split; [lia|]. split; [exact E2|exact E3]. }
  destruct w; [apply reads; auto; rewrite andb_false_r in Hl; lia|].
  destruct (decode_out d M (small_few left _ _ Z)) as [res [i' [st' [Q K]]]]. rewrite Q. cbn [obind]. destruct res as [[o m]|e].
  - destruct K as [b [B1 [B2 [B3 B4]]]]. rewrite B1. cbn [obind].
    assert (Z1 : small left (Dec (ipos i') st' b (deoi d)) rd) by (unfold small in *; cbn [dbuf]; lia).
    destruct o as [v|]; [eexists _, _, _; split; [reflexivity|]; split; [lia|]; split; [exact B3|exact Z1]|].
    specialize (B4 eq_refl). rewrite B4 in *. apply reads; auto.
  - eexists _, _, _. split; [reflexivity|]. split; [lia|exact I].
Qed.

Lemma poll_messages_out fl w0 d0 rd0 w d rd : poll_messages poll_read grow fl p w0 d0 rd0 w d rd -> mid_dec d0 -> small left d0 rd0 -> left rd0 + 2 <= fl ->
  exists r d' rd', poll_decode poll_read grow fl w p d rd = Done (r, d', rd').
Proof.
  assert (one : forall w d rd r d1 rd1, poll_decode poll_read grow fl w p d rd = Done (r, d1, rd1) -> mid_dec d -> small left d rd -> left rd + 2 <= fl ->
    left rd1 <= left rd /\ match r with Ready (inr (DParse _)) => True | _ => mid_dec d1 /\ small left d1 rd1 end).
  { intros w1 d1 rd1 r d2 rd2 Q M Z Hl. destruct (poll_out fl w1 d1 rd1) as [r' [d' [rd' [K1 K2]]]]; auto; [destruct (deoi d1 && negb w1); lia|].
    rewrite Q in K1. inversion K1; subst. exact K2. }
  induction 1 as [w d rd|w d rd d1 rd1 w' d' rd' Q _ IH|w d rd d1 rd1 w' d' rd' Q _ IH|w d rd v d1 rd1 w' d' rd' Q _ IH|w d rd pos e d1 rd1 w' d' rd' Q _ IH]; intros M Z Hl.
  - destruct (poll_out fl w d rd) as [r [d' [rd' [K _]]]]; auto; [destruct (deoi d && negb w); lia|]. eauto.
  - destruct (one _ _ _ _ _ _ Q M Z Hl) as [K1 [K2 K3]]. apply IH; auto; lia.
  - destruct (one _ _ _ _ _ _ Q M Z Hl) as [K1 [K2 K3]]. apply IH; auto; lia.
  - destruct (one _ _ _ _ _ _ Q M Z Hl) as [K1 [K2 K3]]. apply IH; auto; lia.
  - destruct (one _ _ _ _ _ _ Q M Z Hl) as [K1 [K2 K3]]. apply IH; auto; lia.
Qed.

Variable waits : Rd -> nat.
Hypothesis PW : patient_reader poll_read waits.
Lemma pbefore_waits (d : dec (C:=C) S) rd r d' rd' : poll_before_parse poll_read grow d rd = Done (r, d', rd') ->
  match r with Pending => waits rd' < waits rd | Ready _ => waits rd' <= waits rd end.
Proof.
  unfold poll_before_parse, poll_extend_buf. match goal with |- context[poll_read rd ?m] => pose proof (PW rd m) as P; destruct (poll_read rd m) as [[|[bs|e]] rd2] end; cbn [omap].
  - intros Q. inversion Q; subst. exact P.
  - destruct (_ <=? _); cbn [omap]; [|discriminate]. intros Q. inversion Q; subst. exact P.
  - intros Q. inversion Q; subst. exact P.
Qed.
Lemma poll_waits : forall fl w (d : dec (C:=C) S) rd r d' rd', poll_decode poll_read grow fl w p d rd = Done (r, d', rd') ->
  match r with Pending => waits rd' < waits rd | Ready _ => waits rd' <= waits rd end.
Proof.
  induction fl as [|fl IH]; intros w d rd r d' rd'; [discriminate|]. cbn [poll_decode].
  assert (reads : forall d1, obind (poll_before_parse poll_read grow d1 rd) (fun y => match y with
        | (Pending, d2, rd') => Done (Pending, d2, rd')
        | (Ready (inr e), d2, rd') => Done (Ready (inr (DIo (dpos d2) e)), d2, rd')
        | (Ready (inl tt), d2, rd') => poll_decode poll_read grow fl false p d2 rd'
        end) = Done (r, d', rd') -> match r with Pending => waits rd' < waits rd | Ready _ => waits rd' <= waits rd end).
  { intros d1. destruct (poll_before_parse poll_read grow d1 rd) as [[[r1 d2] rd2]| |] eqn:Q; cbn [obind]; try discriminate. apply pbefore_waits in Q.
    destruct r1 as [|[[]|e]].
    - intros K. inversion K; subst. exact Q.
    - intros K. apply IH in K. destruct r; lia.
    - intros K. inversion K; subst. exact Q. }
  destruct w; [apply reads|]. destruct (decode p _ _) as [[[res i'] st']| |]; cbn [obind]; try discriminate. destruct res as [[o m]|e].
  - destruct (b_advance m (dbuf d)) as [b| |]; cbn [obind]; try discriminate. destruct o as [v|]; [|apply reads]. intros K. inversion K; subst. apply le_n.
  - intros K. inversion K; subst. apply le_n.
Qed.

Lemma driven_out fl : forall m w d rd, waits rd <= m -> mid_dec d -> small left d rd -> left rd + 2 <= fl ->
  exists r d' rd', driven poll_read grow true fl p w d rd r d' rd'.
Proof.
  induction m as [|m IH]; intros w d rd Hm M Z Hl;
    (destruct (poll_out fl w d rd) as [r [d1 [rd1 [K1 [K2 K3]]]]]; auto; [destruct (deoi d && negb w); lia|]); pose proof (poll_waits _ _ _ _ _ _ _ K1) as K4;
    destruct r as [|r]; try (eexists r, d1, rd1; apply dv_ready; exact K1); [lia|].
  destruct K3 as [K3 K5]. destruct (IH true d1 rd1) as [r [d' [rd' Q]]]; auto; try lia. exists r, d', rd'. eapply dv_poll; eauto.
Qed.
End Polls.
End Calls.
End Steady4.
