(** Proofs about asynchronous decoding. *)
From Coq Require Import String List Bool Arith NArith Lia.
Import ListNotations.
From Verif Require Import Base Parser Spec LibSpec ResultProofs ForwardProofs DecodeM DecodeSpec DecodeProofs AsyncM AsyncSpec.
Unset Implicit Arguments.

Lemma adv_ok {C : Cfg} n (b b' : buf (C:=C)) : buf_ok b -> b_advance n b = Done b' -> buf_ok b' /\ bbytes b' = skipn n (bbytes b).
Proof.
  unfold b_advance, buf_ok. destruct (n <=? length (bbytes b)) eqn:Hn; [|discriminate]. intros Hb H. injection H as <-.
  cbn [bbytes bcap]. rewrite skipn_length. split; [lia|auto].
Qed.

Section AsyncP.
Context {C : Cfg}.
Notation T := (tok C).
Notation E := (Err C).
Variables Rd IoE : Type.
Variable poll_read : Rd -> nat -> poll (list T + IoE) * Rd.
Variable grow : nat -> nat -> nat.
Hypothesis grows : forall len add, len + add <= grow len add.

Lemma chunk_mut_ok (b : buf (C:=C)) : buf_ok b -> bbytes (chunk_mut grow b) = bbytes b /\ length (bbytes b) < bcap (chunk_mut grow b).
Proof.
  unfold buf_ok, chunk_mut. intros Hb. specialize (grows (length (bbytes b)) 64). destruct (bcap b =? length (bbytes b)) eqn:Hc.
  - cbn [bbytes bcap]. split; [auto|lia].
  - apply Nat.eqb_neq in Hc. split; [auto|lia].
Qed.

Lemma pextend_ok (b : buf (C:=C)) rd r b' rd' : buf_ok b -> poll_extend_buf poll_read grow b rd = Done (r, b', rd') ->
  buf_ok b' /\ exists room, 1 <= room /\
    match r with
    | Pending => poll_read rd room = (Pending, rd') /\ bbytes b' = bbytes b
    | Ready (inl n) => exists bs, poll_read rd room = (Ready (inl bs), rd') /\ length bs <= room /\ n = length bs /\ bbytes b' = bbytes b ++ bs
    | Ready (inr e) => poll_read rd room = (Ready (inr e), rd') /\ bbytes b' = bbytes b
    end.
Proof.
  intros Hb. unfold poll_extend_buf. destruct (chunk_mut_ok b Hb) as [H1 H2]. set (b1 := chunk_mut grow b) in *. clearbody b1.
  set (room := bcap b1 - length (bbytes b1)). assert (Hr : 1 <= room) by (unfold room; rewrite H1; lia).
  assert (Hr2 : room <= bcap b1 - length (bbytes b1)) by (unfold room; lia). clearbody room.
  destruct (poll_read rd room) as [[|[bs|e]] rd2] eqn:HR.
  - intros H. injection H as <- <- <-. split; [unfold buf_ok; rewrite H1; lia|]. exists room. auto.
  - destruct (length bs <=? room) eqn:Hl; [|discriminate]. apply Nat.leb_le in Hl. intros H. injection H as <- <- <-. split.
    + unfold buf_ok. cbn [bbytes bcap]. rewrite app_length. lia.
    + exists room. split; auto. exists bs. cbn [bbytes]. rewrite H1. auto.
  - intros H. injection H as <- <- <-. split; [unfold buf_ok; rewrite H1; lia|]. exists room. auto.
Qed.

Lemma pextend_not_panic (b : buf (C:=C)) rd : (forall rd n bs rd', poll_read rd n = (Ready (inl bs), rd') -> length bs <= n) ->
  poll_extend_buf poll_read grow b rd <> Panic /\ poll_extend_buf poll_read grow b rd <> OOF.
Proof.
  intros HR. unfold poll_extend_buf.
  match goal with |- context[poll_read rd ?n] => destruct (poll_read rd n) as [[|[bs|e]] rd2] eqn:Hx end; try (split; discriminate).
  apply HR in Hx. apply Nat.leb_le in Hx. rewrite Hx. split; discriminate.
Qed.

Lemma yields_app ok rd cs rd1 cs2 rd2 : yields poll_read ok rd cs rd1 -> yields poll_read ok rd1 cs2 rd2 -> yields poll_read ok rd (cs ++ cs2) rd2.
Proof. induction 1; cbn [app]; auto; intros; [eapply yd_data|eapply yd_pending|eapply yd_error]; eauto. Qed.
Lemma yields_weak rd cs rd1 : yields poll_read true rd cs rd1 -> yields poll_read false rd cs rd1.
Proof. induction 1; [constructor|eapply yd_data|eapply yd_pending|discriminate]; eauto. Qed.

(** Sessions, interrupted or not: any relation with their rules. *)
Section Generic.
Context {S A : Type} (p : parser C S A) (F : fwd p) (W : forall t, width C t = 1).
Variable ag : bool.
Variable R : S -> Pos C -> list T -> bool -> list (list T) -> list T -> ending (C:=C) IoE A -> S -> Pos C -> list T -> bool -> Prop.
Hypothesis R_value : forall st pos b eof used v st' b',
    b = used ++ b' -> call_value p b pos (negb eof) st v b' (pos_after pos used) st' ->
    R st pos b eof [] used (EndValue v) st' (pos_after pos used) b' eof.
Hypothesis R_error : forall st pos b eof e st' b' pos',
    call_error p b pos (negb eof) st e b' pos' st' -> eof = true \/ e_is_eoi C e = false ->
    R st pos b eof [] [] (EndParse e) st' pos' b eof.
Hypothesis R_io : forall st pos b used e st' b' ioe,
    b = used ++ b' -> call_error p b pos true st e b' (pos_after pos used) st' -> e_is_eoi C e = true ->
    R st pos b false [] used (EndIo (pos_after pos used) ioe) st' (pos_after pos used) b' false.
Hypothesis R_again : ag = true -> forall st pos b used e st1 b1 cs used2 fin st' pos' b' eof',
    b = used ++ b1 -> call_error p b pos true st e b1 (pos_after pos used) st1 -> e_is_eoi C e = true ->
    R st1 (pos_after pos used) b1 false cs used2 fin st' pos' b' eof' ->
    R st pos b false cs (used ++ used2) fin st' pos' b' eof'.
Hypothesis R_read : forall st pos b used e st1 b1 bs cs used2 fin st' pos' b' eof',
    b = used ++ b1 -> call_error p b pos true st e b1 (pos_after pos used) st1 -> e_is_eoi C e = true -> bs <> [] ->
    R st1 (pos_after pos used) (b1 ++ bs) false cs used2 fin st' pos' b' eof' ->
    R st pos b false (bs :: cs) (used ++ used2) fin st' pos' b' eof'.
Hypothesis R_eof : forall st pos b used e st1 b1 cs used2 fin st' pos' b' eof',
    b = used ++ b1 -> call_error p b pos true st e b1 (pos_after pos used) st1 -> e_is_eoi C e = true ->
    R st1 (pos_after pos used) b1 true cs used2 fin st' pos' b' eof' ->
    R st pos b false ([] :: cs) (used ++ used2) fin st' pos' b' eof'.

Notation D := (dec (C:=C) S).
Definition R0 (d : D) cs used fin (d' : D) : Prop :=
  R (dstate d) (dpos d) (bbytes (dbuf d)) (deoi d) cs used fin (dstate d') (dpos d') (bbytes (dbuf d')) (deoi d').
(** The part of a session that is left while waiting for data. *)
Definition R1 (d : D) cs used fin (d' : D) : Prop :=
  (cs = [] /\ used = [] /\ (exists e, fin = EndIo (dpos d) e) /\ dstate d' = dstate d /\ dpos d' = dpos d /\ bbytes (dbuf d') = bbytes (dbuf d) /\ deoi d' = false) \/
  (ag = true /\ R0 d cs used fin d') \/
  (exists bs cs', cs = bs :: cs' /\ bs <> [] /\
     R (dstate d) (dpos d) (bbytes (dbuf d) ++ bs) false cs' used fin (dstate d') (dpos d') (bbytes (dbuf d')) (deoi d')) \/
  (exists cs', cs = [] :: cs' /\
     R (dstate d) (dpos d) (bbytes (dbuf d)) true cs' used fin (dstate d') (dpos d') (bbytes (dbuf d')) (deoi d')).
Definition RW (w : bool) := if w then R1 else R0.

Lemma R1_same d1 d2 cs used fin d' : dstate d1 = dstate d2 -> dpos d1 = dpos d2 -> bbytes (dbuf d1) = bbytes (dbuf d2) -> deoi d1 = deoi d2 ->
  R1 d1 cs used fin d' -> R1 d2 cs used fin d'.
Proof. unfold R1, R0. intros -> -> -> ->. auto. Qed.

Lemma call_then_wait d l e (d1 : D) : deoi d = false -> deoi d1 = false ->
  bbytes (dbuf d) = l ++ bbytes (dbuf d1) -> dpos d1 = pos_after (dpos d) l ->
  call_error p (bbytes (dbuf d)) (dpos d) true (dstate d) e (bbytes (dbuf d1)) (dpos d1) (dstate d1) -> e_is_eoi C e = true ->
  forall cs used fin d', R1 d1 cs used fin d' -> R0 d cs (l ++ used) fin d'.
Proof.
  intros E0 E1 HB HP HC He cs used fin d' H. unfold R0. rewrite E0. rewrite HP in HC.
  destruct H as [[-> [-> [[ioe ->] [-> [-> [-> ->]]]]]]|[[Hag H]|[[bs [cs' [-> [Hbs H]]]]|[cs' [-> H]]]]].
  - rewrite app_nil_r, HP. eapply R_io; eauto.
  - unfold R0 in H. rewrite E1, HP in H. eapply R_again; eauto.
  - rewrite HP in H. eapply R_read; eauto.
  - rewrite HP in H. eapply R_eof; eauto.
Qed.

(** The outcome of one poll. *)
Definition polled (w : bool) (d : D) (rd : Rd) (res : poll (A + dec_error (C:=C) IoE)) (d' : D) (rd' : Rd) : Prop :=
  match res with
  | Ready (inl v) => exists cs used, yields poll_read true rd cs rd' /\ RW w d cs used (EndValue v) d'
  | Ready (inr (DParse e)) => exists cs used, yields poll_read true rd cs rd' /\ RW w d cs used (EndParse e) d'
  | Pending => deoi d' = false /\ exists cs used rd1 n, yields poll_read true rd cs rd1 /\ 1 <= n /\ poll_read rd1 n = (Pending, rd') /\
      forall cs2 used2 fin d2, R1 d' cs2 used2 fin d2 -> RW w d (cs ++ cs2) (used ++ used2) fin d2
  | Ready (inr (DIo pos e)) => deoi d' = false /\ pos = dpos d' /\ exists cs used rd1 n, yields poll_read true rd cs rd1 /\ 1 <= n /\ poll_read rd1 n = (Ready (inr e), rd') /\
      forall cs2 used2 fin d2, R1 d' cs2 used2 fin d2 -> RW w d (cs ++ cs2) (used ++ used2) fin d2
  end.

Lemma polled_call d l e d1 rd res d' rd' : deoi d = false -> deoi d1 = false ->
  bbytes (dbuf d) = l ++ bbytes (dbuf d1) -> dpos d1 = pos_after (dpos d) l ->
  call_error p (bbytes (dbuf d)) (dpos d) true (dstate d) e (bbytes (dbuf d1)) (dpos d1) (dstate d1) -> e_is_eoi C e = true ->
  polled true d1 rd res d' rd' -> polled false d rd res d' rd'.
Proof.
  intros E0 E1 HB HP HC He. pose proof (call_then_wait d l e d1 E0 E1 HB HP HC He) as K. unfold polled. cbn [RW].
  destruct res as [|[v|[pos ioe|er]]].
  - intros [H1 [cs [used [rd1 [n [H2 [H3 [H4 H5]]]]]]]]. split; auto. exists cs, (l ++ used), rd1, n. repeat (split; [assumption|]).
    intros. rewrite <- app_assoc. apply K. auto.
  - intros [cs [used [H1 H2]]]. exists cs, (l ++ used). auto.
  - intros [H1 [HQ [cs [used [rd1 [n [H2 [H3 [H4 H5]]]]]]]]]. split; auto. split; auto. exists cs, (l ++ used), rd1, n. repeat (split; [assumption|]).
    intros. rewrite <- app_assoc. apply K. auto.
  - intros [cs [used [H1 H2]]]. exists cs, (l ++ used). auto.
Qed.

Lemma polled_data d bs d1 rd n rd1 res d' rd' : deoi d = false -> 1 <= n -> poll_read rd n = (Ready (inl bs), rd1) -> length bs <= n ->
  dstate d1 = dstate d -> dpos d1 = dpos d -> bbytes (dbuf d1) = bbytes (dbuf d) ++ bs -> deoi d1 = (if length bs =? 0 then true else false) ->
  polled false d1 rd1 res d' rd' -> polled true d rd res d' rd'.
Proof.
  intros E0 Hn HR Hl D1 D2 D3 D4.
  assert (K : forall cs used fin d2, R0 d1 cs used fin d2 -> R1 d (bs :: cs) used fin d2).
  { unfold R0, R1. rewrite D1, D2, D3, D4. intros cs used fin d2 H. right. right. destruct bs as [|t bs]; cbn [length Nat.eqb] in *.
    - right. rewrite app_nil_r in H. eauto.
    - left. exists (t :: bs), cs. split; auto. split; [discriminate|auto]. }
  unfold polled. cbn [RW]. destruct res as [|[v|[pos ioe|er]]].
  - intros [H1 [cs [used [rd2 [m [H2 [H3 [H4 H5]]]]]]]]. split; auto. exists (bs :: cs), used, rd2, m. split; [eapply yd_data; [exact Hn|exact HR|exact Hl|eassumption]|]. repeat (split; [assumption|]).
    intros. cbn [app]. apply K. auto.
  - intros [cs [used [H1 H2]]]. exists (bs :: cs), used. split; [eapply yd_data; [exact Hn|exact HR|exact Hl|eassumption]|auto].
  - intros [H1 [HQ [cs [used [rd2 [m [H2 [H3 [H4 H5]]]]]]]]]. split; auto. split; auto. exists (bs :: cs), used, rd2, m. split; [eapply yd_data; [exact Hn|exact HR|exact Hl|eassumption]|]. repeat (split; [assumption|]).
    intros. cbn [app]. apply K. auto.
  - intros [cs [used [H1 H2]]]. exists (bs :: cs), used. split; [eapply yd_data; [exact Hn|exact HR|exact Hl|eassumption]|auto].
Qed.

Lemma poll_polled : forall fl w d rd res d' rd', buf_ok (dbuf d) -> (w = true -> deoi d = false) ->
  poll_decode poll_read grow fl w p d rd = Done (res, d', rd') -> buf_ok (dbuf d') /\ polled w d rd res d' rd'.
Proof.
  induction fl as [|fl IH]; intros w d rd res d' rd' Hb Hw H; [discriminate|]. cbn [poll_decode] in H.
  assert (RD : forall d1 : D, buf_ok (dbuf d1) -> deoi d1 = false ->
    obind (poll_before_parse poll_read grow d1 rd) (fun y => match y with
        | (Pending, d2, rd') => Done (Pending, d2, rd')
        | (Ready (inr e), d2, rd') => Done (Ready (inr (DIo (dpos d2) e)), d2, rd')
        | (Ready (inl tt), d2, rd') => poll_decode poll_read grow fl false p d2 rd'
        end) = Done (res, d', rd') -> buf_ok (dbuf d') /\ polled true d1 rd res d' rd').
  { clear H. intros d1 Hb1 E1 H. peel H. unfold poll_before_parse in Hx. peel Hx. destruct x0 as [[rr b'] rd2].
    destruct (pextend_ok _ _ _ _ _ Hb1 Hx0) as [Hb2 [room [Hroom Hr]]]. destruct rr as [|[k|ioe]]; injection Hx as <-.
    - injection H as <- <- <-. cbn [dbuf polled deoi]. split; auto. destruct Hr as [R1' R2]. split; [cbn [deoi]; auto|]. exists [], [], rd, room.
      split; [constructor|]. split; auto. split; auto. intros cs2 used2 fin d2. cbn [app RW]. apply R1_same; cbn [dstate dpos dbuf deoi]; auto.
    - destruct Hr as [bs [Q1 [Q2 [Q3 Q4]]]]. apply IH in H; [|exact Hb2|discriminate]. destruct H as [H1 H2]. split; auto. subst k.
      eapply polled_data; [exact E1|exact Hroom|exact Q1|exact Q2| | | | |exact H2]; cbn [dstate dpos dbuf deoi]; auto. rewrite E1. reflexivity.
    - injection H as <- <- <-. cbn [dbuf polled deoi]. split; auto. destruct Hr as [R1' R2]. split; [cbn [deoi]; auto|]. split; auto. exists [], [], rd, room.
      split; [constructor|]. split; auto. split; auto. intros cs2 used2 fin d2. cbn [app RW]. apply R1_same; cbn [dstate dpos dbuf deoi]; auto. }
  destruct w; [apply RD; auto|]. clear Hw. peel H. destruct x as [[dr i'] st']. apply decode_run in Hx. destruct dr as [[[v|] n]|e].
  - destruct Hx as [Hv Hn]. peel H. apply (adv_ok _ _ _ Hb) in Hx. destruct Hx as [Hb' Hs]. injection H as <- <- <-. cbn [dbuf polled].
    split; auto. destruct (fwd_parse_with_state _ F _ _ _ _ _ Hv) as [l Hl]. exists [], l. split; [constructor|]. unfold RW, R0. cbn [dbuf dstate dpos deoi].
    pose proof (drops_slice W _ _ (ex_intro _ l Hl)) as Hd. rewrite <- Hn in Hd. cbn [rest] in Hd. destruct Hd as [Hd _]. rewrite Hs, Hd.
    destruct Hl as [L1 [L2 L3]]. cbn [rest ipos ipart] in *. rewrite L2. apply R_value; auto. unfold call_value. rewrite Hv, <- L2, <- L3. destruct i'; reflexivity.
  - destruct Hx as [e [Hv [He [Hp Hn]]]]. peel H. apply (adv_ok _ _ _ Hb) in Hx. destruct Hx as [Hb' Hs].
    destruct (fwd_parse_with_state _ F _ _ _ _ _ Hv) as [l Hl].
    pose proof (drops_slice W _ _ (ex_intro _ l Hl)) as Hd. rewrite <- Hn in Hd. cbn [rest] in Hd. destruct Hd as [Hd _]. rewrite Hd in Hs. clear Hd.
    destruct Hl as [L1 [L2 L3]]. cbn [rest ipos ipart] in *. rewrite Hp in L3. destruct (deoi d) eqn:Heof; [discriminate|].
    cbn [negb] in *. apply RD in H; [|exact Hb'|reflexivity]. destruct H as [H1 H2]. split; auto.
    eapply (polled_call d l e); [exact Heof| | | | | |exact H2]; cbn [deoi dbuf dpos dstate]; auto.
    + rewrite Hs. auto.
    + unfold call_error. rewrite Hv, Hs, <- Hp. destruct i'; reflexivity.
  - destruct Hx as [Hv He]. injection H as <- <- <-. cbn [dbuf polled]. split; auto. exists [], [].
    split; [constructor|]. destruct (fwd_parse_with_state _ F _ _ _ _ _ Hv) as [l [L1 [L2 L3]]]. cbn [rest ipos ipart] in *.
    unfold RW, R0. cbn [dbuf dstate dpos deoi]. eapply R_error with (b' := rest i').
    + unfold call_error. rewrite Hv, <- L3. destruct i'; reflexivity.
    + rewrite L3 in He. destruct (deoi d); auto. destruct He as [He|He]; [auto|discriminate].
Qed.

Lemma driven_runs steady fl : (steady = false -> ag = true) -> forall w d rd r d' rd', driven poll_read grow steady fl p w d rd r d' rd' ->
  buf_ok (dbuf d) -> (w = true -> deoi d = false) ->
  buf_ok (dbuf d') /\ exists cs used rd1, yields poll_read steady rd cs rd1 /\ RW w d cs used (fin_of IoE r) d' /\
    match r with
    | inr (DIo _ e) => exists n, 1 <= n /\ poll_read rd1 n = (Ready (inr e), rd')
    | _ => rd' = rd1
    end.
Proof.
  intros Hag. assert (YW : forall rd cs rd1, yields poll_read true rd cs rd1 -> yields poll_read steady rd cs rd1).
  { destruct steady; auto. intros. apply yields_weak. auto. }
  induction 1 as [w d rd r d' rd' H|w d rd d1 rd1 r d' rd' H _ IH|w d rd d1 rd1 r d' rd' HS H _ IH|w d rd pos e d1 rd1 r d' rd' HS H _ IH]; intros Hb Hw;
    apply (poll_polled _ _ _ _ _ _ _ Hb Hw) in H; destruct H as [Hb1 H].
  - split; auto. destruct r as [v|[pos e|e]]; cbn [polled fin_of] in *.
    + destruct H as [cs [used [H1 H2]]]. exists cs, used, rd'. auto.
    + destruct H as [H0 [HQ [cs [used [rd1 [n [H1 [H2 [H3 H4]]]]]]]]]. exists cs, used, rd1. split; [auto|]. split; [|eauto].
      rewrite <- (app_nil_r cs), <- (app_nil_r used). apply H4. left. split; [reflexivity|]. split; [reflexivity|]. subst pos. split; [eexists; reflexivity|auto 7].
    + destruct H as [cs [used [H1 H2]]]. exists cs, used, rd'. auto.
  - cbn [polled] in H. destruct H as [H0 [cs [used [rd2 [n [H1 [H2 [H3 H4]]]]]]]]. destruct (IH Hb1 (fun _ => H0)) as [Hb2 [cs2 [used2 [rd3 [K1 [K2 K3]]]]]].
    split; auto. exists (cs ++ cs2), (used ++ used2), rd3. split; [|split; [|exact K3]].
    + eapply yields_app; [apply YW; eauto|]. eapply yd_pending; eauto.
    + apply H4. exact K2.
  - cbn [polled] in H. destruct H as [H0 [cs [used [rd2 [n [H1 [H2 [H3 H4]]]]]]]].
    assert (X : false = true -> deoi d1 = false) by discriminate. destruct (IH Hb1 X) as [Hb2 [cs2 [used2 [rd3 [K1 [K2 K3]]]]]].
    split; auto. exists (cs ++ cs2), (used ++ used2), rd3. split; [|split; [|exact K3]].
    + eapply yields_app; [apply YW; eauto|]. eapply yd_pending; eauto.
    + apply H4. right. left. split; auto.
  - cbn [polled] in H. destruct H as [H0 [_ [cs [used [rd2 [n [H1 [H2 [H3 H4]]]]]]]]].
    assert (X : false = true -> deoi d1 = false) by discriminate. destruct (IH Hb1 X) as [Hb2 [cs2 [used2 [rd3 [K1 [K2 K3]]]]]].
    split; auto. exists (cs ++ cs2), (used ++ used2), rd3. split; [|split; [|exact K3]].
    + eapply yields_app; [apply YW; eauto|]. eapply yd_error; eauto.
    + apply H4. right. left. split; auto.
Qed.
End Generic.

(** Polled to the end, the future is a plain session. *)
Lemma steady_session {S A} (p : parser C S A) (F : fwd p) (W : forall t, width C t = 1) fl d rd r d' rd' :
  buf_ok (dbuf d) -> driven poll_read grow true fl p false d rd r d' rd' ->
  buf_ok (dbuf d') /\ exists cs used rd1, yields poll_read true rd cs rd1 /\
    session p (dstate d) (dpos d) (bbytes (dbuf d)) (deoi d) cs used (fin_of IoE r) (dstate d') (dpos d') (bbytes (dbuf d')) (deoi d') /\
    match r with
    | inr (DIo _ e) => exists n, 1 <= n /\ poll_read rd1 n = (Ready (inr e), rd')
    | _ => rd' = rd1
    end.
Proof.
  intros Hb H. refine (driven_runs p F W false (session p) _ _ _ _ _ _ true fl _ false d rd r d' rd' H Hb _); try discriminate.
  - intros; eapply ses_value; eauto.
  - intros; eapply ses_error; eauto.
  - intros; eapply ses_io; eauto.
  - intros; eapply ses_read; eauto.
  - intros; eapply ses_eof; eauto.
Qed.

Lemma driven_session {S A} (p : parser C S A) (F : fwd p) (W : forall t, width C t = 1) steady fl d rd r d' rd' :
  buf_ok (dbuf d) -> driven poll_read grow steady fl p false d rd r d' rd' ->
  buf_ok (dbuf d') /\ exists cs used rd1, yields poll_read steady rd cs rd1 /\
    isession p (dstate d) (dpos d) (bbytes (dbuf d)) (deoi d) cs used (fin_of IoE r) (dstate d') (dpos d') (bbytes (dbuf d')) (deoi d') /\
    match r with
    | inr (DIo _ e) => exists n, 1 <= n /\ poll_read rd1 n = (Ready (inr e), rd')
    | _ => rd' = rd1
    end.
Proof.
  intros Hb H. refine (driven_runs p F W true (isession p) _ _ _ _ _ _ steady fl _ false d rd r d' rd' H Hb _); auto; try discriminate.
  - intros; eapply is_value; eauto.
  - intros; eapply is_error; eauto.
  - intros; eapply is_io; eauto.
  - intros; eapply is_again; eauto.
  - intros; eapply is_read; eauto.
  - intros; eapply is_eof; eauto.
Qed.

Lemma isession_conserves {S A} (p : parser C S A) st pos b eof cs used fin st' pos' b' eof' :
  isession (IoE:=IoE) p st pos b eof cs used fin st' pos' b' eof' -> b ++ concat cs = used ++ b'.
Proof.
  induction 1; cbn [concat]; rewrite ?app_nil_r; auto; subst.
  - rewrite <- !app_assoc in *. rewrite <- IHisession. rewrite ?app_assoc. reflexivity.
  - rewrite <- !app_assoc in *. rewrite <- IHisession. rewrite ?app_assoc. reflexivity.
  - cbn [app]. rewrite <- !app_assoc in *. rewrite <- IHisession. reflexivity.
Qed.
Lemma isession_pos {S A} (p : parser C S A) st pos b eof cs used fin st' pos' b' eof' :
  isession (IoE:=IoE) p st pos b eof cs used fin st' pos' b' eof' ->
  match fin with EndParse _ => True | _ => pos' = pos_after pos used end.
Proof.
  induction 1; subst; auto; destruct fin; auto; rewrite IHisession; unfold pos_after; rewrite fold_left_app; reflexivity.
Qed.
Lemma isession_chunks {S A} (p : parser C S A) st pos b eof cs used fin st' pos' b' eof' :
  isession (IoE:=IoE) p st pos b eof cs used fin st' pos' b' eof' ->
  if eof then cs = [] /\ eof' = true
  else if eof' then exists cs', cs = cs' ++ [[]] /\ Forall (fun c => c <> []) cs' else Forall (fun c => c <> []) cs.
Proof.
  induction 1; subst; auto.
  - destruct eof; auto.
  - destruct eof; auto.
  - destruct eof'; [destruct IHisession as [cs' [-> H']]; exists (bs :: cs'); split; auto|constructor; auto].
  - destruct IHisession as [-> ->]. exists []. split; auto.
Qed.
Lemma session_isession {S A} (p : parser C S A) st pos b eof cs used fin st' pos' b' eof' :
  session (IoE:=IoE) p st pos b eof cs used fin st' pos' b' eof' -> isession p st pos b eof cs used fin st' pos' b' eof'.
Proof.
  induction 1; [eapply is_value|eapply is_error|eapply is_io|eapply is_read|eapply is_eof]; eauto.
Qed.

(** No panic, whatever the state of the future. *)
Lemma poll_no_panic {S A} (p : parser C S A) (F : fwd p) (W : forall t, width C t = 1)
  (HR : forall rd n bs rd', poll_read rd n = (Ready (inl bs), rd') -> length bs <= n) (NP : forall i st, p_run p false i st <> Panic) :
  forall fl w d rd, buf_ok (dbuf d) -> poll_decode poll_read grow fl w p d rd <> Panic.
Proof.
  induction fl as [|fl IH]; intros w d rd Hb; [discriminate|]. cbn [poll_decode].
  assert (RD : forall d1 : dec (C:=C) S, buf_ok (dbuf d1) ->
    obind (poll_before_parse poll_read grow d1 rd) (fun y => match y with
        | (Pending, d2, rd') => Done (Pending, d2, rd')
        | (Ready (inr e), d2, rd') => Done (Ready (inr (DIo (dpos d2) e)), d2, rd')
        | (Ready (inl tt), d2, rd') => poll_decode poll_read grow fl false p d2 rd'
        end) <> Panic).
  { intros d1 Hb1. unfold poll_before_parse. destruct (poll_extend_buf poll_read grow (dbuf d1) rd) as [[[rr b'] rd2]| |] eqn:HE; cbn [omap obind].
    - destruct (pextend_ok _ _ _ _ _ Hb1 HE) as [Hb2 _]. destruct rr as [|[k|e]]; try discriminate. apply IH; auto.
    - exfalso. exact (proj1 (pextend_not_panic (dbuf d1) rd HR) HE).
    - discriminate. }
  destruct w; [apply RD; auto|].
  set (i := Inp (bbytes (dbuf d)) (dpos d) (negb (deoi d))). destruct (decode p i (dstate d)) as [[[res i'] st']| |] eqn:HD; cbn [obind]; [|exfalso|discriminate].
  2:{ unfold decode, parse_with_state, parse_stream_partial in HD. destruct (p_run p false i (dstate d)) as [[[? ?] ?]| |] eqn:HP; cbn in HD; try discriminate. exact (NP _ _ HP). }
  apply decode_run in HD. destruct res as [[o n]|e]; [|discriminate].
  assert (Hn : n <= length (bbytes (dbuf d))).
  { destruct o as [v|].
    - destruct HD as [Hv ->]. destruct (drops_slice W _ _ (fwd_parse_with_state _ F _ _ _ _ _ Hv)) as [_ Hd]. unfold i in *. cbn [rest] in *. lia.
    - destruct HD as [e [Hv [_ [_ ->]]]]. destruct (drops_slice W _ _ (fwd_parse_with_state _ F _ _ _ _ _ Hv)) as [_ Hd]. unfold i in *. cbn [rest] in *. lia. }
  unfold b_advance. pose proof (proj2 (Nat.leb_le _ _) Hn) as Hl. rewrite Hl. cbn [obind]. destruct o as [v|]; [discriminate|].
  apply RD. cbn [dbuf]. unfold buf_ok in *. cbn [bbytes bcap]. rewrite skipn_length. lia.
Qed.

(** A poll ends: after a bounded number of non-empty reads the reader is not ready, at its end, or fails. *)
Inductive settles : Rd -> nat -> Prop :=
| settles_at : forall rd k, (forall n, 1 <= n -> exists x rd', poll_read rd n = (x, rd') /\ match x with Ready (inl (_ :: _)) => False | _ => True end) -> settles rd k
| settles_later : forall rd k, (forall n r rd', 1 <= n -> poll_read rd n = (Ready (inl r), rd') -> settles rd' k) -> settles rd (S k).

Lemma poll_terminates {ST A} (p : parser C ST A) (F : fwd p) (W : forall t, width C t = 1)
  (NO : forall i st, p_run p false i st <> OOF) :
  forall k rd, settles rd k -> forall w d, buf_ok (dbuf d) -> poll_decode poll_read grow (k + 2) w p d rd <> OOF.
Proof.
  assert (base : forall fl w d rd, poll_decode poll_read grow (S fl) w p d rd = OOF -> exists (d1 d2 : dec (C:=C) ST) rd2 r,
     poll_extend_buf poll_read grow (dbuf d1) rd = Done (Ready (inl r), dbuf d2, rd2) /\ (buf_ok (dbuf d) -> buf_ok (dbuf d1)) /\ (w = false -> deoi d = false) /\
     (r = 0 -> deoi d2 = true) /\ poll_decode poll_read grow fl false p d2 rd2 = OOF).
  { intros fl w d rd. cbn [poll_decode].
    assert (RD : forall d1 : dec (C:=C) ST,
      obind (poll_before_parse poll_read grow d1 rd) (fun y => match y with
        | (Pending, d2, rd') => Done (Pending, d2, rd')
        | (Ready (inr e), d2, rd') => Done (Ready (inr (DIo (dpos d2) e)), d2, rd')
        | (Ready (inl tt), d2, rd') => poll_decode poll_read grow fl false p d2 rd'
        end) = OOF -> exists (d2 : dec (C:=C) ST) rd2 r, poll_extend_buf poll_read grow (dbuf d1) rd = Done (Ready (inl r), dbuf d2, rd2) /\
          (r = 0 -> deoi d2 = true) /\ poll_decode poll_read grow fl false p d2 rd2 = OOF).
    { intros d1. unfold poll_before_parse. destruct (poll_extend_buf poll_read grow (dbuf d1) rd) as [[[rr b'] rd2]| |] eqn:HE; cbn [omap obind]; [|discriminate|].
      2:{ unfold poll_extend_buf in HE. match type of HE with context[poll_read rd ?n] => destruct (poll_read rd n) as [[|[bs|?]] ?] end; [|destruct (_ <=? _)|]; discriminate. }
      destruct rr as [|[k|e']]; try discriminate. intros H. eexists _, _, _. split; [|split; [|exact H]]; [cbn [dbuf]; reflexivity|]. intros ->. reflexivity. }
    destruct w.
    { intros H. apply RD in H. destruct H as [d2 [rd2 [r [H1 [H2 H3]]]]]. exists d, d2, rd2, r. repeat (split; [auto; try discriminate|]). auto. }
    set (i := Inp (bbytes (dbuf d)) (dpos d) (negb (deoi d))). destruct (decode p i (dstate d)) as [[[res i'] st']| |] eqn:HD; cbn [obind]; [|discriminate|exfalso].
    2:{ unfold decode, parse_with_state, parse_stream_partial in HD. destruct (p_run p false i (dstate d)) as [[[? ?] ?]| |] eqn:HP; cbn in HD; try discriminate. exact (NO _ _ HP). }
    apply decode_run in HD. destruct res as [[o n]|e]; [|discriminate]. destruct (b_advance n (dbuf d)) as [b| |] eqn:HB; cbn [obind]; [|discriminate|unfold b_advance in HB; destruct (_ <=? _); discriminate].
    destruct o as [v|]; [discriminate|]. destruct HD as [e [Hv [_ [Hp _]]]]. destruct (fwd_parse_with_state _ F _ _ _ _ _ Hv) as [l [_ [_ L3]]]. unfold i in L3. cbn [ipart] in L3. rewrite Hp in L3.
    destruct (deoi d) eqn:Heof; [discriminate|]. intros H. apply RD in H. destruct H as [d2 [rd2 [r [H1 [H2 H3]]]]].
    eexists _, d2, rd2, r. split; [exact H1|]. split; [|split; [auto|split; auto]]. cbn [dbuf]. intros Hb. exact (proj1 (adv_ok _ _ _ Hb HB)). }
  assert (last : forall fl d rd, deoi d = true -> poll_decode poll_read grow (S fl) false p d rd <> OOF).
  { intros fl d rd Hd H. apply base in H. destruct H as (? & ? & ? & ? & _ & _ & H & _). specialize (H eq_refl). congruence. }
  induction 1 as [rd k He|rd k He IH]; intros w d Hb H; rewrite Nat.add_comm in H; cbn [Nat.add] in H; apply base in H;
    destruct H as (d1 & d2 & rd2 & r & H1 & H2 & _ & H3 & H4); destruct (pextend_ok _ _ _ _ _ (H2 Hb) H1) as [Hb2 [room [Hroom [bs [R1 [_ [R3 _]]]]]]].
  - destruct (He room Hroom) as [x [rd' [Hr Hx]]]. rewrite Hr in R1. inversion R1; subst. destruct bs; [|contradiction]. exact (last _ _ _ (H3 eq_refl) H4).
  - refine (IH room bs rd2 Hroom R1 false d2 Hb2 _). rewrite Nat.add_comm. exact H4.
Qed.

(** * [BufReader] *)
Lemma abr_extend_ok r x r' : br_ok Rd r -> abr_extend poll_read grow r = Done (x, r') ->
  br_ok Rd r' /\ exists room, 1 <= room /\
    match x with
    | Pending => poll_read (br_inner r) room = (Pending, br_inner r') /\ bbytes (br_buf r') = bbytes (br_buf r)
    | Ready (inl n) => exists bs, poll_read (br_inner r) room = (Ready (inl bs), br_inner r') /\ length bs <= room /\ n = length bs /\ bbytes (br_buf r') = bbytes (br_buf r) ++ bs
    | Ready (inr e) => poll_read (br_inner r) room = (Ready (inr e), br_inner r') /\ bbytes (br_buf r') = bbytes (br_buf r)
    end.
Proof.
  intros Hb H. unfold abr_extend in H. peel H. destruct x0 as [[y b] rd]. injection H as <- <-. exact (pextend_ok _ _ _ _ _ Hb Hx).
Qed.

Lemma abr_fill_ok r x r' : br_ok Rd r -> abr_fill_buf poll_read grow r = Done (x, r') ->
  br_ok Rd r' /\
  match bbytes (br_buf r) with
  | [] => exists room, 1 <= room /\
      match x with
      | Pending => poll_read (br_inner r) room = (Pending, br_inner r') /\ bbytes (br_buf r') = []
      | Ready (inl l) => poll_read (br_inner r) room = (Ready (inl l), br_inner r') /\ length l <= room /\ bbytes (br_buf r') = l
      | Ready (inr e) => poll_read (br_inner r) room = (Ready (inr e), br_inner r') /\ bbytes (br_buf r') = []
      end
  | l => x = Ready (inl l) /\ r' = r
  end.
Proof.
  intros Hb H. unfold abr_fill_buf in H. destruct (bbytes (br_buf r)) as [|t l] eqn:HL.
  - peel H. destruct x0 as [[|[n|e]] r2]; injection H as <- <-; apply (abr_extend_ok _ _ _ Hb) in Hx; destruct Hx as [H1 [room [H2 H3]]]; split; auto; exists room; split; auto.
    + destruct H3 as [R1 R2]. rewrite HL in R2. auto.
    + destruct H3 as [bs [R1 [R2 [R3 R4]]]]. rewrite HL in R4. cbn [app] in R4. rewrite R4. auto.
    + destruct H3 as [R1 R2]. rewrite HL in R2. auto.
  - injection H as <- <-. auto.
Qed.

Lemma abr_read_ok n r x r' : br_ok Rd r -> abr_read poll_read grow n r = Done (x, r') ->
  br_ok Rd r' /\
  match x with
  | Pending => bbytes (br_buf r) = [] /\ bbytes (br_buf r') = [] /\ exists room, 1 <= room /\ poll_read (br_inner r) room = (Pending, br_inner r')
  | Ready (inl got) => length got <= n /\ exists l, got = firstn n l /\ l = got ++ bbytes (br_buf r') /\
      (bbytes (br_buf r) = l /\ l <> [] /\ br_inner r' = br_inner r \/
       bbytes (br_buf r) = [] /\ exists room, 1 <= room /\ poll_read (br_inner r) room = (Ready (inl l), br_inner r') /\ length l <= room)
  | Ready (inr e) => bbytes (br_buf r) = [] /\ bbytes (br_buf r') = [] /\ exists room, 1 <= room /\ poll_read (br_inner r) room = (Ready (inr e), br_inner r')
  end.
Proof.
  intros Hb H. unfold abr_read in H. peel H. destruct x0 as [[|[rem|e]] r2]; apply (abr_fill_ok _ _ _ Hb) in Hx; destruct Hx as [H1 H2].
  - injection H as <- <-. split; auto. destruct (bbytes (br_buf r)) eqn:HL; [|destruct H2; discriminate].
    destruct H2 as [room [A1 [A2 A3]]]. split; auto. split; auto. exists room. auto.
  - peel H. assert (Hx' : br_consume (length (firstn n rem)) r2 = Done x0) by exact Hx. clear Hx. unfold br_consume in Hx'. peel Hx'. injection Hx' as <-.
    apply (adv_ok _ _ _ H1) in Hx. destruct Hx as [H3 H4]. injection H as <- <-. split; [exact H3|]. split; [rewrite firstn_length; lia|].
    cbn [br_buf br_inner]. exists rem. split; auto. rewrite firstn_length in H4.
    assert (HE : bbytes (br_buf r2) = rem).
    { destruct (bbytes (br_buf r)) eqn:HL; [destruct H2 as [room [_ [_ [_ H2]]]]; auto|]. destruct H2 as [H2 ->]. injection H2 as ->. auto. }
    rewrite HE in H4. split.
    + rewrite H4. rewrite <- (firstn_skipn (Nat.min n (length rem)) rem) at 1. f_equal. destruct (Nat.le_ge_cases n (length rem)); [rewrite Nat.min_l by auto; auto|]. rewrite Nat.min_r by auto. rewrite firstn_all, firstn_all2 by auto. auto.
    + destruct (bbytes (br_buf r)) eqn:HL.
      * right. split; auto. destruct H2 as [room [A1 [A2 [A3 _]]]]. exists room. auto.
      * left. destruct H2 as [H2 ->]. injection H2 as ->. split; auto. split; [discriminate|auto].
  - injection H as <- <-. split; auto. destruct (bbytes (br_buf r)) eqn:HL; [|destruct H2; discriminate].
    destruct H2 as [room [A1 [A2 A3]]]. split; auto. split; auto. exists room. auto.
Qed.
End AsyncP.
