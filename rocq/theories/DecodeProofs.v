(** Proofs about decoding. *)
From Coq Require Import String List Bool Arith NArith Lia.
Import ListNotations.
From Verif Require Import Base Parser Spec LibSpec ResultProofs ForwardProofs StreamM StreamProofs RefineProofs DecodeM DecodeSpec.
Unset Implicit Arguments.

Ltac peel H :=
  match type of H with
  | omap _ ?e = Done _ => let x := fresh "x" in let Hx := fresh "Hx" in destruct e as [x| |] eqn:Hx; cbn [omap] in H; try discriminate H
  | obind ?e _ = Done _ => let x := fresh "x" in let Hx := fresh "Hx" in destruct e as [x| |] eqn:Hx; cbn [obind] in H; try discriminate H
  end.

Section DecodeP.
Context {C : Cfg}.
Notation T := (tok C).
Notation E := (Err C).

Lemma advanced_distance (i i' : input C) l : advanced_by i l i' -> distance i' i = range_len l.
Proof.
  intros [H _]. unfold distance. rewrite H. clear H.
  assert (HL : range_len (l ++ rest i') = range_len l + range_len (rest i')).
  { induction l as [|t l IH]; [reflexivity|]. cbn [app]. change (range_len (t :: l ++ rest i')) with (width C t + range_len (l ++ rest i')).
    change (range_len (t :: l)) with (width C t + range_len l). rewrite IH. lia. }
  rewrite HL. lia.
Qed.

Lemma pws_run {S A} (p : parser C S A) i st x i' st' : parse_with_state p i st = Done (x, i', st') ->
  exists r j, p_run p false i st = Done (r, j, st') /\
    match x with inl v => value_of r = Some v /\ i' = j | inr e => error_of r <> None /\ value_of r = None end.
Proof.
  unfold parse_with_state, parse_stream_partial. intros H. peel H. peel Hx. destruct x1 as [[r j] s]. exists r, j.
  destruct r; cbn in Hx; inversion Hx; subst; cbn in H; inversion H; subst; split; auto; split; cbn; congruence.
Qed.

Lemma decode_run {S A} (p : parser C S A) i st res i' st' : decode p i st = Done (res, i', st') ->
  match res with
  | inl (Some v, n) => parse_with_state p i st = Done (inl v, i', st') /\ n = distance i' i
  | inl (None, n) => exists e, parse_with_state p i st = Done (inr e, i', st') /\ e_is_eoi C e = true /\ ipart i' = true /\ n = distance i' i
  | inr e => parse_with_state p i st = Done (inr e, i', st') /\ (e_is_eoi C e = false \/ ipart i' = false)
  end.
Proof.
  unfold decode. intros H. peel H. destruct x as [[[v|e] j] s].
  - inversion H; subst. auto.
  - destruct (e_is_eoi C e) eqn:He; [destruct (ipart j) eqn:Hp|]; inversion H; subst; eauto 6.
Qed.

Lemma decode_tokio_run {S A} (p : parser C S A) i st res i' st' : decode_tokio p i st = Done (res, i', st') ->
  match res with
  | inl (Some v, n) => parse_with_state p i st = Done (inl v, i', st') /\ n = distance i' i
  | inl (None, n) => exists e, parse_with_state p i st = Done (inr e, i', st') /\ e_is_eoi C e = true /\ n = distance i' i /\
      (ipart i' = true \/ ipart i' = false /\ rest i' = [] /\ n = 0)
  | inr e => parse_with_state p i st = Done (inr e, i', st') /\
      (e_is_eoi C e = false \/ ipart i' = false /\ (distance i' i <> 0 \/ input_at_eof i' = false))
  end.
Proof.
  unfold decode_tokio. intros H. peel H. destruct x as [[[v|e] j] s].
  - inversion H; subst. auto.
  - destruct (e_is_eoi C e) eqn:He; [destruct (ipart j) eqn:Hp; [|destruct (input_at_eof j) eqn:Ha; cbn [andb] in H; [destruct (distance j i =? 0) eqn:Hd|]]|]; inversion H; subst; eauto 8.
    + exists e. apply Nat.eqb_eq in Hd. rewrite Hd. split; [auto|]. split; [auto|]. split; [auto|]. right. split; auto. split; auto.
      unfold input_at_eof, uncons in Ha. destruct (rest i'); [auto|discriminate].
    + split; auto. apply Nat.eqb_neq in Hd. auto.
Qed.

Lemma decode_total {S A} (p : parser C S A) i st x i' st' : parse_with_state p i st = Done (x, i', st') ->
  exists res, decode p i st = Done (res, i', st').
Proof. intros H. unfold decode. rewrite H. cbn. eauto. Qed.

(** Slices. *)
Lemma drops_slice (W : forall t, width C t = 1) (i i' : input C) : advanced i i' -> drops (rest i) (distance i' i) (rest i').
Proof.
  intros [l H]. rewrite (advanced_distance _ _ _ H). rewrite (slice_len W). destruct H as [H _]. rewrite H. split.
  - rewrite skipn_app, skipn_all, Nat.sub_diag. reflexivity.
  - rewrite app_length. lia.
Qed.
(** Strings: bytes. *)
Lemma drops_str (cp : T -> N) (W : forall t, width C t = len_utf8 (cp t)) (i i' : input C) : advanced i i' ->
  drops (bytes_of cp (rest i)) (distance i' i) (bytes_of cp (rest i')).
Proof.
  intros [l H]. rewrite (advanced_distance _ _ _ H). destruct H as [H _]. rewrite H, bytes_of_app. rewrite <- (bytes_length cp W l). split.
  - rewrite skipn_app, skipn_all, Nat.sub_diag. reflexivity.
  - rewrite app_length. lia.
Qed.

(** * The buffer and the loop *)
Variables Rd IoE : Type.
Variable rd_read : Rd -> nat -> (list T + IoE) * Rd.
Variable grow : nat -> nat -> nat.
Hypothesis grows : forall len add, len + add <= grow len add.

Definition buf_ok (b : buf (C:=C)) : Prop := length (bbytes b) <= bcap b.

Lemma read_size_pos : 1 <= read_size.
Proof. unfold read_size. lia. Qed.

Lemma extend_ok b rd r b' rd' : buf_ok b -> extend_buf_sync rd_read grow b rd = Done (r, b', rd') ->
  buf_ok b' /\ exists room, 1 <= room <= read_size /\
    match r with
    | inl n => exists bs, rd_read rd room = (inl bs, rd') /\ length bs <= room /\ n = length bs /\ bbytes b' = bbytes b ++ bs
    | inr e => rd_read rd room = (inr e, rd') /\ bbytes b' = bbytes b
    end.
Proof.
  intros Hb. unfold extend_buf_sync. pose proof read_size_pos as RS.
  set (b1 := if bcap b =? length (bbytes b) then Buf (bbytes b) (grow (length (bbytes b)) read_size) else b).
  assert (H1 : bbytes b1 = bbytes b /\ length (bbytes b1) < bcap b1).
  { unfold b1. unfold buf_ok in Hb. specialize (grows (length (bbytes b)) read_size). destruct (bcap b =? length (bbytes b)) eqn:Hc.
    - cbn [bbytes bcap]. split; [auto|lia].
    - apply Nat.eqb_neq in Hc. split; [auto|lia]. }
  destruct H1 as [H1 H2]. set (room := Nat.min (bcap b1 - length (bbytes b1)) read_size).
  assert (Hr : 1 <= room <= read_size) by (unfold room; lia).
  assert (Hr2 : room <= bcap b1 - length (bbytes b1)) by (unfold room; lia). clearbody room b1.
  destruct (rd_read rd room) as [[bs|e] rd2] eqn:HR.
  - destruct (length bs <=? room) eqn:Hl; [|discriminate]. apply Nat.leb_le in Hl. intros H. injection H as <- <- <-. split.
    + unfold buf_ok. cbn [bbytes bcap]. rewrite app_length. lia.
    + exists room. split; auto. exists bs. cbn [bbytes]. rewrite H1. auto.
  - intros H. injection H as <- <- <-. split; [unfold buf_ok; lia|]. exists room. auto.
Qed.

Lemma extend_not_panic b rd : (forall rd n bs rd', rd_read rd n = (inl bs, rd') -> length bs <= n) ->
  extend_buf_sync rd_read grow b rd <> Panic /\ extend_buf_sync rd_read grow b rd <> OOF.
Proof.
  intros HR. unfold extend_buf_sync.
  match goal with |- context[rd_read rd ?n] => destruct (rd_read rd n) as [[bs|e] rd2] eqn:Hx end; [|split; discriminate].
  apply HR in Hx. apply Nat.leb_le in Hx. rewrite Hx. split; discriminate.
Qed.

Lemma advance_ok n b b' : buf_ok b -> b_advance n b = Done b' -> buf_ok b' /\ bbytes b' = skipn n (bbytes b).
Proof.
  unfold b_advance, buf_ok. destruct (n <=? length (bbytes b)) eqn:Hn; [|discriminate]. intros Hb H. injection H as <-.
  cbn [bbytes bcap]. rewrite skipn_length. split; [lia|auto].
Qed.

Lemma session_conserves {S A} (p : parser C S A) st pos b eof cs used fin st' pos' b' eof' :
  session (IoE:=IoE) p st pos b eof cs used fin st' pos' b' eof' -> b ++ concat cs = used ++ b'.
Proof.
  induction 1; cbn [concat]; rewrite ?app_nil_r; auto; subst.
  - rewrite <- !app_assoc in *. rewrite <- IHsession. rewrite ?app_assoc. reflexivity.
  - cbn [app]. rewrite <- !app_assoc in *. rewrite <- IHsession. reflexivity.
Qed.

(** The end of the data is seen once, by an empty read, and nothing is read after it. *)
Lemma session_chunks {S A} (p : parser C S A) st pos b eof cs used fin st' pos' b' eof' :
  session (IoE:=IoE) p st pos b eof cs used fin st' pos' b' eof' ->
  if eof then cs = [] /\ eof' = true
  else if eof' then exists cs', cs = cs' ++ [[]] /\ Forall (fun c => c <> []) cs' else Forall (fun c => c <> []) cs.
Proof.
  induction 1; subst; auto.
  - destruct eof; auto.
  - destruct eof; auto.
  - destruct eof'; [destruct IHsession as [cs' [-> H']]; exists (bs :: cs'); split; auto|constructor; auto].
  - destruct IHsession as [-> ->]. exists []. split; auto.
Qed.

Lemma session_pos {S A} (p : parser C S A) st pos b eof cs used fin st' pos' b' eof' :
  session (IoE:=IoE) p st pos b eof cs used fin st' pos' b' eof' ->
  match fin with EndParse _ => True | _ => pos' = pos_after pos used end.
Proof.
  induction 1; subst; auto; destruct fin; auto; rewrite IHsession; unfold pos_after; rewrite fold_left_app; reflexivity.
Qed.

Lemma delivers_app size rd cs rd1 cs2 rd2 : delivers rd_read size rd cs rd1 -> delivers rd_read size rd1 cs2 rd2 -> delivers rd_read size rd (cs ++ cs2) rd2.
Proof. induction 1; cbn [app]; auto. intros. econstructor; eauto. Qed.

(** What the loop does is a session over what the reader delivers. *)
Definition fin_of {A} (r : A + dec_error (C:=C) IoE) : ending (C:=C) IoE A :=
  match r with inl v => EndValue v | inr (DParse e) => EndParse e | inr (DIo pos e) => EndIo pos e end.

Lemma loop_session {S A} (p : parser C S A) (F : fwd p) (W : forall t, width C t = 1) : forall fl d rd r d' rd',
  buf_ok (dbuf d) ->
  decode_loop rd_read grow fl p d rd = Done (r, d', rd') ->
  buf_ok (dbuf d') /\
  exists cs used rd1, delivers rd_read read_size rd cs rd1 /\
    session p (dstate d) (dpos d) (bbytes (dbuf d)) (deoi d) cs used (fin_of r) (dstate d') (dpos d') (bbytes (dbuf d')) (deoi d') /\
    match r with
    | inr (DIo _ e) => exists n, 1 <= n <= read_size /\ rd_read rd1 n = (inr e, rd')
    | _ => rd' = rd1
    end.
Proof.
  induction fl as [|fl IH]; intros d rd r d' rd' Hb H; [discriminate|]. cbn [decode_loop] in H. peel H. destruct x as [[res i'] st'].
  apply decode_run in Hx. destruct res as [[[v|] n]|e].
  - destruct Hx as [Hv Hn]. peel H. apply (advance_ok _ _ _ Hb) in Hx. destruct Hx as [Hb' Hs]. injection H as <- <- <-. cbn [dbuf dstate dpos deoi].
    split; auto. exists []. destruct (fwd_parse_with_state _ F _ _ _ _ _ Hv) as [l Hl]. exists l, rd. split; [constructor|]. split; [|auto].
    pose proof (drops_slice W _ _ (ex_intro _ l Hl)) as Hd. rewrite <- Hn in Hd. cbn [rest] in Hd. destruct Hd as [Hd _]. rewrite Hs, Hd.
    destruct Hl as [L1 [L2 L3]]. cbn [rest ipos ipart] in *. rewrite L2. constructor; auto. unfold call_value. rewrite Hv, <- L2, <- L3. destruct i'; reflexivity.
  - destruct Hx as [e [Hv [He [Hp Hn]]]]. peel H. apply (advance_ok _ _ _ Hb) in Hx. destruct Hx as [Hb' Hs].
    destruct (fwd_parse_with_state _ F _ _ _ _ _ Hv) as [l Hl].
    pose proof (drops_slice W _ _ (ex_intro _ l Hl)) as Hd. rewrite <- Hn in Hd. cbn [rest] in Hd. destruct Hd as [Hd _]. rewrite Hd in Hs. clear Hd.
    destruct Hl as [L1 [L2 L3]]. cbn [rest ipos ipart] in *. rewrite Hp in L3. destruct (deoi d) eqn:Heof; [discriminate|].
    assert (HC : call_error p (bbytes (dbuf d)) (dpos d) true (dstate d) e (rest i') (pos_after (dpos d) l) st').
    { unfold call_error. cbn [negb] in Hv. rewrite Hv, <- L2, <- Hp. destruct i'; reflexivity. }
    peel H. unfold before_parse in Hx. peel Hx. destruct x1 as [[rr b'] rd2]. cbn [dbuf] in Hx0.
    destruct (extend_ok _ _ _ _ _ Hb' Hx0) as [Hb2 [room [Hroom Hr]]].
    destruct rr as [k|ioe]; injection Hx as <-; cbn [dpos dstate dbuf deoi] in *.
    + destruct Hr as [bs [R1 [R2 [R3 R4]]]].
      apply IH in H; [|exact Hb2]. destruct H as [Hb3 [cs [used [rd1 [D1 [D2 D3]]]]]]. cbn [dpos dstate dbuf deoi] in *. split; auto.
      exists (bs :: cs), (l ++ used), rd1. split; [econstructor; eauto|]. split; [|auto]. rewrite R4, Hs, L2 in D2. subst k.
      destruct bs as [|t bs]; cbn [length] in D2.
      * cbn [Nat.eqb] in D2. rewrite app_nil_r in D2. eapply ses_eof; eauto.
      * cbn [Nat.eqb] in D2. eapply ses_read; eauto. discriminate.
    + destruct Hr as [R1 R2]. injection H as <- <- <-. cbn [dpos dstate dbuf deoi fin_of] in *. split; auto. exists [], l, rd.
      split; [constructor|]. split; [|eauto]. rewrite R2, Hs, L2. eapply ses_io; eauto.
  - destruct Hx as [Hv He]. injection H as <- <- <-. cbn [dpos dstate dbuf deoi fin_of] in *. split; auto. exists [], [], rd.
    split; [constructor|]. split; [|auto]. destruct (fwd_parse_with_state _ F _ _ _ _ _ Hv) as [l [L1 [L2 L3]]]. cbn [rest ipos ipart] in *.
    eapply ses_error with (b' := rest i').
    + unfold call_error. rewrite Hv, <- L3. destruct i'; reflexivity.
    + rewrite L3 in He. destruct (deoi d); auto. destruct He as [He|He]; [auto|discriminate].
Qed.

(** No panic. *)
Lemma loop_no_panic {S A} (p : parser C S A) (F : fwd p) (W : forall t, width C t = 1)
  (HR : forall rd n bs rd', rd_read rd n = (inl bs, rd') -> length bs <= n) (NP : forall i st, p_run p false i st <> Panic) :
  forall fl d rd, buf_ok (dbuf d) -> decode_loop rd_read grow fl p d rd <> Panic.
Proof.
  induction fl as [|fl IH]; intros d rd Hb; [discriminate|]. cbn [decode_loop].
  set (i := Inp (bbytes (dbuf d)) (dpos d) (negb (deoi d))). destruct (decode p i (dstate d)) as [[[res i'] st']| |] eqn:HD; cbn [obind]; [|exfalso|discriminate].
  2:{ unfold decode, parse_with_state, parse_stream_partial in HD. destruct (p_run p false i (dstate d)) as [[[? ?] ?]| |] eqn:HP; cbn in HD; try discriminate. exact (NP _ _ HP). }
  apply decode_run in HD. destruct res as [[o n]|e]; [|discriminate].
  assert (Hn : n <= length (bbytes (dbuf d)) /\ True).
  { destruct o as [v|].
    - destruct HD as [Hv ->]. destruct (drops_slice W _ _ (fwd_parse_with_state _ F _ _ _ _ _ Hv)) as [_ Hd]. cbn [rest i] in *. unfold i in *. cbn [rest] in *. split; [lia|auto].
    - destruct HD as [e [Hv [_ [_ ->]]]]. destruct (drops_slice W _ _ (fwd_parse_with_state _ F _ _ _ _ _ Hv)) as [_ Hd]. unfold i in *. cbn [rest] in *. split; [lia|auto]. }
  unfold b_advance. destruct Hn as [Hn _]. pose proof (proj2 (Nat.leb_le _ _) Hn) as Hl. rewrite Hl. cbn [obind]. destruct o as [v|]; [discriminate|].
  unfold before_parse. cbn [dbuf dpos dstate deoi]. set (b := Buf (skipn n (bbytes (dbuf d))) (bcap (dbuf d) - n)).
  assert (Hb' : buf_ok b). { unfold b, buf_ok in *. cbn [bbytes bcap]. rewrite skipn_length. lia. }
  destruct (extend_buf_sync rd_read grow b rd) as [[[rr b'] rd2]| |] eqn:HE; cbn [omap obind].
  - destruct (extend_ok _ _ _ _ _ Hb' HE) as [Hb2 _]. destruct rr as [k|e]; [apply IH; auto|discriminate].
  - exfalso. exact (proj1 (extend_not_panic b rd HR) HE).
  - discriminate.
Qed.

(** Termination: a bounded number of rounds if the parser terminates and the reader ends. *)
Inductive ends : Rd -> nat -> Prop :=
| ends_at : forall rd k, (forall n, 1 <= n -> exists rd', rd_read rd n = (inl [], rd') \/ exists e, rd_read rd n = (inr e, rd')) -> ends rd k
| ends_later : forall rd k, (forall n r rd', 1 <= n -> rd_read rd n = (inl r, rd') -> ends rd' k) -> ends rd (S k).

Lemma loop_terminates {ST A} (p : parser C ST A) (F : fwd p) (W : forall t, width C t = 1)
  (NO : forall i st, p_run p false i st <> OOF) :
  forall k rd, ends rd k -> forall d, buf_ok (dbuf d) -> decode_loop rd_read grow (k + 2) p d rd <> OOF.
Proof.
  assert (base : forall fl d rd, decode_loop rd_read grow (S fl) p d rd = OOF -> exists (d1 d2 : dec (C:=C) ST) rd2 r,
     extend_buf_sync rd_read grow (dbuf d1) rd = Done (inl r, dbuf d2, rd2) /\ (buf_ok (dbuf d) -> buf_ok (dbuf d1)) /\ deoi d = false /\
     deoi d2 = (if r =? 0 then true else false) /\ decode_loop rd_read grow fl p d2 rd2 = OOF).
  { intros fl d rd. cbn [decode_loop].
    set (i := Inp (bbytes (dbuf d)) (dpos d) (negb (deoi d))). destruct (decode p i (dstate d)) as [[[res i'] st']| |] eqn:HD; cbn [obind]; [|discriminate|exfalso].
    2:{ unfold decode, parse_with_state, parse_stream_partial in HD. destruct (p_run p false i (dstate d)) as [[[? ?] ?]| |] eqn:HP; cbn in HD; try discriminate. exact (NO _ _ HP). }
    apply decode_run in HD. destruct res as [[o n]|e]; [|discriminate]. destruct (b_advance n (dbuf d)) as [b| |] eqn:HB; cbn [obind]; [|discriminate|unfold b_advance in HB; destruct (_ <=? _); discriminate].
    destruct o as [v|]; [discriminate|]. destruct HD as [e [Hv [_ [Hp _]]]]. destruct (fwd_parse_with_state _ F _ _ _ _ _ Hv) as [l [_ [_ L3]]]. unfold i in L3. cbn [ipart] in L3. rewrite Hp in L3.
    destruct (deoi d) eqn:Heof; [discriminate|].
    unfold before_parse. cbn [dbuf dpos dstate deoi]. destruct (extend_buf_sync rd_read grow b rd) as [[[rr b'] rd2]| |] eqn:HE; cbn [omap obind]; [|discriminate|].
    2:{ unfold extend_buf_sync in HE. match type of HE with context[rd_read rd ?n] => destruct (rd_read rd n) as [[bs|?] ?] end; [destruct (_ <=? _)|]; discriminate. }
    destruct rr as [k|e']; [|discriminate]. intros H.
    exists (Dec (ipos i') st' b false), (Dec (ipos i') st' b' (if k =? 0 then true else false)), rd2, k. cbn [dbuf deoi] in *. split; auto. split; [|auto].
    intros Hb. exact (proj1 (advance_ok _ _ _ Hb HB)). }
  assert (last : forall fl d rd, deoi d = true -> decode_loop rd_read grow (S fl) p d rd <> OOF).
  { intros fl d rd Hd H. apply base in H. destruct H as (? & ? & ? & ? & _ & _ & H & _). congruence. }
  induction 1 as [rd k He|rd k He IH]; intros d Hb H; rewrite Nat.add_comm in H; cbn [Nat.add] in H; apply base in H;
    destruct H as (d1 & d2 & rd2 & r & H1 & H2 & _ & H3 & H4); destruct (extend_ok _ _ _ _ _ (H2 Hb) H1) as [Hb2 [room [Hroom [bs [R1 [_ [R3 _]]]]]]].
  - destruct (He room (proj1 Hroom)) as [rd' [Hr|[e Hr]]]; rewrite Hr in R1; inversion R1; subst. cbn in H3. exact (last _ _ _ H3 H4).
  - refine (IH room bs rd2 (proj1 Hroom) R1 d2 Hb2 _). rewrite Nat.add_comm. exact H4.
Qed.

(** * [BufReader] *)
Definition br_ok (r : bufreader (C:=C) Rd) : Prop := buf_ok (br_buf r).

Lemma br_extend_ok r x r' : br_ok r -> br_extend rd_read grow r = Done (x, r') ->
  br_ok r' /\ exists room, 1 <= room <= read_size /\
    match x with
    | inl n => exists bs, rd_read (br_inner r) room = (inl bs, br_inner r') /\ length bs <= room /\ n = length bs /\ bbytes (br_buf r') = bbytes (br_buf r) ++ bs
    | inr e => rd_read (br_inner r) room = (inr e, br_inner r') /\ bbytes (br_buf r') = bbytes (br_buf r)
    end.
Proof.
  intros Hb H. unfold br_extend in H. peel H. destruct x0 as [[y b] rd]. injection H as <- <-. exact (extend_ok _ _ _ _ _ Hb Hx).
Qed.

Lemma br_consume_ok n r r' : br_ok r -> br_consume n r = Done r' ->
  br_ok r' /\ br_inner r' = br_inner r /\ bbytes (br_buf r) = firstn n (bbytes (br_buf r)) ++ bbytes (br_buf r').
Proof.
  intros Hb H. unfold br_consume in H. peel H. injection H as <-. apply (advance_ok _ _ _ Hb) in Hx. destruct Hx as [H1 H2]. split; auto. split; auto.
  cbn [br_buf]. rewrite H2. symmetry. apply firstn_skipn.
Qed.

Lemma br_fill_ok r x r' : br_ok r -> br_fill_buf rd_read grow r = Done (x, r') ->
  br_ok r' /\
  match bbytes (br_buf r) with
  | [] => exists room, 1 <= room <= read_size /\
      match x with
      | inl l => rd_read (br_inner r) room = (inl l, br_inner r') /\ length l <= room /\ bbytes (br_buf r') = l
      | inr e => rd_read (br_inner r) room = (inr e, br_inner r') /\ bbytes (br_buf r') = []
      end
  | l => x = inl l /\ r' = r
  end.
Proof.
  intros Hb H. unfold br_fill_buf in H. destruct (bbytes (br_buf r)) as [|t l] eqn:HL.
  - peel H. destruct x0 as [[n|e] r2]; injection H as <- <-; apply (br_extend_ok _ _ _ Hb) in Hx; destruct Hx as [H1 [room [H2 H3]]]; split; auto; exists room; split; auto.
    + destruct H3 as [bs [R1 [R2 [R3 R4]]]]. rewrite HL in R4. cbn [app] in R4. rewrite R4. auto.
    + destruct H3 as [R1 R2]. rewrite HL in R2. auto.
  - injection H as <- <-. auto.
Qed.

Lemma br_read_ok n r x r' : br_ok r -> br_read rd_read grow n r = Done (x, r') ->
  br_ok r' /\
  match x with
  | inl got => length got <= n /\ exists l, got = firstn n l /\ l = got ++ bbytes (br_buf r') /\
      (bbytes (br_buf r) = l /\ l <> [] /\ br_inner r' = br_inner r \/
       bbytes (br_buf r) = [] /\ exists room, 1 <= room <= read_size /\ rd_read (br_inner r) room = (inl l, br_inner r') /\ length l <= room)
  | inr e => bbytes (br_buf r) = [] /\ bbytes (br_buf r') = [] /\ exists room, 1 <= room <= read_size /\ rd_read (br_inner r) room = (inr e, br_inner r')
  end.
Proof.
  intros Hb H. unfold br_read in H. peel H. destruct x0 as [[rem|e] r2]; apply (br_fill_ok _ _ _ Hb) in Hx; destruct Hx as [H1 H2].
  - peel H. apply (br_consume_ok _ _ _ H1) in Hx. destruct Hx as [H3 [H4 H5]]. injection H as <- <-. split; auto. split; [rewrite firstn_length; lia|].
    exists rem. split; auto. rewrite firstn_length in H5.
    assert (HE : bbytes (br_buf r2) = rem).
    { destruct (bbytes (br_buf r)) eqn:HL; [destruct H2 as [room [_ [_ [_ H2]]]]; auto|]. destruct H2 as [H2 ->]. injection H2 as ->. auto. }
    rewrite HE in H5. split.
    + rewrite H5 at 1. f_equal. destruct (Nat.le_ge_cases n (length rem)); [rewrite Nat.min_l by auto; auto|]. rewrite Nat.min_r by auto. rewrite firstn_all, firstn_all2 by auto. auto.
    + destruct (bbytes (br_buf r)) eqn:HL.
      * right. split; auto. destruct H2 as [room [A1 [A2 [A3 _]]]]. exists room. rewrite H4. auto.
      * left. destruct H2 as [H2 ->]. injection H2 as ->. split; auto. split; [discriminate|auto].
  - injection H as <- <-. split; auto. destruct (bbytes (br_buf r)) eqn:HL; [|destruct H2; discriminate].
    destruct H2 as [room [A1 [A2 A3]]]. split; auto. split; auto. exists room. auto.
Qed.

End DecodeP.
