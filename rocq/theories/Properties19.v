(** Property C68: asynchronous decoding, and decoding that is interrupted. *)
From Coq Require Import String List Bool Arith NArith Lia.
Import ListNotations.
From Verif Require Import Base Errors Instances Parser Token Combinator Sequence Choice Repeat RangeP ByteP Spec LibSpec AgreeSpec TidySpec DecodeM DecodeSpec AsyncM AsyncSpec.
From Verif Require Import RangeSpec LawsProofs LawsProofs2 AgreeProofs TidyProofs ForwardProofs ChunkSpec ChunkProofs7 DecodeProofs AsyncProofs AsyncProofs2 Properties1 Properties3 Properties4 Properties7 Properties8.
Unset Implicit Arguments.

(** A future of [decode_futures_03!] or [decode_tokio!] polled to its end is a [decode!] session over the data that came
    out of the reader, whatever the polls that found it not ready: nothing but the data matters. *)
Theorem C68_steady : forall C S A (p : parser C S A), lib p -> (forall t, width C t = 1) ->
  forall Rd IoE (poll_read : Rd -> nat -> poll (list (tok C) + IoE) * Rd) grow, (forall len add, len + add <= grow len add) ->
  forall fl d rd r d' rd', buf_ok (dbuf d) -> driven poll_read grow true fl p false d rd r d' rd' ->
  buf_ok (dbuf d') /\
  exists cs used rd1, yields poll_read true rd cs rd1 /\
    session p (dstate d) (dpos d) (bbytes (dbuf d)) (deoi d) cs used (fin_of IoE r) (dstate d') (dpos d') (bbytes (dbuf d')) (deoi d') /\
    match r with
    | inr (DIo _ e) => exists n, 1 <= n /\ poll_read rd1 n = (Ready (inr e), rd')
    | _ => rd' = rd1
    end.
Proof. intros C S A p L W Rd IoE poll_read grow G. exact (steady_session Rd IoE poll_read grow G p (lib_fwd _ _ _ L) W). Qed.
Print Assumptions C68_steady.

(** With futures dropped half way and calls repeated after I/O errors it is an interrupted session: no data is lost, and
    what the parser sees besides the data is that it is called again on what it left. *)
Theorem C68_session : forall C S A (p : parser C S A), lib p -> (forall t, width C t = 1) ->
  forall Rd IoE (poll_read : Rd -> nat -> poll (list (tok C) + IoE) * Rd) grow, (forall len add, len + add <= grow len add) ->
  forall steady fl d rd r d' rd', buf_ok (dbuf d) -> driven poll_read grow steady fl p false d rd r d' rd' ->
  buf_ok (dbuf d') /\
  exists cs used rd1, yields poll_read steady rd cs rd1 /\
    isession p (dstate d) (dpos d) (bbytes (dbuf d)) (deoi d) cs used (fin_of IoE r) (dstate d') (dpos d') (bbytes (dbuf d')) (deoi d') /\
    match r with
    | inr (DIo _ e) => exists n, 1 <= n /\ poll_read rd1 n = (Ready (inr e), rd')
    | _ => rd' = rd1
    end.
Proof. intros C S A p L W Rd IoE poll_read grow G. exact (driven_session Rd IoE poll_read grow G p (lib_fwd _ _ _ L) W). Qed.
Print Assumptions C68_session.

(** The same for [decode!], called again after each I/O error. *)
Theorem C68_retry : forall C S A (p : parser C S A), lib p -> (forall t, width C t = 1) ->
  forall Rd IoE (rd_read : Rd -> nat -> (list (tok C) + IoE) * Rd) grow, (forall len add, len + add <= grow len add) ->
  forall fl d rd r d' rd', retried rd_read grow fl p d rd r d' rd' -> buf_ok (dbuf d) ->
  buf_ok (dbuf d') /\
  exists cs used rd1, gives rd_read read_size rd cs rd1 /\
    isession p (dstate d) (dpos d) (bbytes (dbuf d)) (deoi d) cs used (fin_of IoE r) (dstate d') (dpos d') (bbytes (dbuf d')) (deoi d') /\
    match r with
    | inr (DIo _ e) => exists n, 1 <= n <= read_size /\ rd_read rd1 n = (inr e, rd')
    | _ => rd' = rd1
    end.
Proof. intros C S A p L W Rd IoE rd_read grow G. exact (retried_session Rd IoE rd_read grow G p (lib_fwd _ _ _ L) W). Qed.
Print Assumptions C68_retry.

(** In an interrupted session nothing is lost, duplicated or reordered; the position is that after what was used up; the
    end of the data is seen once, at the end. *)
Theorem C68_conserves : forall C S A (p : parser C S A) IoE st pos b eof cs used fin st' pos' b' eof',
  isession (IoE:=IoE) p st pos b eof cs used fin st' pos' b' eof' ->
  b ++ concat cs = used ++ b' /\
  match fin with EndParse _ => True | _ => pos' = pos_after pos used end /\
  (if eof then cs = [] /\ eof' = true
   else if eof' then exists cs', cs = cs' ++ [[]] /\ Forall (fun c => c <> []) cs' else Forall (fun c => c <> []) cs).
Proof. intros. split; [eapply isession_conserves|split; [eapply isession_pos|eapply isession_chunks]]; eauto. Qed.
Print Assumptions C68_conserves.

(** For the parsers of C29's class interruptions have no influence on the answer either: an interrupted session gives what
    parsing the whole text at once gives. *)
Theorem C68_whole : forall C, eoi_laws C -> lawful C -> pos_distinct C ->
  forall x a n h S A (p : parser C S A), chunkable x a n h (fun _ : unit => p) ->
  forall IoE st pos b cs used (fin : ending (C:=C) IoE A) st' pos' b' eof eof', iready IoE p st eof -> isession p st pos b eof cs used fin st' pos' b' eof' ->
  forall more, (eof' = true -> more = []) -> whole_answer p pos (b ++ concat cs) fin b' more.
Proof. intros C EL L D x a n h S A p H IoE. exact (isession_whole EL L D x a n h p IoE H). Qed.
Print Assumptions C68_whole.

(** From an answer about [fresh] to the entry point [parse]. *)
Lemma whole_parse {C IoE S A} (p : parser C S A) pos w r b' more : lib p -> whole_answer (IoE:=IoE) p pos w (fin_of IoE r) b' more ->
  forall res i, parse p (Inp (w ++ more) pos false) = Done (res, i) ->
  match r with
  | inl v => res = inl v /\ rest i = b' ++ more
  | inr (DParse _) => exists e, res = inr e
  | inr (DIo _ _) => True
  end.
Proof.
  intros HL K res i HP. unfold whole_answer in K. destruct (lib_agree _ _ p HL) as [_ _ AG]. unfold stream_agrees in AG. specialize (AG (Inp (w ++ more) pos false)).
  unfold parse in HP. destruct (p_stream p _) as [[r2 i2]| |]; try discriminate. destruct (fresh p _) as [[r3 i3]| |]; try contradiction.
  destruct AG as [A1 [A2 A3]]. specialize (K _ _ eq_refl). inversion HP; subst res i. cbn [fst snd]. destruct r as [v|[q e|e]]; cbn [fin_of] in K; auto.
  - destruct K as [u [_ [K1 K2]]]. assert (K3 : is_ok r3 = true) by (rewrite K2; destruct (consumed_some u); reflexivity).
    destruct (A2 K3) as [A4 A5]. subst r2 i2 i3. split; [rewrite K2; destruct (consumed_some u); reflexivity|reflexivity].
  - assert (K1 : is_ok r2 = false) by (destruct r2, r3; try discriminate; reflexivity). destruct r2; try discriminate; cbn; eauto.
Qed.

(** Cancel safety: however the future is polled, dropped, restarted, retried: the message is the one [parse] reads from
    everything that came out of the reader, and what follows it is in the buffer. *)
Theorem C68_cancel_safe : forall C, eoi_laws C -> lawful C -> pos_distinct C -> (forall t, width C t = 1) ->
  forall x a n h S A (p : parser C S A), chunkable x a n h (fun _ : unit => p) -> lib p ->
  forall Rd IoE (poll_read : Rd -> nat -> poll (list (tok C) + IoE) * Rd) grow, (forall len add, len + add <= grow len add) ->
  forall steady fl d rd r d' rd', buf_ok (dbuf d) -> iready IoE p (dstate d) (deoi d) -> driven poll_read grow steady fl p false d rd r d' rd' ->
  exists cs rd1, yields poll_read steady rd cs rd1 /\ (match r with inr (DIo _ _) => True | _ => rd' = rd1 end) /\
  (match r with inl _ => iready IoE p (dstate d') (deoi d') | _ => True end) /\
  forall more, (deoi d' = true -> more = []) -> forall res i, parse p (Inp ((bbytes (dbuf d) ++ concat cs) ++ more) (dpos d) false) = Done (res, i) ->
  match r with
  | inl v => res = inl v /\ rest i = bbytes (dbuf d') ++ more
  | inr (DParse _) => exists e, res = inr e
  | inr (DIo _ _) => True
  end.
Proof.
  intros C EL L D W x a n h S A p HC HL Rd IoE poll_read grow G steady fl d rd r d' rd' HB HR HD.
  destruct (C68_session C S A p HL W Rd IoE poll_read grow G steady fl d rd r d' rd' HB HD) as [_ [cs [used [rd1 [H1 [H2 H3]]]]]].
  exists cs, rd1. split; [exact H1|]. split; [destruct r as [v|[q e|e]]; auto|]. split; [destruct r as [v|]; [eapply iready_next; eauto|exact I]|].
  intros more HM res i HP. eapply whole_parse; [exact HL| |exact HP].
  exact (C68_whole C EL L D x a n h S A p HC IoE _ _ _ _ _ _ _ _ _ _ _ HR H2 more HM).
Qed.
Print Assumptions C68_cancel_safe.

(** [decode!] called again after each I/O error, the same. *)
Theorem C68_retry_safe : forall C, eoi_laws C -> lawful C -> pos_distinct C -> (forall t, width C t = 1) ->
  forall x a n h S A (p : parser C S A), chunkable x a n h (fun _ : unit => p) -> lib p ->
  forall Rd IoE (rd_read : Rd -> nat -> (list (tok C) + IoE) * Rd) grow, (forall len add, len + add <= grow len add) ->
  forall fl d rd r d' rd', buf_ok (dbuf d) -> iready IoE p (dstate d) (deoi d) -> retried rd_read grow fl p d rd r d' rd' ->
  exists cs rd1, gives rd_read read_size rd cs rd1 /\ (match r with inr (DIo _ _) => True | _ => rd' = rd1 end) /\
  (match r with inl _ => iready IoE p (dstate d') (deoi d') | _ => True end) /\
  forall more, (deoi d' = true -> more = []) -> forall res i, parse p (Inp ((bbytes (dbuf d) ++ concat cs) ++ more) (dpos d) false) = Done (res, i) ->
  match r with
  | inl v => res = inl v /\ rest i = bbytes (dbuf d') ++ more
  | inr (DParse _) => exists e, res = inr e
  | inr (DIo _ _) => True
  end.
Proof.
  intros C EL L D W x a n h S A p HC HL Rd IoE rd_read grow G fl d rd r d' rd' HB HR HD.
  destruct (C68_retry C S A p HL W Rd IoE rd_read grow G fl d rd r d' rd' HD HB) as [_ [cs [used [rd1 [H1 [H2 H3]]]]]].
  exists cs, rd1. split; [exact H1|]. split; [destruct r as [v|[q e|e]]; auto|]. split; [destruct r as [v|]; [eapply iready_next; eauto|exact I]|].
  intros more HM res i HP. eapply whole_parse; [exact HL| |exact HP].
  exact (C68_whole C EL L D x a n h S A p HC IoE _ _ _ _ _ _ _ _ _ _ _ HR H2 more HM).
Qed.
Print Assumptions C68_retry_safe.

(** No poll panics, and every poll ends: two rounds more than the reader has non-empty reads ready. *)
Theorem C68_no_panic : forall C S A (p : parser C S A), lib p -> (forall t, width C t = 1) ->
  forall Rd IoE (poll_read : Rd -> nat -> poll (list (tok C) + IoE) * Rd) grow, (forall len add, len + add <= grow len add) ->
  (forall rd n bs rd', poll_read rd n = (Ready (inl bs), rd') -> length bs <= n) -> (forall i st, p_run p false i st <> Panic) ->
  forall fl w d rd, buf_ok (dbuf d) -> poll_decode poll_read grow fl w p d rd <> Panic.
Proof. intros C S A p L W Rd IoE poll_read grow G HR NP. exact (poll_no_panic Rd IoE poll_read grow G p (lib_fwd _ _ _ L) W HR NP). Qed.
Print Assumptions C68_no_panic.
Theorem C68_terminates : forall C S A (p : parser C S A), lib p -> (forall t, width C t = 1) ->
  forall Rd IoE (poll_read : Rd -> nat -> poll (list (tok C) + IoE) * Rd) grow, (forall len add, len + add <= grow len add) ->
  (forall i st, p_run p false i st <> OOF) ->
  forall k rd, settles Rd IoE poll_read rd k -> forall w d, buf_ok (dbuf d) -> poll_decode poll_read grow (k + 2) w p d rd <> OOF.
Proof. intros C S A p L W Rd IoE poll_read grow G NO. exact (poll_terminates Rd IoE poll_read grow G p (lib_fwd _ _ _ L) W NO). Qed.
Print Assumptions C68_terminates.

(** * [AsyncRead], [AsyncBufRead] for [BufReader] *)
(** Any history of polls: a poll that finds the reader not ready, or fails, takes nothing; the bytes handed to the
    caller followed by the buffer are the old buffer followed by what came out of the reader. *)
Section ABufReader.
Context {C : Cfg} {Rd IoE : Type}.
Variable poll_read : Rd -> nat -> poll (list (tok C) + IoE) * Rd.
Variable grow : nat -> nat -> nat.
Definition abr_do (c : br_call) (r : bufreader (C:=C) Rd) : outcome (list (tok C) * bufreader (C:=C) Rd) :=
  match c with
  | KRead n => omap (fun x => (match fst x with Ready (inl bs) => bs | _ => [] end, snd x)) (abr_read poll_read grow n r)
  | KFill => omap (fun x => ([], snd x)) (abr_fill_buf poll_read grow r)
  | KConsume n => omap (fun r' => (firstn n (bbytes (br_buf r)), r')) (br_consume n r)
  | KExtend => omap (fun x => ([], snd x)) (abr_extend poll_read grow r)
  end.
Fixpoint abr_history (cs : list br_call) (r : bufreader (C:=C) Rd) : outcome (list (tok C) * bufreader (C:=C) Rd) :=
  match cs with
  | [] => Done ([], r)
  | c :: cs' => obind (abr_do c r) (fun x => omap (fun y => (fst x ++ fst y, snd y)) (abr_history cs' (snd x)))
  end.
End ABufReader.
Theorem C68_history : forall C Rd IoE (poll_read : Rd -> nat -> poll (list (tok C) + IoE) * Rd) grow, (forall len add, len + add <= grow len add) ->
  forall cs rd b taken rd' b' out, buf_ok b -> abr_history (alogging poll_read) grow cs (BR (rd, []) b) = Done (taken, BR (rd', out) b') ->
  buf_ok b' /\ bbytes b ++ out = taken ++ bbytes b'.
Proof.
  intros C Rd IoE poll_read grow G cs rd b taken rd' b' out.
  enough (HG : forall cs rd b out0 taken rd' b' out, buf_ok b -> abr_history (alogging poll_read) grow cs (BR (rd, out0) b) = Done (taken, BR (rd', out) b') ->
    buf_ok b' /\ exists new, out = out0 ++ new /\ bbytes b ++ new = taken ++ bbytes b').
  { intros Hb H. apply HG in H; auto. destruct H as [H1 [new [-> H2]]]. auto. }
  clear cs rd b taken rd' b' out. induction cs as [|c cs IH]; intros rd b log0 taken rd' b' log Hb H; cbn [abr_history] in H.
  - injection H as <- <- <- <-. split; auto. exists []. rewrite !app_nil_r. auto.
  - destruct (abr_do (alogging poll_read) grow c (BR (rd, log0) b)) as [[t1 [[rd1 log1] b1]]| |] eqn:HD; cbn [obind] in H; try discriminate. cbn [fst snd] in H.
    destruct (abr_history (alogging poll_read) grow cs (BR (rd1, log1) b1)) as [[t2 [[rd2 log2] b2]]| |] eqn:HH; cbn [omap] in H; try discriminate. injection H as <- <- <- <-.
    assert (K : buf_ok b1 /\ exists new, log1 = log0 ++ new /\ bbytes b ++ new = t1 ++ bbytes b1).
    { clear HH IH. assert (LG : forall room x, alogging poll_read (rd, log0) room = (x, (rd1, log1)) -> log1 = log0 ++ match x with Ready (inl bs) => bs | _ => [] end).
      { intros room x H. unfold alogging in H. cbn [fst snd] in H. destruct (poll_read rd room). injection H as <- _ <-. auto. }
      destruct c as [n| |n|]; cbn [abr_do] in HD.
      - destruct (abr_read _ _ n _) as [[x r']| |] eqn:HR; cbn [omap] in HD; try discriminate. injection HD as <- ->.
        apply (abr_read_ok _ _ _ _ G) in HR; [|exact Hb]. destruct HR as [H1 H2]. split; [exact H1|]. cbn [fst br_buf br_inner] in *. destruct x as [|[got|e]].
        + destruct H2 as [H2 [H3 [room [_ H4]]]]. apply LG in H4. exists []. split; auto. rewrite H2, H3. reflexivity.
        + destruct H2 as [_ [l [_ [H2 [[H3 [_ H4]]|[H3 [room [_ [H4 _]]]]]]]]].
          * injection H4 as _ ->. exists []. rewrite !app_nil_r. split; [auto|]. congruence.
          * apply LG in H4. exists l. split; auto. rewrite H3. auto.
        + destruct H2 as [H2 [H3 [room [_ H4]]]]. apply LG in H4. exists []. split; auto. rewrite H2, H3. reflexivity.
      - destruct (abr_fill_buf _ _ _) as [[x r']| |] eqn:HR; cbn [omap] in HD; try discriminate. injection HD as <- ->.
        apply (abr_fill_ok _ _ _ _ G) in HR; [|exact Hb]. destruct HR as [H1 H2]. split; [exact H1|]. cbn [fst br_buf br_inner] in *. destruct (bbytes b) as [|t l] eqn:HL.
        + destruct H2 as [room [_ H2]]. destruct x as [|[l|e]]; [destruct H2 as [H2 H3]|destruct H2 as [H2 [_ H3]]|destruct H2 as [H2 H3]]; apply LG in H2; eexists; (split; [exact H2|]); rewrite H3; reflexivity.
        + destruct H2 as [_ H2]. injection H2 as <- <- <-. exists []. rewrite !app_nil_r. rewrite HL. auto.
      - destruct (br_consume n _) as [r'| |] eqn:HR; cbn [omap] in HD; try discriminate. injection HD as <- ->.
        unfold br_consume in HR. destruct (b_advance n _) as [b2'| |] eqn:HA; cbn [omap] in HR; try discriminate. injection HR as <- <- <-.
        apply adv_ok in HA; [|exact Hb]. destruct HA as [H1 H2]. split; [exact H1|]. exists []. rewrite !app_nil_r. split; [auto|]. cbn [br_buf] in *. rewrite H2. symmetry. apply firstn_skipn.
      - destruct (abr_extend _ _ _) as [[x r']| |] eqn:HR; cbn [omap] in HD; try discriminate. injection HD as <- ->.
        apply (abr_extend_ok _ _ _ _ G) in HR; [|exact Hb]. destruct HR as [H1 [room [_ H2]]]. split; [exact H1|]. cbn [br_buf br_inner] in *.
        destruct x as [|[k|e]]; [destruct H2 as [H2 H3]|destruct H2 as [bs [H2 [_ [_ H3]]]]|destruct H2 as [H2 H3]]; apply LG in H2; eexists; (split; [exact H2|]); rewrite H3, ?app_nil_r; auto. }
    destruct K as [K1 [n1 [-> K2]]]. apply IH in HH; auto. destruct HH as [L1 [n2 [-> L2]]]. split; auto. exists (n1 ++ n2). split; [rewrite app_assoc; auto|].
    rewrite app_assoc, K2, <- !app_assoc, L2. reflexivity.
Qed.
Print Assumptions C68_history.
(** [poll_read] reports the end of the data only when the buffer is empty and the inner reader just did. *)
Theorem C68_read_end : forall C Rd IoE (poll_read : Rd -> nat -> poll (list (tok C) + IoE) * Rd) grow, (forall len add, len + add <= grow len add) ->
  forall n rd b rd' b', buf_ok b -> 0 < n -> abr_read poll_read grow n (BR rd b) = Done (Ready (inl []), BR rd' b') ->
  bbytes b = [] /\ bbytes b' = [] /\ exists room, 1 <= room /\ poll_read rd room = (Ready (inl []), rd').
Proof.
  intros C Rd IoE poll_read grow G n rd b rd' b' Hb Hn H. apply (abr_read_ok _ _ _ _ G) in H; [|exact Hb]. destruct H as [_ [_ [l [H1 [H2 H3]]]]].
  destruct n as [|n]; [lia|]. destruct l; [|discriminate]. cbn [br_buf br_inner app] in *. destruct H3 as [[_ [H3 _]]|[H3 [room [H4 [H5 _]]]]]; [congruence|].
  split; auto. split; eauto.
Qed.
Print Assumptions C68_read_end.

(** * Cases *)
(** A reader given by what its polls answer: data, "not ready", an error. *)
Definition ev_read (rd : list (poll (list N + nat))) (n : nat) : poll (list N + nat) * list (poll (list N + nat)) :=
  match rd with
  | [] => (Ready (inl []), [])
  | Ready (inl c) :: r => if length c <=? n then (Ready (inl c), r) else (Ready (inl (firstn n c)), Ready (inl (skipn n c)) :: r)
  | x :: r => (x, r)
  end.
Definition dbc {S} (st : S) (b : list N) (cap : nat) : dec (C:=BC) S := @Dec BC S 0 st (@Buf BC b cap) false.
Definition data (s : string) : poll (list N + nat) := Ready (inl (t8 s)).
(** "1,22,ab_7;x": the future is dropped once, polled on twice, and the call repeated after an error; the message comes
    out, "x" stays in the buffer. *)
Definition c68_events := [data "1"; Pending; Pending; data ",2"; Ready (inr 5); data "2,a"; Pending; data "b_7"; Pending; data ";x"; data "y"].
Example C68_ex : exists d', driven (C:=BC) ev_read no_growth false 20 c29_msg false (dbc (p_init c29_msg) [] 0) c68_events (inl c29_value) d' [data "y"] /\
  bbytes (dbuf d') = t8 "x" /\ dpos d' = 10 /\ deoi d' = false /\
  yields (C:=BC) ev_read false c68_events [t8 "1"; t8 ",2"; t8 "2,a"; t8 "b_7"; t8 ";x"] [data "y"].
Proof.
  eexists. split.
  { eapply dv_drop; [reflexivity|vm_compute; reflexivity|]. eapply dv_poll; [vm_compute; reflexivity|]. eapply dv_retry; [reflexivity|vm_compute; reflexivity|].
    eapply dv_drop; [reflexivity|vm_compute; reflexivity|]. eapply dv_poll; [vm_compute; reflexivity|]. eapply dv_ready. vm_compute. reflexivity. }
  split; [reflexivity|]. split; [reflexivity|]. split; [reflexivity|].
  unfold c68_events.
  repeat first [apply (@yd_nil BC)
    |eapply (@yd_data BC _ _ ev_read false _ 64); [lia|reflexivity|cbn; lia|]
    |eapply (@yd_pending BC _ _ ev_read false _ 64); [lia|reflexivity|]
    |eapply (@yd_error BC _ _ ev_read false _ 64); [reflexivity|lia|reflexivity|]].
Qed.
(** The hypotheses of [C68_cancel_safe] for it. *)
Example C68_ex_hyps : iready nat c29_msg (dstate (dbc (p_init c29_msg) [] 0)) false /\ buf_ok (dbuf (dbc (p_init c29_msg) [] 0)) /\
  exists i, parse c29_msg (@Inp BC ((([] ++ concat [t8 "1"; t8 ",2"; t8 "2,a"; t8 "b_7"; t8 ";x"]) ++ t8 "y")) 0 false) = Done (inl c29_value, i) /\ rest i = t8 "xy".
Proof. split; [constructor|]. split; [repeat constructor|]. eexists. vm_compute. split; reflexivity. Qed.
(** The synchronous reader that is interrupted between every two reads. *)
Definition int_read (rd : list (list N + nat)) (n : nat) : (list N + nat) * list (list N + nat) :=
  match rd with
  | [] => (inl [], [])
  | inl c :: r => if length c <=? n then (inl c, r) else (inl (firstn n c), inl (skipn n c) :: r)
  | x :: r => (x, r)
  end.
Example C68_ex_retry : exists d', retried (C:=BC) int_read no_growth 20 c29_msg (dbc (p_init c29_msg) [] 0)
    [inr 4; inl (t8 "1,22"); inr 4; inr 4; inl (t8 ",ab_7"); inr 4; inl (t8 ";x")] (inl c29_value) d' [] /\ bbytes (dbuf d') = t8 "x".
Proof.
  eexists. split; [|shelve]. do 4 (eapply rt_again; [vm_compute; reflexivity|]). eapply rt_end. vm_compute. reflexivity. Unshelve. reflexivity.
Qed.
(** The end of the data in the middle of a message, after an interruption: the parse error [parse] gives. *)
Example C68_ex_end : exists d' e, driven (C:=BC) ev_read no_growth false 20 c29_msg false (dbc (p_init c29_msg) [] 0) [data "1,a"; Pending] (inr (DParse e)) d' [] /\
  deoi d' = true.
Proof. do 2 eexists. split; [|shelve]. eapply dv_drop; [reflexivity|vm_compute; reflexivity|]. eapply dv_ready. vm_compute. reflexivity. Unshelve. reflexivity. Qed.
Example C68_ex_reader : exists b',
  abr_history (C:=BC) (@alogging BC _ _ ev_read) no_growth [KExtend; KRead 2; KFill; KExtend; KConsume 1; KRead 9; KRead 9; KRead 9]
    (@BR BC _ ([Pending; data "abcd"; Pending; data "ef"; Ready (inr 3)], []) (@Buf BC [] 0)) =
    Done (t8 "abcdef", @BR BC _ ([], t8 "abcdef") b') /\ bbytes b' = [].
Proof. eexists. vm_compute. split; reflexivity. Qed.
