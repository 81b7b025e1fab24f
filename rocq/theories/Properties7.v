(** Properties C31, C32, C46, C51: decoding from a reader. *)
From Coq Require Import String List Bool Arith NArith Lia.
Import ListNotations.
From Verif Require Import Base Parser Errors Token Combinator Sequence Choice Repeat RangeP ByteP Instances Spec LibSpec ResultProofs
  TokenProofs SeqProofs CombProofs ForwardProofs TidySpec TidyProofs RepeatSpec RepeatProofs StreamM RefineProofs DecodeM DecodeSpec DecodeProofs.
Unset Implicit Arguments.

(** * C31 *)
(** What [decode] answers, given what the parser answered on a stream that may ([partial]) or may not be continued. *)
Definition classified {C A} (partial : bool) (x : A + Err C) (res : (option A * nat) + Err C) : Prop :=
  match x with
  | inl v => exists n, res = inl (Some v, n)
  | inr e => e_is_eoi C e = true /\ partial = true /\ (exists n, res = inl (None, n)) \/
             (e_is_eoi C e = false \/ partial = false) /\ res = inr e
  end.
Theorem C31_decode : forall C S A (p : parser C S A), lib p -> forall i st x i' st',
  parse_with_state p i st = Done (x, i', st') ->
  exists res, decode p i st = Done (res, i', st') /\ classified (ipart i) x res.
Proof.
  intros C S A p L i st x i' st' H. destruct (decode_total p _ _ _ _ _ H) as [res Hr]. exists res. split; auto.
  pose proof (decode_run p _ _ _ _ _ Hr) as HD. destruct (fwd_parse_with_state _ (lib_fwd _ _ _ L) _ _ _ _ _ H) as [l [_ [_ HP]]].
  destruct res as [[[v|] n]|e]; [destruct HD as [HD _]|destruct HD as [e [HD [H1 [H2 _]]]]|destruct HD as [HD H1]]; rewrite H in HD; injection HD as ->; cbn [classified].
  - eauto.
  - left. rewrite <- HP. eauto.
  - right. rewrite <- HP. auto.
Qed.
Print Assumptions C31_decode.
(** Only what the parser did is reported: [decode] does not panic or run out of fuel by itself. *)
Theorem C31_decode_done : forall C S A (p : parser C S A) i st res i' st',
  decode p i st = Done (res, i', st') -> exists x, parse_with_state p i st = Done (x, i', st').
Proof.
  intros C S A p i st res i' st' H. apply decode_run in H. destruct res as [[[v|] n]|e]; [destruct H as [H _]|destruct H as [e [H _]]|destruct H as [H _]]; eauto.
Qed.
Print Assumptions C31_decode_done.
(** The count is that of the units in front of the remaining input: elements of a slice ... *)
Theorem C31_count_slice : forall C S A (p : parser C S A), lib p -> (forall t, width C t = 1) -> forall i st o n i' st',
  decode p i st = Done (inl (o, n), i', st') -> drops (rest i) n (rest i').
Proof.
  intros C S A p L W i st o n i' st' H. apply decode_run in H. destruct o as [v|]; [destruct H as [H ->]|destruct H as [e [H [_ [_ ->]]]]];
    apply (drops_slice W); exact (fwd_parse_with_state _ (lib_fwd _ _ _ L) _ _ _ _ _ H).
Qed.
Print Assumptions C31_count_slice.
(** ... bytes of a string. *)
Theorem C31_count_str : forall C S A (p : parser C S A), lib p -> forall cp : tok C -> N, (forall t, width C t = len_utf8 (cp t)) -> forall i st o n i' st',
  decode p i st = Done (inl (o, n), i', st') -> drops (bytes_of cp (rest i)) n (bytes_of cp (rest i')).
Proof.
  intros C S A p L cp W i st o n i' st' H. apply decode_run in H. destruct o as [v|]; [destruct H as [H ->]|destruct H as [e [H [_ [_ ->]]]]];
    apply (drops_str cp W); exact (fwd_parse_with_state _ (lib_fwd _ _ _ L) _ _ _ _ _ H).
Qed.
Print Assumptions C31_count_str.
(** [decode_tokio] also answers [None] when there is no data at all. *)
Theorem C31_decode_tokio : forall C S A (p : parser C S A), lawful C -> lib p -> forall i st x i' st',
  parse_with_state p i st = Done (x, i', st') ->
  exists res, decode_tokio p i st = Done (res, i', st') /\
    classified (ipart i || match rest i with [] => true | _ => false end) x res.
Proof.
  intros C S A p LC L i st x i' st' H.
  assert (HT : exists res, decode_tokio p i st = Done (res, i', st')) by (unfold decode_tokio; rewrite H; cbn; eauto).
  destruct HT as [res Hr]. exists res. split; auto.
  pose proof (decode_tokio_run p _ _ _ _ _ Hr) as HD. destruct (fwd_parse_with_state _ (lib_fwd _ _ _ L) _ _ _ _ _ H) as [l Hl].
  pose proof (advanced_distance _ _ _ Hl) as Hdist. destruct Hl as [HR [_ HP]].
  assert (zero : range_len l = 0 -> l = []).
  { destruct l as [|t l]; auto. intros Hz. change (range_len (t :: l)) with (width C t + range_len l) in Hz. pose proof (law_width LC t). lia. }
  destruct res as [[[v|] n]|e]; [destruct HD as [HD _]|destruct HD as [e [HD [H1 [H2 H3]]]]|destruct HD as [HD H1]]; rewrite H in HD; injection HD as ->; cbn [classified].
  - eauto.
  - left. split; auto. split; [|eauto]. destruct H3 as [H3|[_ [H4 H5]]]; [rewrite <- HP, H3; auto|].
    rewrite Hdist, H5 in H2. symmetry in H2. apply zero in H2. subst l. cbn in HR. rewrite HR, H4. apply orb_true_r.
  - right. split; auto. destruct H1 as [H1|[H1 H2]]; [auto|]. right. rewrite <- HP, H1. cbn [orb].
    destruct (rest i) eqn:HE; auto. exfalso. destruct l; [|discriminate]. cbn in HR, Hdist. destruct H2 as [H2|H2]; [congruence|].
    unfold input_at_eof, uncons in H2. rewrite <- HR in H2. rewrite (law_eoi LC) in H2. discriminate.
Qed.
Print Assumptions C31_decode_tokio.
Theorem C31_tokio_count_slice : forall C S A (p : parser C S A), lib p -> (forall t, width C t = 1) -> forall i st o n i' st',
  decode_tokio p i st = Done (inl (o, n), i', st') -> drops (rest i) n (rest i').
Proof.
  intros C S A p L W i st o n i' st' H. apply decode_tokio_run in H. destruct o as [v|]; [destruct H as [H ->]|destruct H as [e [H [_ [-> _]]]]];
    apply (drops_slice W); exact (fwd_parse_with_state _ (lib_fwd _ _ _ L) _ _ _ _ _ H).
Qed.
Print Assumptions C31_tokio_count_slice.
Theorem C31_tokio_count_str : forall C S A (p : parser C S A), lib p -> forall cp : tok C -> N, (forall t, width C t = len_utf8 (cp t)) -> forall i st o n i' st',
  decode_tokio p i st = Done (inl (o, n), i', st') -> drops (bytes_of cp (rest i)) n (bytes_of cp (rest i')).
Proof.
  intros C S A p L cp W i st o n i' st' H. apply decode_tokio_run in H. destruct o as [v|]; [destruct H as [H ->]|destruct H as [e [H [_ [-> _]]]]];
    apply (drops_str cp W); exact (fwd_parse_with_state _ (lib_fwd _ _ _ L) _ _ _ _ _ H).
Qed.
Print Assumptions C31_tokio_count_str.

Definition DC : Cfg := cfg_easy bytes_tok 60 true.
Definition digits : parser DC _ (list N) := many1 (satisfy (C:=DC) (fun c => (48 <=? c) && (c <=? 57))%N).
Definition line : parser DC _ (list N) := skip digits (token (C:=DC) 59%N).
Definition dinp l pos part : input DC := @Inp DC l pos part.
Lemma line_lib : lib line.
Proof. apply lib_skip; [apply lib_many1, lib_satisfy|apply lib_token]. Qed.
(** "12;3" is done after three bytes; "12" wants more, two bytes can be dropped; at the end of the data "12" is an error;
    no data at all is [None] for [decode_tokio]. *)
Example C31_ex :
  (exists i' st', decode line (dinp [49; 50; 59; 51]%N 7 true) (p_init line) = Done (inl (Some [49; 50]%N, 3), i', st') /\ rest i' = [51]%N) /\
  (exists i' st', decode line (dinp [49; 50]%N 7 true) (p_init line) = Done (inl (None, 2), i', st') /\ rest i' = []) /\
  (exists e i' st', decode line (dinp [49; 50]%N 7 false) (p_init line) = Done (inr e, i', st')) /\
  (exists i' st', decode_tokio line (dinp [] 7 false) (p_init line) = Done (inl (None, 0), i', st')).
Proof. repeat split; repeat eexists. Qed.

(** * C32 *)
(** Whatever the reader does, a [decode!] call is a session over the chunks it delivers; it is asked for between one and
    8192 bytes each time.  [grow] is [BytesMut::reserve]. *)
Theorem C32_session : forall C S A (p : parser C S A), lib p -> (forall t, width C t = 1) ->
  forall Rd IoE (rd_read : Rd -> nat -> (list (tok C) + IoE) * Rd) grow, (forall len add, len + add <= grow len add) ->
  forall fl d rd r d' rd', buf_ok (dbuf d) -> decode_loop rd_read grow fl p d rd = Done (r, d', rd') ->
  buf_ok (dbuf d') /\
  exists cs used rd1, delivers rd_read read_size rd cs rd1 /\
    session p (dstate d) (dpos d) (bbytes (dbuf d)) (deoi d) cs used (fin_of IoE r) (dstate d') (dpos d') (bbytes (dbuf d')) (deoi d') /\
    match r with
    | inr (DIo _ e) => exists n, 1 <= n <= read_size /\ rd_read rd1 n = (inr e, rd')
    | _ => rd' = rd1
    end.
Proof. intros C S A p L W Rd IoE rd_read grow G. exact (loop_session Rd IoE rd_read grow G p (lib_fwd _ _ _ L) W). Qed.
Print Assumptions C32_session.
(** Nothing is lost, duplicated or reordered: the old buffer followed by what was read is what was used up followed by
    the new buffer, and the position is that after what was used up (unless parsing failed). *)
Theorem C32_conserves : forall C S A (p : parser C S A) IoE st pos b eof cs used fin st' pos' b' eof',
  session (IoE:=IoE) p st pos b eof cs used fin st' pos' b' eof' ->
  b ++ concat cs = used ++ b' /\ match fin with EndParse _ => True | _ => pos' = pos_after pos used end.
Proof. intros. split; [eapply session_conserves|eapply session_pos]; eauto. Qed.
Print Assumptions C32_conserves.
(** The end of the data is announced to the parser after an empty read only, and nothing is read after that. *)
Theorem C32_end : forall C S A (p : parser C S A) IoE st pos b eof cs used fin st' pos' b' eof',
  session (IoE:=IoE) p st pos b eof cs used fin st' pos' b' eof' ->
  if eof then cs = [] /\ eof' = true
  else if eof' then exists cs', cs = cs' ++ [[]] /\ Forall (fun c => c <> []) cs' else Forall (fun c => c <> []) cs.
Proof. exact (fun C S A p IoE => session_chunks IoE p). Qed.
Print Assumptions C32_end.
(** No panic in the loop, if the reader keeps to its contract and the parser does not panic. *)
Theorem C32_no_panic : forall C S A (p : parser C S A), lib p -> (forall t, width C t = 1) ->
  forall Rd IoE (rd_read : Rd -> nat -> (list (tok C) + IoE) * Rd) grow, (forall len add, len + add <= grow len add) ->
  (forall rd n bs rd', rd_read rd n = (inl bs, rd') -> length bs <= n) -> (forall i st, p_run p false i st <> Panic) ->
  forall fl d rd, buf_ok (dbuf d) -> decode_loop rd_read grow fl p d rd <> Panic.
Proof. intros C S A p L W Rd IoE rd_read grow G HR NP. exact (loop_no_panic Rd IoE rd_read grow G p (lib_fwd _ _ _ L) W HR NP). Qed.
Print Assumptions C32_no_panic.
(** The loop ends: two rounds more than the reader has non-empty reads in it. *)
Theorem C32_terminates : forall C S A (p : parser C S A), lib p -> (forall t, width C t = 1) ->
  forall Rd IoE (rd_read : Rd -> nat -> (list (tok C) + IoE) * Rd) grow, (forall len add, len + add <= grow len add) ->
  (forall i st, p_run p false i st <> OOF) ->
  forall k rd, ends Rd IoE rd_read rd k -> forall d, buf_ok (dbuf d) -> decode_loop rd_read grow (k + 2) p d rd <> OOF.
Proof. intros C S A p L W Rd IoE rd_read grow G NO. exact (loop_terminates Rd IoE rd_read grow G p (lib_fwd _ _ _ L) W NO). Qed.
Print Assumptions C32_terminates.
(** After a parse error the buffer is as before the failing call but the parser state and the position have moved on:
    calling [decode!] again parses the same bytes a second time, with the state that already contains them.  Here "1!"
    fails at "!"; the second call, with "1" already in the state, complains about the "1" in the buffer. *)
Definition chunk_read (rd : list (list N)) (n : nat) : (list N + nat) * list (list N) :=
  match rd with
  | [] => (inl [], [])
  | c :: r => if length c <=? n then (inl c, r) else (inl (firstn n c), skipn n c :: r)
  end.
Definition no_growth (len add : nat) : nat := len + add.
Definition dec_at (b : list N) (cap : nat) : dec (C:=DC) _ := @Dec DC _ 0 (p_init line) (@Buf DC b cap) false.
Definition run_line := decode_loop (C:=DC) chunk_read no_growth 9 line.
Theorem C32_error_state_refuted :
  exists d1 d2 e1 e2, run_line (dec_at [49; 33]%N 4) [] = Done (inr (DParse e1), d1, []) /\
    run_line d1 [] = Done (inr (DParse e2), d2, []) /\
    bbytes (dbuf d1) = [49; 33]%N /\ bbytes (dbuf d2) = [49; 33]%N /\ eposition e1 = 1 /\ dpos d1 = 2 /\ eposition e2 = 2 /\ e1 <> e2.
Proof.
  do 4 eexists. split; [vm_compute; reflexivity|]. split; [vm_compute; reflexivity|]. repeat (split; [vm_compute; reflexivity|]).
  vm_compute. intros H. inversion H.
Qed.
Print Assumptions C32_error_state_refuted.
(** "1" and "2;3" arrive in two reads: the message is "12", "3" stays in the buffer, "4" is not read. *)
Example C32_ex : exists d',
  run_line (dec_at [] 0) [[49]; [50; 59; 51]; [52]]%N = Done (inl [49; 50]%N, d', [[52]]%N) /\
  bbytes (dbuf d') = [51]%N /\ dpos d' = 3 /\ deoi d' = false /\
  delivers (C:=DC) chunk_read read_size [[49]; [50; 59; 51]; [52]]%N [[49]; [50; 59; 51]]%N [[52]]%N /\
  session (IoE:=nat) line (p_init line) 0 [] false [[49]; [50; 59; 51]]%N [49; 50; 59]%N (EndValue [49; 50]%N) (dstate d') 3 [51]%N false.
Proof.
  eexists. split; [vm_compute; reflexivity|]. split; [reflexivity|]. split; [reflexivity|]. split; [reflexivity|]. split.
  - apply (@dl_cons DC _ _ chunk_read read_size _ 10 _ [[50; 59; 51]; [52]]%N); [unfold read_size; lia|reflexivity|cbn; lia|].
    apply (@dl_cons DC _ _ chunk_read read_size _ 10 _ [[52]]%N); [unfold read_size; lia|reflexivity|cbn; lia|]. constructor.
  - eapply (@ses_read DC nat _ _ line _ _ _ [] _ _ [] _ _ [49; 50; 59]%N); [reflexivity|unfold call_error; vm_compute; reflexivity|reflexivity|discriminate|].
    eapply (@ses_read DC nat _ _ line _ _ _ [49]%N _ _ [] _ _ [50; 59]%N); [reflexivity|unfold call_error; vm_compute; reflexivity|reflexivity|discriminate|].
    apply (@ses_value DC nat _ _ line _ _ _ _ [50; 59]%N); [reflexivity|]. unfold call_value. vm_compute. reflexivity.
Qed.

(** * C46 *)
(** False for parsers on [read::Stream]: whatever the data, a read error after it ends [many(any())] successfully. *)
Theorem C46_many_refuted : forall T fl d l pos, length l < fl -> exists i',
  succeeds (C:=cfg_read T true fl d) (fresh (many any)) (Inp l pos false) (match l with [] => false | _ => true end) l i' /\
  rest i' = [] /\ e_from (cfg_read T true fl d) pos (se_eoi (cfg_read T true fl d)) = REIo.
Proof.
  intros T fl d l pos Hl. set (C := cfg_read T true fl d).
  assert (R : forall l pos, reps (succeeds (fresh (@any C))) (Inp (C:=C) l pos false) (match l with [] => false | _ => true end) l (Inp (C:=C) [] (pos_after (C:=C) pos l) false)).
  { clear. induction l as [|t l IH]; intros pos; [constructor|].
    refine (@reps_cons C _ (succeeds (fresh (@any C))) (Inp (C:=C) (t :: l) pos false) true t (Inp (C:=C) l (pos_step C pos t) false) _ l _ _ (IH _)). reflexivity. }
  exists (Inp (C:=C) [] (pos_after (C:=C) pos l) false). split; [|split; reflexivity]. 
  assert (HF : history_free false (@any C)) by (apply tidy_history_free; constructor).
  apply (many_ok (@any C) HF).
  split; [apply R|]. split; [|exact Hl]. eexists _, _, _. split; [reflexivity|]. split; reflexivity.
Qed.
Print Assumptions C46_many_refuted.
(** A parser followed by [eof] never succeeds on a failing reader. *)
Theorem C46_eof : forall C, se_is_eoi C (se_eoi C) = false -> forall S A (p : parser C S A) i c v i',
  ~ succeeds (fresh (skip p eof)) i c v i'.
Proof.
  intros C HF S A p i c v i' H. apply (proj1 (skip_runs p eof)) in H. destruct H as [c1 [a [i1 [c2 [x [_ [H _]]]]]]].
  unfold succeeds, fresh in H. cbn [p_run eof mk_lazy lazy_run p_init] in H. unfold lazy_run in H. destruct (uncons i1) as [[t|] j]; [|rewrite HF in H]; destruct c2; discriminate.
Qed.
Print Assumptions C46_eof.
(** The decoding loop reports them: an error of the reader ends the session with that error, and a session that ends with
    a value or a parse error saw none.  The log is the record of all reads. *)
Theorem C46_decoder : forall C S A (p : parser C S A), lib p -> (forall t, width C t = 1) ->
  forall Rd IoE (rd_read : Rd -> nat -> (list (tok C) + IoE) * Rd) grow, (forall len add, len + add <= grow len add) ->
  forall fl d rd r d' rd' log, buf_ok (dbuf d) -> decode_loop (logging rd_read) grow fl p d (rd, []) = Done (r, d', (rd', log)) ->
  match r with
  | inr (DIo pos e) => exists cs used, log = List.map inl cs ++ [inr e] /\ bbytes (dbuf d) ++ concat cs = used ++ bbytes (dbuf d') /\
      pos = pos_after (dpos d) used /\ dpos d' = pos
  | _ => exists cs, log = List.map inl cs
  end.
Proof.
  intros C S A p L W Rd IoE rd_read grow G fl d rd r d' rd' log Hb H.
  apply (C32_session C S A p L W _ _ (logging rd_read) grow G) in H; [|exact Hb]. destruct H as [_ [cs [used [[rd1 log1] [H1 [H2 H3]]]]]].
  assert (HL : forall x y, delivers (logging rd_read) read_size x cs y -> snd y = snd x ++ List.map inl cs).
  { clear. induction cs as [|c cs IH]; intros x y H; inversion H as [|? n ? x1 ? ? K1 K2 K3 K4]; subst; [cbn; rewrite app_nil_r; auto|].
    apply IH in K4. rewrite K4. cbn [List.map]. unfold logging in K2. destruct (rd_read (fst x) n) as [z rdz]. injection K2 as -> <-. cbn [snd]. rewrite <- app_assoc. reflexivity. }
  apply HL in H1. cbn [snd app] in H1. subst log1. destruct r as [v|[pos e|e]].
  - injection H3 as -> ->. eauto.
  - destruct H3 as [n [_ H3]]. unfold logging in H3. cbn [fst snd] in H3. destruct (rd_read rd1 n) as [z rdz]. injection H3 as -> <- <-.
    exists cs, used. split; auto. split; [eapply session_conserves; eauto|].
    assert (HP : dpos d' = pos_after (dpos d) used) by exact (session_pos _ _ _ _ _ _ _ _ _ _ _ _ _ H2).
    assert (HQ : pos = dpos d'). { clear -H2. remember (fin_of IoE (inr (DIo pos e))) as fin eqn:Hf. induction H2; auto; try discriminate. injection Hf as <- _. reflexivity. }
    rewrite HQ. auto.
  - injection H3 as -> ->. eauto.
Qed.
Print Assumptions C46_decoder.
(** A reader delivering "1" and then failing with error 5. *)
Definition bad_read (rd : nat) (n : nat) : (list N + nat) * nat := match rd with 0 => (inl [49]%N, 1) | _ => (inr 5, rd) end.
Example C46_ex :
  (exists d', decode_loop (C:=DC) (logging bad_read) no_growth 9 line (dec_at [] 0) (0, []) = Done (inr (@DIo DC nat 1 5), d', (1, [inl [49]%N; inr 5])) /\ dpos d' = 1) /\
  (exists e i', fresh (C:=cfg_read bytes_tok true 50 true) (skip (many any) eof) (@Inp (cfg_read bytes_tok true 50 true) [49; 50]%N 0 false) = Done (CommitErr e, i')) /\
  (exists i', fresh (C:=cfg_read bytes_tok false 50 true) (skip (many any) eof) (@Inp (cfg_read bytes_tok false 50 true) [49; 50]%N 0 false) = Done (CommitOk [49; 50]%N, i')).
Proof. split; [eexists; vm_compute; split; reflexivity|]. split; repeat eexists. Qed.

(** * C51 *)
(** Any history of calls on a [BufReader]; the bytes handed to the caller are those returned by [read] and those
    dropped by [consume]. *)
Section BufReader.
Context {C : Cfg} {Rd IoE : Type}.
Variable rd_read : Rd -> nat -> (list (tok C) + IoE) * Rd.
Variable grow : nat -> nat -> nat.
Definition br_do (c : br_call) (r : bufreader (C:=C) Rd) : outcome (list (tok C) * bufreader (C:=C) Rd) :=
  match c with
  | KRead n => omap (fun x => (match fst x with inl bs => bs | inr _ => [] end, snd x)) (br_read rd_read grow n r)
  | KFill => omap (fun x => ([], snd x)) (br_fill_buf rd_read grow r)
  | KConsume n => omap (fun r' => (firstn n (bbytes (br_buf r)), r')) (br_consume n r)
  | KExtend => omap (fun x => ([], snd x)) (br_extend rd_read grow r)
  end.
Fixpoint br_history (cs : list br_call) (r : bufreader (C:=C) Rd) : outcome (list (tok C) * bufreader (C:=C) Rd) :=
  match cs with
  | [] => Done ([], r)
  | c :: cs' => obind (br_do c r) (fun x => omap (fun y => (fst x ++ fst y, snd y)) (br_history cs' (snd x)))
  end.
End BufReader.
Theorem C51_history : forall C Rd IoE (rd_read : Rd -> nat -> (list (tok C) + IoE) * Rd) grow, (forall len add, len + add <= grow len add) ->
  forall cs rd b taken rd' b' log, buf_ok b -> br_history (logging rd_read) grow cs (BR (rd, []) b) = Done (taken, BR (rd', log) b') ->
  buf_ok b' /\ bbytes b ++ read_bytes log = taken ++ bbytes b'.
Proof.
  intros C Rd IoE rd_read grow G cs rd b taken rd' b' log.
  enough (HG : forall cs rd b log0 taken rd' b' log, buf_ok b -> br_history (logging rd_read) grow cs (BR (rd, log0) b) = Done (taken, BR (rd', log) b') ->
    buf_ok b' /\ exists new, log = log0 ++ new /\ bbytes b ++ read_bytes new = taken ++ bbytes b').
  { intros Hb H. apply HG in H; auto. destruct H as [H1 [new [-> H2]]]. auto. }
  clear cs rd b taken rd' b' log. induction cs as [|c cs IH]; intros rd b log0 taken rd' b' log Hb H; cbn [br_history] in H.
  - injection H as <- <- <- <-. split; auto. exists []. split; [rewrite app_nil_r; auto|]. cbn. rewrite app_nil_r. auto.
  - destruct (br_do (logging rd_read) grow c (BR (rd, log0) b)) as [[t1 [[rd1 log1] b1]]| |] eqn:HD; cbn [obind] in H; try discriminate. cbn [fst snd] in H.
    destruct (br_history (logging rd_read) grow cs (BR (rd1, log1) b1)) as [[t2 [[rd2 log2] b2]]| |] eqn:HH; cbn [omap] in H; try discriminate. injection H as <- <- <- <-.
    assert (K : buf_ok b1 /\ exists new, log1 = log0 ++ new /\ bbytes b ++ read_bytes new = t1 ++ bbytes b1).
    { clear HH IH. assert (LG : forall room x, logging rd_read (rd, log0) room = (x, (rd1, log1)) -> log1 = log0 ++ [x]).
      { intros room x H. unfold logging in H. cbn [fst snd] in H. destruct (rd_read rd room). injection H as <- _ <-. auto. }
      destruct c as [n| |n|]; cbn [br_do] in HD.
      - destruct (br_read _ _ n _) as [[x r']| |] eqn:HR; cbn [omap] in HD; try discriminate. injection HD as <- ->.
        apply (br_read_ok _ _ _ _ G) in HR; [|exact Hb]. destruct HR as [H1 H2]. split; [exact H1|]. cbn [fst br_buf br_inner] in *. destruct x as [got|e].
        + destruct H2 as [_ [l [_ [H2 [[H3 [_ H4]]|[H3 [room [_ [H4 _]]]]]]]]].
          * injection H4 as _ ->. exists []. split; [rewrite app_nil_r; auto|]. cbn. rewrite app_nil_r. congruence.
          * apply LG in H4. exists [inl l]. split; auto. rewrite H3. cbn. rewrite app_nil_r. auto.
        + destruct H2 as [H2 [H3 [room [_ H4]]]]. apply LG in H4. exists [inr e]. split; auto. rewrite H2, H3. reflexivity.
      - destruct (br_fill_buf _ _ _) as [[x r']| |] eqn:HR; cbn [omap] in HD; try discriminate. injection HD as <- ->.
        apply (br_fill_ok _ _ _ _ G) in HR; [|exact Hb]. destruct HR as [H1 H2]. split; [exact H1|]. cbn [fst br_buf br_inner] in *. destruct (bbytes b) as [|t l] eqn:HL.
        + destruct H2 as [room [_ H2]]. destruct x as [l|e]; [destruct H2 as [H2 [_ H3]]|destruct H2 as [H2 H3]]; apply LG in H2; eexists; (split; [exact H2|]); rewrite H3; cbn; rewrite ?app_nil_r; auto.
        + destruct H2 as [_ H2]. injection H2 as <- <- <-. exists []. split; [rewrite app_nil_r; auto|]. rewrite HL. cbn. rewrite app_nil_r. auto.
      - destruct (br_consume n _) as [r'| |] eqn:HR; cbn [omap] in HD; try discriminate. injection HD as <- ->.
        apply (br_consume_ok _ IoE (logging rd_read) grow G) in HR; [|exact Hb]. destruct HR as [H1 [H2 H3]]. split; [exact H1|]. cbn [br_buf br_inner] in *. injection H2 as _ ->. exists []. split; [rewrite app_nil_r; auto|].
        cbn. rewrite app_nil_r. auto.
      - destruct (br_extend _ _ _) as [[x r']| |] eqn:HR; cbn [omap] in HD; try discriminate. injection HD as <- ->.
        apply (br_extend_ok _ _ _ _ G) in HR; [|exact Hb]. destruct HR as [H1 [room [_ H2]]]. split; [exact H1|]. cbn [br_buf br_inner] in *.
        destruct x as [k|e]; [destruct H2 as [bs [H2 [_ [_ H3]]]]|destruct H2 as [H2 H3]]; apply LG in H2; eexists; (split; [exact H2|]); rewrite H3; cbn; rewrite ?app_nil_r; auto. }
    destruct K as [K1 [n1 [-> K2]]]. apply IH in HH; auto. destruct HH as [L1 [n2 [-> L2]]]. split; auto. exists (n1 ++ n2). split; [rewrite app_assoc; auto|].
    unfold read_bytes in *. rewrite List.map_app, concat_app, app_assoc, K2, <- !app_assoc, L2. reflexivity.
Qed.
Print Assumptions C51_history.
(** [read] reports the end of the data ([0] bytes into a non-empty buffer) only when the buffer is empty and the inner
    reader just did. *)
Theorem C51_read_end : forall C Rd IoE (rd_read : Rd -> nat -> (list (tok C) + IoE) * Rd) grow, (forall len add, len + add <= grow len add) ->
  forall n rd b rd' b', buf_ok b -> 0 < n -> br_read rd_read grow n (BR rd b) = Done (inl [], BR rd' b') ->
  bbytes b = [] /\ bbytes b' = [] /\ exists room, 1 <= room <= read_size /\ rd_read rd room = (inl [], rd').
Proof.
  intros C Rd IoE rd_read grow G n rd b rd' b' Hb Hn H. apply (br_read_ok _ _ _ _ G) in H; [|exact Hb]. destruct H as [_ [_ [l [H1 [H2 H3]]]]].
  destruct n as [|n]; [lia|]. destruct l; [|discriminate]. cbn [br_buf br_inner app] in *. destruct H3 as [[_ [H3 _]]|[H3 [room [H4 [H5 _]]]]]; [congruence|].
  split; auto. split; eauto.
Qed.
Print Assumptions C51_read_end.
Example C51_ex : exists b',
  br_history (C:=DC) (logging chunk_read) no_growth [KExtend; KRead 2; KFill; KConsume 1; KRead 9; KRead 9] (@BR DC _ ([[1; 2; 3; 4]; [5; 6]]%N, []) (@Buf DC [] 0)) =
    Done ([1; 2; 3; 4; 5; 6]%N, @BR DC _ ([], [inl [1; 2; 3; 4]; inl [5; 6]]%N) b') /\ bbytes b' = [].
Proof. eexists. vm_compute. split; reflexivity. Qed.
