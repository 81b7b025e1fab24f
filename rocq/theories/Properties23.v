(** Property C74: sessions come to an end. *)
From Coq Require Import String List Bool Arith NArith Lia.
Import ListNotations.
From Verif Require Import Base Errors Instances Parser Token Combinator Sequence Choice Repeat RangeP ByteP Spec LibSpec AgreeSpec TidySpec DecodeM DecodeSpec AsyncM AsyncSpec.
From Verif Require Import RangeSpec LawsProofs LawsProofs2 AgreeProofs TidyProofs ForwardProofs CombProofs ChunkSpec ChunkProofs ChunkProofs7 DecodeProofs AsyncProofs AsyncProofs2.
From Verif Require Import TotalSpec SteadySpec SteadyProofs SteadyProofs3 SteadyProofs4 Properties1 Properties3 Properties4 Properties7 Properties8 Properties19.
Unset Implicit Arguments.

(** The class is contained in C29's: what C29 says of sessions applies. *)
Theorem C74_class : forall C z x a n h J S A (f : J -> parser C S A), steady z x a n h f -> chunkable x a n h f.
Proof. intros C z. exact (proj1 (steady_chunkable z)). Qed.
Print Assumptions C74_class.

(** Parsing returns, on complete text and on text with more to come, at the first call. *)
Theorem C74_parse : forall C, eoi_laws C -> lawful C -> pos_distinct C ->
  forall z x a n h S A (p : parser C S A), steady z x a n h (fun _ : unit => p) -> lib p ->
  forall i, TotalSpec.fits z i -> (exists res j, parse p i = Done (res, j)) /\ (exists r j s, p_run p true i (p_init p) = Done (r, j, s)).
Proof.
  intros C EL L D z x a n h S A p HS HL i Hf. destruct (proj1 (steady_sound z EL L D) _ _ _ _ _ _ _ _ HS) as [Cln HK]. destruct (HK tt) as [Res [H HR]].
  destruct (ret_start z Cln Res p HR i (p_init p)) as [[[r j] s] Q]; [apply (cb_init H)|exact Hf|]. split; [|eauto].
  destruct (lib_agree _ _ p HL) as [_ _ AG]. specialize (AG i). unfold fresh in AG. rewrite Q in AG. cbn [omap] in AG. unfold parse.
  destruct (p_stream p i) as [[r2 i2]| |]; try contradiction. cbn [omap]. eauto.
Qed.
Print Assumptions C74_parse.

(** The text arrives in any pieces: after some of them, or after the end of the input ([[]]) at the latest, the session ends
    with a value or a parse error. *)
Theorem C74_session : forall C, eoi_laws C -> lawful C -> pos_distinct C ->
  forall z x a n h S A (p : parser C S A), steady z x a n h (fun _ : unit => p) -> lib p ->
  forall IoE cs, (forall c, In c cs -> c <> []) -> forall st pos b eof, ready IoE p st eof ->
  length (b ++ concat cs) < z -> 2 * length (b ++ concat cs) + 1 < fuel C ->
  exists cs1 cs2 used (fin : ending (C:=C) IoE A) st' pos' b' eof', (if eof then cs1 = [] else cs ++ [[]] = cs1 ++ cs2) /\
    session p st pos b eof cs1 used fin st' pos' b' eof' /\ (forall q e, fin <> EndIo q e).
Proof.
  intros C EL L D z x a n h S A p HS HL IoE cs HN st pos b eof Hr Z1 Z2. destruct (proj1 (steady_sound z EL L D) _ _ _ _ _ _ _ _ HS) as [Cln HK]. destruct (HK tt) as [Res [H HR]].
  apply (session_end z EL _ _ _ _ _ _ p H HR (lib_fwd _ _ _ HL) IoE cs HN).
  - apply (mid_clean _ _ _ _ _ _ p H). apply (ready_cln EL _ _ _ _ _ _ p IoE H _ _ Hr).
  - split; assumption.
Qed.
Print Assumptions C74_session.

(** And its answer is that of parsing all the text at once. *)
Theorem C74_answer : forall C, eoi_laws C -> lawful C -> pos_distinct C ->
  forall z x a n h S A (p : parser C S A), steady z x a n h (fun _ : unit => p) -> lib p ->
  forall IoE cs, (forall c, In c cs -> c <> []) -> forall st pos b, ready IoE p st false ->
  length (b ++ concat cs) < z -> 2 * length (b ++ concat cs) + 1 < fuel C ->
  exists cs1 cs2 used fin st' pos' b' eof' res i, cs ++ [[]] = cs1 ++ cs2 /\ session (IoE:=IoE) p st pos b false cs1 used fin st' pos' b' eof' /\
    parse p (Inp (b ++ concat cs) pos false) = Done (res, i) /\
    match fin with
    | EndValue v => res = inl v /\ rest i = b' ++ concat cs2
    | EndParse _ => exists e, res = inr e
    | EndIo _ _ => False
    end.
Proof.
  intros C EL L D z x a n h S A p HS HL IoE cs HN st pos b Hr Z1 Z2.
  destruct (C74_session C EL L D z x a n h S A p HS HL IoE cs HN st pos b false Hr Z1 Z2) as (cs1 & cs2 & used & fin & st' & pos' & b' & eof' & K1 & K2 & K3).
  destruct (C74_parse C EL L D z x a n h S A p HS HL (Inp (b ++ concat cs) pos false)) as [[res [i HP]] _]; [split; assumption|].
  exists cs1, cs2, used, fin, st', pos', b', eof', res, i. split; [exact K1|]. split; [exact K2|]. split; [exact HP|].
  assert (KE : eof' = true -> concat cs2 = []).
  { assert (Q : forall st pos b eof cs1 used (fin : ending (C:=C) IoE A) st' pos' b' eof', session p st pos b eof cs1 used fin st' pos' b' eof' -> eof' = true -> eof = true \/ In [] cs1).
    { induction 1; intros; subst; auto; try discriminate.
      - right. destruct (IHsession eq_refl); [discriminate|right; auto].
      - right. left. reflexivity. }
    intros He. destruct (Q _ _ _ _ _ _ _ _ _ _ _ K2 He) as [|HI]; [discriminate|]. clear - K1 HI HN. revert cs K1 HN. induction cs1 as [|c cs1 IH]; intros cs K1 HN; [contradiction|].
    destruct cs as [|c0 cs]; cbn [app] in K1; inversion K1; subst.
    - destruct cs1; [|discriminate]. destruct cs2; [reflexivity|discriminate].
    - apply (IH ltac:(destruct HI as [HI|HI]; [exfalso; apply (HN c); [left; reflexivity|exact HI]|exact HI]) cs); auto. intros c' Hc'. apply HN. right. exact Hc'. }
  assert (KC : concat cs = concat cs1 ++ concat cs2). { rewrite <- concat_app, <- K1, concat_app. cbn. rewrite app_nil_r. reflexivity. }
  pose proof (C29_chunks C EL L D x a n h S A p (C74_class C z x a n h unit S A _ HS) IoE _ _ _ _ _ _ _ _ _ _ _ Hr K2 (concat cs2) KE) as WA.
  rewrite KC, app_assoc in HP.
  assert (WP : forall r : A + dec_error (C:=C) IoE, fin = fin_of IoE r -> match r with inl v => res = inl v /\ rest i = b' ++ concat cs2 | inr (DParse _) => exists e, res = inr e | inr (DIo _ _) => True end).
  { intros r ->. exact (whole_parse p pos (b ++ concat cs1) r b' (concat cs2) HL WA res i HP). }
  destruct fin as [v|e|q e]; [exact (WP (inl v) eq_refl)|exact (WP (inr (DParse e)) eq_refl)|exact (K3 q e eq_refl)].
Qed.
Print Assumptions C74_answer.

(** [decode!]: on a connection that carries a finite amount of data, every call returns, whatever messages were decoded
    and whatever I/O errors occurred before. *)
Theorem C74_decode : forall C, eoi_laws C -> lawful C -> pos_distinct C -> (forall t, width C t = 1) ->
  forall z x a n h S A (p : parser C S A), steady z x a n h (fun _ : unit => p) -> lib p ->
  forall Rd IoE (rd_read : Rd -> nat -> (list (tok C) + IoE) * Rd) grow left, (forall len add, len + add <= grow len add) -> finite_reader rd_read left ->
  forall fl d0 rd0, buf_ok (dbuf d0) -> iready IoE p (dstate d0) (deoi d0) ->
  length (bbytes (dbuf d0)) + left rd0 < z -> 2 * (length (bbytes (dbuf d0)) + left rd0) + 1 < fuel C -> left rd0 + 2 <= fl ->
  forall d rd, messages rd_read grow fl p d0 rd0 d rd -> exists r d' rd', decode_loop rd_read grow fl p d rd = Done (r, d', rd').
Proof.
  intros C EL L D W z x a n h S A p HS HL Rd IoE rd_read grow left G FR fl d0 rd0 Hb Hr Z1 Z2 Hl d rd HM.
  destruct (proj1 (steady_sound z EL L D) _ _ _ _ _ _ _ _ HS) as [Cln HK]. destruct (HK tt) as [Res [H HR]].
  refine (messages_out z EL _ _ _ _ Cln Res p H HR (lib_fwd _ _ _ HL) IoE W Rd grow G rd_read left FR fl d0 rd0 d rd HM _ (conj Z1 Z2) Hl).
  split; [exact Hb|]. apply (mid_clean _ _ _ _ _ _ p H). apply (iready_cln EL _ _ _ _ _ _ p IoE H _ _ Hr).
Qed.
Print Assumptions C74_decode.

(** Asynchronously: every poll returns, whatever polls, dropped futures, messages and errors came before. *)
Theorem C74_polls : forall C, eoi_laws C -> lawful C -> pos_distinct C -> (forall t, width C t = 1) ->
  forall z x a n h S A (p : parser C S A), steady z x a n h (fun _ : unit => p) -> lib p ->
  forall Rd IoE (poll_read : Rd -> nat -> poll (list (tok C) + IoE) * Rd) grow left, (forall len add, len + add <= grow len add) -> finite_poll_reader poll_read left ->
  forall fl d0 rd0, buf_ok (dbuf d0) -> iready IoE p (dstate d0) (deoi d0) ->
  length (bbytes (dbuf d0)) + left rd0 < z -> 2 * (length (bbytes (dbuf d0)) + left rd0) + 1 < fuel C -> left rd0 + 2 <= fl ->
  forall w d rd, poll_messages poll_read grow fl p false d0 rd0 w d rd -> exists r d' rd', poll_decode poll_read grow fl w p d rd = Done (r, d', rd').
Proof.
  intros C EL L D W z x a n h S A p HS HL Rd IoE poll_read grow left G FR fl d0 rd0 Hb Hr Z1 Z2 Hl w d rd HM.
  destruct (proj1 (steady_sound z EL L D) _ _ _ _ _ _ _ _ HS) as [Cln HK]. destruct (HK tt) as [Res [H HR]].
  refine (poll_messages_out z EL _ _ _ _ Cln Res p H HR (lib_fwd _ _ _ HL) IoE W Rd grow G poll_read left FR fl _ d0 rd0 w d rd HM _ (conj Z1 Z2) Hl).
  split; [exact Hb|]. apply (mid_clean _ _ _ _ _ _ p H). apply (iready_cln EL _ _ _ _ _ _ p IoE H _ _ Hr).
Qed.
Print Assumptions C74_polls.

(** If the reader is found not ready a finite number of times only, polling comes to an end. *)
Theorem C74_driven : forall C, eoi_laws C -> lawful C -> pos_distinct C -> (forall t, width C t = 1) ->
  forall z x a n h S A (p : parser C S A), steady z x a n h (fun _ : unit => p) -> lib p ->
  forall Rd IoE (poll_read : Rd -> nat -> poll (list (tok C) + IoE) * Rd) grow left waits, (forall len add, len + add <= grow len add) ->
  finite_poll_reader poll_read left -> patient_reader poll_read waits ->
  forall fl d rd, buf_ok (dbuf d) -> iready IoE p (dstate d) (deoi d) ->
  length (bbytes (dbuf d)) + left rd < z -> 2 * (length (bbytes (dbuf d)) + left rd) + 1 < fuel C -> left rd + 2 <= fl ->
  exists r d' rd', driven poll_read grow true fl p false d rd r d' rd'.
Proof.
  intros C EL L D W z x a n h S A p HS HL Rd IoE poll_read grow left waits G FR PW fl d rd Hb Hr Z1 Z2 Hl.
  destruct (proj1 (steady_sound z EL L D) _ _ _ _ _ _ _ _ HS) as [Cln HK]. destruct (HK tt) as [Res [H HR]].
  refine (driven_out z EL _ _ _ _ Cln Res p H HR (lib_fwd _ _ _ HL) IoE W Rd grow G poll_read left FR waits PW fl (waits rd) false d rd (le_n _) _ (conj Z1 Z2) Hl).
  split; [exact Hb|]. apply (mid_clean _ _ _ _ _ _ p H). apply (iready_cln EL _ _ _ _ _ _ p IoE H _ _ Hr).
Qed.
Print Assumptions C74_driven.

(** * Cases *)
(** The message of C29 is in the class for every [z]. *)
Lemma c74_msg z : exists x a n h, steady z x a n h (fun _ : unit => c29_msg).
Proof.
  do 4 eexists. unfold c29_msg. eapply sd_tuple. eapply sd_TC.
  - eapply (@sd_many BC z _ _ _ false).
    + unfold c29_field. eapply sd_no_partial; [|reflexivity]. eapply sd_skip; [eapply sd_take_while1|eapply sd_token].
    + intros; apply tidy_history_free; apply td_unit.
    + intros _. unfold c29_field. apply (@sol_no_partial BC z false true). apply (@sol_skip BC z false true true); [apply sol_take_while1|apply sol_token].
  - eapply sd_TC.
    + eapply (@sd_many1 BC z _ _ _ false).
      * eapply (sd_weak (x:=true && true) (x':=true)); [eapply sd_or; [eapply sd_satisfy|eapply sd_token]| | | |]; intros Q; exact Q.
      * intros; apply tidy_history_free; tidy_tac.
      * intros _. apply sol_or; [apply sol_satisfy|apply sol_token].
    + eapply sd_TC; [eapply sd_optional; eapply sd_take_while1|eapply sd_T1; eapply sd_token].
Qed.
(** Whatever pieces "1,22,ab_7;xy" arrives in, the message comes out. *)
Example C74_ex : forall cs : list (list (tok BC)), (forall c, In c cs -> c <> []) -> concat cs = t8 "1,22,ab_7;xy" ->
  exists cs1 cs2 used st' pos' b' eof', cs ++ [[]] = cs1 ++ cs2 /\
    session (IoE:=nat) c29_msg (p_init c29_msg) 0 [] false cs1 used (EndValue c29_value) st' pos' b' eof' /\ b' ++ concat cs2 = t8 "xy".
Proof.
  intros cs HN HC. destruct (c74_msg 50) as (x & a & n & h & HS).
  destruct (@C74_answer BC (eoi_laws_easy bytes_tok 100 true) BC_lawful BC_distinct 50 x a n h _ _ c29_msg HS c29_lib nat cs HN (p_init c29_msg) 0 [] (ready_init nat c29_msg false))
    as (cs1 & cs2 & used & fin & st' & pos' & b' & eof' & res & i & K1 & K2 & K3 & K4).
  { cbn [app]. rewrite HC. vm_compute. lia. }
  { cbn [app]. rewrite HC. vm_compute. lia. }
  cbn [app] in K3. rewrite HC in K3.
  assert (KP : exists i, parse c29_msg (@Inp BC (t8 "1,22,ab_7;xy") 0 false) = Done (inl c29_value, i) /\ rest i = t8 "xy") by (eexists; split; vm_compute; reflexivity).
  destruct KP as [i0 [KP KR]]. rewrite KP in K3. inversion K3; subst res i. destruct fin as [v|e|q e]; [|destruct K4; discriminate|contradiction].
  destruct K4 as [K4 K5]. inversion K4; subst v. exists cs1, cs2, used, st', pos', b', eof'. rewrite KR in K5. auto.
Qed.
(** The readers of C68's cases carry a finite amount of data. *)
Definition int_left (rd : list (list N + nat)) : nat := list_sum (List.map (fun x => match x with inl c => length c | inr _ => 0 end) rd).
Definition ev_left (rd : list (poll (list N + nat))) : nat := list_sum (List.map (fun x => match x with Ready (inl c) => length c | _ => 0 end) rd).
Definition ev_waits (rd : list (poll (list N + nat))) : nat := list_sum (List.map (fun x => match x with Pending => 1 | _ => 0 end) rd).
Example C74_ex_readers : finite_reader (C:=BC) int_read int_left /\ finite_poll_reader (C:=BC) ev_read ev_left /\ patient_reader (C:=BC) ev_read ev_waits.
Proof.
  assert (Q : forall n (c : list N), n < length c -> length (firstn n c) = n /\ length (skipn n c) + n = length c).
  { intros n c Hc. rewrite firstn_length, skipn_length. lia. }
  split; [|split].
  - intros [|[c|e] r] n; [change (0 <= n /\ 0 <= 0)|change (match (if length c <=? n then (@inl (list N) nat c, r) else (inl (firstn n c), inl (skipn n c) :: r)) with
      (inl bs, rd') => length bs <= n /\ length bs + int_left rd' <= length c + int_left r | (inr _, rd') => int_left rd' <= length c + int_left r end)|apply le_n]; [lia|].
    destruct (length c <=? n) eqn:Hn; [apply Nat.leb_le in Hn; lia|]. apply Nat.leb_gt in Hn. destruct (Q n c Hn) as [Q1 Q2].
    change (int_left (inl (skipn n c) :: r)) with (length (skipn n c) + int_left r). lia.
  - intros [|[|[c|e]] r] n; [change (0 <= n /\ 0 <= 0); lia|apply le_n| |apply le_n].
    change (match (if length c <=? n then (Ready (@inl (list N) nat c), r) else (Ready (inl (firstn n c)), Ready (inl (skipn n c)) :: r)) with
      (Ready (inl bs), rd') => length bs <= n /\ length bs + ev_left rd' <= length c + ev_left r | (_, rd') => ev_left rd' <= length c + ev_left r end).
    destruct (length c <=? n) eqn:Hn; [apply Nat.leb_le in Hn; lia|]. apply Nat.leb_gt in Hn. destruct (Q n c Hn) as [Q1 Q2].
    change (ev_left (Ready (inl (skipn n c)) :: r)) with (length (skipn n c) + ev_left r). lia.
  - intros [|[|[c|e]] r] n; [apply le_n|apply le_n| |apply le_n]. cbn [ev_read]. destruct (length c <=? n); apply le_n.
Qed.
(** So the futures of C68's case end, for any contents that fit. *)
Example C74_ex_driven : forall rd, ev_left rd <= 40 -> exists r d' rd', driven (C:=BC) ev_read no_growth true 42 c29_msg false (dbc (p_init c29_msg) [] 0) rd r d' rd'.
Proof.
  intros rd Hr. destruct (c74_msg 50) as (x & a & n & h & HS). destruct C74_ex_readers as [_ [FR PW]].
  refine (@C74_driven BC (eoi_laws_easy bytes_tok 100 true) BC_lawful BC_distinct _ 50 x a n h _ _ c29_msg HS c29_lib _ _ ev_read no_growth ev_left ev_waits _ FR PW 42 _ rd _ _ _ _ _).
  - reflexivity.
  - intros len add. unfold no_growth. lia.
  - repeat constructor.
  - constructor.
  - cbn. lia.
  - cbn. lia.
  - lia.
Qed.
(** Without the requirement on what is repeated: a parser of C29's class that never comes back. *)
Example C74_ex_loop : (exists x a n h, chunkable x a n h (fun _ : unit => many (value (C:=BC) 0))) /\
  p_run (many (value (C:=BC) 0)) true (bin (t8 "a")) (p_init (many (value (C:=BC) 0))) = OOF.
Proof.
  split; [|vm_compute; reflexivity]. do 4 eexists. eapply ck_many; [apply ck_value|intros; apply tidy_history_free; apply td_unit].
Qed.
