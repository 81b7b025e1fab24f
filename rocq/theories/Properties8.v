(** Properties C29, C30: parsing in pieces. *)
From Coq Require Import String List Bool Arith NArith Lia.
Import ListNotations.
From Verif Require Import Base Errors Instances Parser Token Combinator Sequence Choice Repeat RangeP ByteP Spec LibSpec AgreeSpec TidySpec DecodeM DecodeSpec.
From Verif Require Import RangeSpec LawsProofs LawsProofs2 AgreeProofs TidyProofs ForwardProofs ChunkSpec ChunkProofs7 DecodeProofs Properties1 Properties3 Properties4 Properties7.
Unset Implicit Arguments.

(** * C29 *)
(** Whatever the cuts: a session over [b] and the chunks [cs] gives the answer that parsing the whole text at once gives,
    also if more text follows that the session has not read ([more]; nothing, if it has seen the end).  It may be the
    first or any later message on the same connection. *)
Theorem C29_chunks : forall C, eoi_laws C -> lawful C -> pos_distinct C ->
  forall x a n h S A (p : parser C S A), chunkable x a n h (fun _ : unit => p) ->
  forall IoE st pos b cs used (fin : ending (C:=C) IoE A) st' pos' b' eof eof', ready IoE p st eof -> session p st pos b eof cs used fin st' pos' b' eof' ->
  forall more, (eof' = true -> more = []) -> whole_answer p pos (b ++ concat cs) fin b' more.
Proof. intros C EL L D x a n h S A p H IoE. exact (session_whole EL L D x a n h p IoE H). Qed.
Print Assumptions C29_chunks.

(** Two ways of cutting the same text: same value, same rest. *)
Theorem C29_cuts : forall C, eoi_laws C -> lawful C -> pos_distinct C ->
  forall x a n h S A (p : parser C S A), chunkable x a n h (fun _ : unit => p) ->
  forall IoE pos w r i, fresh p (Inp w pos false) = Done (r, i) ->
  forall b1 cs1 used1 (fin1 : ending (C:=C) IoE A) st1 pos1 rest1 eof1 more1, session p (p_init p) pos b1 false cs1 used1 fin1 st1 pos1 rest1 eof1 ->
  forall b2 cs2 used2 (fin2 : ending (C:=C) IoE A) st2 pos2 rest2 eof2 more2, session p (p_init p) pos b2 false cs2 used2 fin2 st2 pos2 rest2 eof2 ->
  w = (b1 ++ concat cs1) ++ more1 -> w = (b2 ++ concat cs2) ++ more2 -> (eof1 = true -> more1 = []) -> (eof2 = true -> more2 = []) ->
  match fin1, fin2 with
  | EndValue v1, EndValue v2 => v1 = v2 /\ rest1 ++ more1 = rest2 ++ more2 /\ rest i = rest1 ++ more1 /\ entry_result r = inl v1
  | EndParse _, EndParse _ => is_ok r = false
  | EndValue _, EndParse _ | EndParse _, EndValue _ => False
  | EndIo _ _, _ | _, EndIo _ _ => True
  end.
Proof.
  intros C EL L D x a n h S A p H IoE pos w r i HW b1 cs1 used1 fin1 st1 pos1 rest1 eof1 more1 S1 b2 cs2 used2 fin2 st2 pos2 rest2 eof2 more2 S2 W1 W2 M1 M2.
  pose proof (C29_chunks C EL L D x a n h S A p H IoE _ _ _ _ _ _ _ _ _ _ _ (ready_init IoE p false) S1 more1 M1) as K1.
  pose proof (C29_chunks C EL L D x a n h S A p H IoE _ _ _ _ _ _ _ _ _ _ _ (ready_init IoE p false) S2 more2 M2) as K2.
  unfold whole_answer in K1, K2. rewrite <- W1 in K1. rewrite <- W2 in K2. specialize (K1 _ _ HW). specialize (K2 _ _ HW).
  destruct fin1 as [v1|e1|? ?], fin2 as [v2|e2|? ?]; auto.
  - destruct K1 as [u1 [_ [I1 R1]]]. destruct K2 as [u2 [_ [I2 R2]]]. subst i. inversion I2. rewrite R1 in R2.
    destruct (consumed_some u1), (consumed_some u2); inversion R2; subst; repeat split; auto.
  - destruct K1 as [u1 [_ [_ R1]]]. subst r. destruct (consumed_some u1); discriminate.
  - destruct K2 as [u2 [_ [_ R2]]]. subst r. destruct (consumed_some u2); discriminate.
Qed.
Print Assumptions C29_cuts.

(** Through the entry points: what [decode!] delivers, reading from any reader, is what [parse] gives for everything the
    reader delivered and whatever else may follow. *)
Theorem C29_decode : forall C, eoi_laws C -> lawful C -> pos_distinct C -> (forall t, width C t = 1) ->
  forall x a n h S A (p : parser C S A), chunkable x a n h (fun _ : unit => p) -> lib p ->
  forall Rd IoE (rd_read : Rd -> nat -> (list (tok C) + IoE) * Rd) grow, (forall len add, len + add <= grow len add) ->
  forall fl d rd r d' rd', buf_ok (dbuf d) -> ready IoE p (dstate d) (deoi d) -> decode_loop rd_read grow fl p d rd = Done (r, d', rd') ->
  exists cs rd1, delivers rd_read read_size rd cs rd1 /\ (match r with inr (DIo _ _) => True | _ => rd' = rd1 end) /\
  forall more, (deoi d' = true -> more = []) -> forall res i, parse p (Inp ((bbytes (dbuf d) ++ concat cs) ++ more) (dpos d) false) = Done (res, i) ->
  match r with
  | inl v => res = inl v /\ rest i = bbytes (dbuf d') ++ more
  | inr (DParse _) => exists e, res = inr e
  | inr (DIo _ _) => True
  end.
Proof.
  intros C EL L D W x a n h S A p HC HL Rd IoE rd_read grow G fl d rd r d' rd' HB HR HD.
  destruct (C32_session C S A p HL W Rd IoE rd_read grow G fl d rd r d' rd' HB HD) as [_ [cs [used [rd1 [H1 [H2 H3]]]]]].
  exists cs, rd1. split; [exact H1|]. split; [destruct r as [v|[q e|e]]; auto|]. intros more HM res i HP.
  pose proof (C29_chunks C EL L D x a n h S A p HC IoE _ _ _ _ _ _ _ _ _ _ _ HR H2 more HM) as K. unfold whole_answer in K.
  destruct (lib_agree _ _ p HL) as [_ _ AG]. unfold stream_agrees in AG. specialize (AG (Inp ((bbytes (dbuf d) ++ concat cs) ++ more) (dpos d) false)).
  unfold parse in HP. destruct (p_stream p _) as [[r2 i2]| |]; try discriminate. destruct (fresh p _) as [[r3 i3]| |]; try contradiction.
  destruct AG as [A1 [A2 A3]]. specialize (K _ _ eq_refl). inversion HP; subst res i. cbn [fst snd]. destruct r as [v|[q e|e]]; cbn [fin_of] in K; auto.
  - destruct K as [u [_ [K1 K2]]]. assert (K3 : is_ok r3 = true) by (rewrite K2; destruct (consumed_some u); reflexivity).
    destruct (A2 K3) as [A4 A5]. subst r2 i2 i3. split; [rewrite K2; destruct (consumed_some u); reflexivity|reflexivity].
  - assert (K1 : is_ok r2 = false) by (destruct r2, r3; try discriminate; reflexivity). destruct r2; try discriminate; cbn; eauto.
Qed.
Print Assumptions C29_decode.

(** The laws assumed hold for the library's error types, positions and streams. *)
Theorem C29_laws : forall fl d,
  eoi_laws (cfg_easy bytes_tok fl d) /\ eoi_laws (cfg_unexpected bytes_tok fl d) /\ eoi_laws (cfg_string str_tok fl d) /\
  eoi_laws (cfg_easy str_tok fl d) /\ eoi_laws (cfg_easy src_tok fl d) /\ eoi_laws (cfg_string src_tok fl d).
Proof. repeat split; first [apply eoi_laws_easy|apply eoi_laws_unexpected|apply eoi_laws_string]. Qed.
Print Assumptions C29_laws.

(** Numbers each followed by a comma, a word, a semicolon, or instead the word only: "1,22,ab;" *)
Definition isd (c : N) : bool := ((48 <=? c) && (c <=? 57))%N.
Definition isw (c : N) : bool := ((97 <=? c) && (c <=? 122))%N.
Definition c29_field := no_partial (skip (take_while1 (C:=BC) isd) (bt 44%N)).
Definition c29_msg := tuple (TC (many c29_field) (TC (many1 (or_ (satisfy (C:=BC) isw) (bt 95%N))) (TC (optional (take_while1 (C:=BC) isd)) (T1 (bt 59%N))))).
Example C29_ex_class : exists x a n h, chunkable x a n h (fun _ : unit => c29_msg).
Proof.
  do 4 eexists. unfold c29_msg. eapply ck_tuple. eapply ck_TC.
  - eapply ck_many; [|intros; apply tidy_history_free; apply td_unit].
    unfold c29_field. eapply ck_no_partial; [|reflexivity]. eapply ck_skip; [eapply ck_take_while1|eapply ck_token].
  - eapply ck_TC.
    + eapply ck_many1; [|intros; apply tidy_history_free; tidy_tac].
      eapply (ck_weak (x:=true && true) (x':=true)); [eapply ck_or; [eapply ck_satisfy|eapply ck_token]| | | |]; intros Q; exact Q.
    + eapply ck_TC; [eapply ck_optional; eapply ck_take_while1|eapply ck_T1; eapply ck_token].
Qed.
Lemma c29_lib : lib c29_msg.
Proof. unfold c29_msg, c29_field. repeat constructor. Qed.
Definition t8 (s : string) : list N := chars s.
Ltac rd u := eapply (@ses_read BC _ _ _ _ _ _ _ (t8 u)); [vm_compute; reflexivity|unfold call_error; vm_compute; reflexivity|vm_compute; reflexivity|discriminate|cbn [app]].
Ltac rdl u := eapply (@ses_read BC _ _ _ _ _ _ _ u); [vm_compute; reflexivity|unfold call_error; vm_compute; reflexivity|vm_compute; reflexivity|discriminate|cbn [app]].
Ltac eo u := eapply (@ses_eof BC _ _ _ _ _ _ _ (t8 u)); [vm_compute; reflexivity|unfold call_error; vm_compute; reflexivity|vm_compute; reflexivity|cbn [app]].
Ltac ok u := eapply (@ses_value BC _ _ _ _ _ _ _ _ (t8 u)); [vm_compute; reflexivity|unfold call_value; vm_compute; reflexivity].
Ltac er := eapply (@ses_error BC); [unfold call_error; vm_compute; reflexivity|solve [left; vm_compute; reflexivity|right; vm_compute; reflexivity]].
(** "1,22,ab_7;" arriving as "1", ",2", "2,a", "b_7", ";x": "x" is left. *)
Definition c29_value := ([t8 "1"; t8 "22"], (t8 "ab_", (Some (t8 "7"), 59%N))).
Example C29_ex_session : exists st' used pos', session (IoE:=nat) c29_msg (p_init c29_msg) 0 [] false
  [t8 "1"; t8 ",2"; t8 "2,a"; t8 "b_7"; t8 ";x"] used (EndValue c29_value) st' pos' (t8 "x") false.
Proof. do 3 eexists. rd ""%string. rd ""%string. rd "1,"%string. rd "22,a"%string. rd "b_"%string. ok "7;"%string. Qed.
Example C29_ex_whole : exists i, fresh c29_msg (bin (t8 "1,22,ab_7;xy")) = Done (CommitOk c29_value, i) /\ rest i = t8 "xy".
Proof. eexists. split; vm_compute; reflexivity. Qed.

(** A header, fields of given widths, up to three blocks each preceded by its length in two bytes, and a line. *)
Definition c29_block := no_partial (then_ (be_u (C:=BC) (fun b => b) 2) tt (fun n => take (C:=BC) (N.to_nat n))).
Definition c29_frame := tuple (TC (range (C:=BC) (t8 "GET")) (TC (iterate tt [1; 2] (fun n => take (C:=BC) n)) (TC (count_min_max 1 3 c29_block)
  (TC (take_until_range (C:=BC) (t8 "--")) (T1 (range (C:=BC) (t8 "--"))))))).
Example C29_ex_frame_class : exists x a n h, chunkable x a n h (fun _ : unit => c29_frame).
Proof.
  assert (SL : @is_slice BC) by (intros t; reflexivity).
  do 4 eexists. unfold c29_frame. eapply ck_tuple. eapply ck_TC; [apply ck_range; [exact SL|discriminate]|]. eapply ck_TC.
  - eapply (@ck_iterate BC _ _ _ _ _ _ _ _ (fun jx : unit * nat => take (C:=BC) (snd jx)) (fun _ => [1; 2]) tt (fun _ => True));
      [apply ck_take; exact SL|discriminate|exact I|reflexivity|].
    intros [[] n] i [] [] _ _. apply orel_refl. intros [[r j] []] _. repeat split; auto.
  - eapply ck_TC.
    + eapply ck_count_min_max; [|intros; apply tidy_history_free; apply td_unit|repeat constructor].
      eapply ck_no_partial; [|reflexivity]. eapply (@ck_then BC _ _ _ _ _ _ _ _ _ _ _ _ _ _ _ (fun ja : unit * N => take (C:=BC) (N.to_nat (snd ja))));
        [apply (@ck_num_parser BC unit N (fun _ b => b) (fun _ => 2) (fun _ => be_value)); discriminate|apply ck_take; exact SL|reflexivity].
    + eapply ck_TC; [apply ck_take_until_range; [exact SL|discriminate]|eapply ck_T1; apply ck_range; [exact SL|discriminate]].
Qed.
(** "GETabb" [0;1] "x" [0;2] "yz" [0;0] "ok--" in five pieces. *)
Definition c29_frame_value := (t8 "GET", ([t8 "a"; t8 "bb"], ([t8 "x"; t8 "yz"; []], (t8 "ok", t8 "--")))).
Example C29_ex_frame : exists st' used pos', session (IoE:=nat) c29_frame (p_init c29_frame) 0 (t8 "GE") false
  [t8 "Tab"; (t8 "b" ++ [0; 1])%N; (t8 "x" ++ [0; 2] ++ t8 "y")%N; (t8 "z" ++ [0])%N; (0%N :: t8 "o"); t8 "k-"; t8 "-!"] used
  (EndValue c29_frame_value) st' pos' (t8 "!") false.
Proof. do 3 eexists. rd ""%string. rd "GETa"%string. rdl (chars "bb"). rdl (0 :: 1 :: chars "x")%N. rdl (0 :: 2 :: chars "yz")%N. rdl [0; 0]%N. rd ""%string. ok "ok--"%string. Qed.

(** [recognize] keeps what it has seen so far: "12.5;" as "1", "2.", "5;". *)
Definition c29_num := tuple (TC (recognize (tuple (TC (many1 (satisfy (C:=BC) isd)) (TC (bt 46%N) (T1 (many1 (satisfy (C:=BC) isd))))))) (T1 (bt 59%N))).
Example C29_ex_recognize_class : exists x a n h, chunkable x a n h (fun _ : unit => c29_num).
Proof.
  do 4 eexists. unfold c29_num. eapply ck_tuple. eapply ck_TC; [|eapply ck_T1; eapply ck_token].
  eapply ck_recognize; [|intros _; apply lib_forward; repeat constructor]. eapply ck_tuple.
  eapply ck_TC; [|eapply ck_TC; [eapply ck_token|eapply ck_T1]]; (eapply ck_many1; [apply ck_satisfy|intros; apply tidy_history_free; apply td_unit]).
Qed.
Example C29_ex_recognize : exists st' used pos', session (IoE:=nat) c29_num (p_init c29_num) 0 [] false
  [t8 "1"; t8 "2."; t8 "5;"] used (EndValue (t8 "12.5", 59%N)) st' pos' [] false.
Proof. do 3 eexists. rd ""%string. rd "1"%string. rd "2."%string. ok "5;"%string. Qed.

(** * C30 *)
(** Decoding in pieces (the buffer starts as [b], then the chunks [cs] arrive, [""] being the end of the input), and parsing
    all the input at once. *)
Definition in_pieces {S A} (p : parser BC S A) (b : string) (cs : list string) (fin : ending (C:=BC) nat A) (b' : string) : Prop :=
  exists used st' pos' eof', session p (p_init p) 0 (t8 b) false (List.map t8 cs) used fin st' pos' (t8 b') eof'.
Definition at_once {S A} (p : parser BC S A) (w : string) (r : PR A (Err BC)) (b' : string) : Prop :=
  exists i, fresh p (@Inp BC (t8 w) 0 false) = Done (r, i) /\ rest i = t8 b'.
Definition fails_in_pieces {S A} (p : parser BC S A) b cs (b' : string) : Prop := exists e, in_pieces p b cs (EndParse e) b'.
Definition fails_at_once {S A} (p : parser BC S A) (w : string) : Prop :=
  exists r i, fresh p (@Inp BC (t8 w) 0 false) = Done (r, i) /\ is_ok r = false.
Ltac whole := eexists; split; [vm_compute; reflexivity|vm_compute; reflexivity].
Ltac whole_fails := do 2 eexists; split; [vm_compute; reflexivity|reflexivity].
Notation ct c := (@token BC (ch c)).
Notation "a ',,' b" := (tuple (TC a (T1 b))) (at level 50).

(** [sep_by]: after the first chunk the parser waits for a separator, but it starts with an element when called again: a
    missing separator goes unnoticed, a present one is an error. *)
Theorem C30_sep_by_refuted :
  let p := sep_by (ct "1") (ct ",") in
  in_pieces p "1" ["1;"]%string (EndValue (t8 "11")) ";" /\ at_once p "11;" (CommitOk (t8 "1")) "1;" /\
  fails_in_pieces p "1" [",1;"]%string ",1;" /\ at_once p "1,1;" (CommitOk (t8 "11")) ";".
Proof.
  cbn zeta. split; [|split; [whole|split; [|whole]]].
  - do 4 eexists. rd "1"%string. ok "1"%string.
  - do 5 eexists. rd "1"%string. er.
Qed.
Print Assumptions C30_sep_by_refuted.

Theorem C30_sep_by1_refuted :
  let p := sep_by1 (ct "1") (ct ",") in
  in_pieces p "1" ["1;"]%string (EndValue (t8 "11")) ";" /\ at_once p "11;" (CommitOk (t8 "1")) "1;" /\
  fails_in_pieces p "1" [",1;"]%string ",1;" /\ at_once p "1,1;" (CommitOk (t8 "11")) ";".
Proof.
  cbn zeta. split; [|split; [whole|split; [|whole]]].
  - do 4 eexists. rd "1"%string. ok "1"%string.
  - do 5 eexists. rd "1"%string. er.
Qed.
Print Assumptions C30_sep_by1_refuted.

(** [or] remembers the alternative it was suspended in: the other one is not tried, even if the first one backtracks. *)
Theorem C30_attempt_refuted :
  let p := or_ (attempt (ct "a" ,, ct "b")) (ct "a" ,, ct "c") in
  fails_in_pieces p "a" ["c"]%string "c" /\ at_once p "ac" (CommitOk (97%N, 99%N)) "".
Proof. cbn zeta. split; [|whole]. do 5 eexists. rd "a"%string. er. Qed.
Print Assumptions C30_attempt_refuted.

(** A sequence suspended after its first part fails without commitment: [many] and [optional] take that for an absent
    element, the consumed input is lost. *)
Theorem C30_many_refuted :
  let p := many (ct "a" ,, ct "b") in
  in_pieces p "a" ["c"]%string (EndValue []) "c" /\ fails_at_once p "ac".
Proof. cbn zeta. split; [|whole_fails]. do 4 eexists. rd "a"%string. ok ""%string. Qed.
Print Assumptions C30_many_refuted.

Theorem C30_optional_refuted :
  let p := optional (ct "a" ,, ct "b") in
  in_pieces p "a" ["c"]%string (EndValue None) "c" /\ fails_at_once p "ac".
Proof. cbn zeta. split; [|whole_fails]. do 4 eexists. rd "a"%string. ok ""%string. Qed.
Print Assumptions C30_optional_refuted.

(** [tokens] consumes what it has compared but compares from the start again. *)
Theorem C30_tokens_refuted :
  let p := tokens (C:=BC) N.eqb (IStatic "ab") (t8 "ab") in
  fails_in_pieces p "a" ["b"]%string "b" /\ at_once p "ab" (CommitOk (t8 "ab")) "".
Proof. cbn zeta. split; [|whole]. do 5 eexists. rd "a"%string. er. Qed.
Print Assumptions C30_tokens_refuted.

(** [eof] succeeds at the end of a chunk. *)
Theorem C30_eof_refuted :
  let p := skip (ct "a") (@eof BC) in
  in_pieces p "a" []%string (EndValue 97%N) "" /\ fails_at_once p "ab".
Proof. cbn zeta. split; [|whole_fails]. do 4 eexists. ok "a"%string. Qed.
Print Assumptions C30_eof_refuted.

(** [not_followed_by] does too. *)
Theorem C30_not_followed_by_refuted :
  let p := with_ (not_followed_by (ct "a")) (@any BC) in
  in_pieces p "" ["a"]%string (EndValue 97%N) "" /\ fails_at_once p "a".
Proof. cbn zeta. split; [|whole_fails]. do 4 eexists. rd ""%string. ok "a"%string. Qed.
Print Assumptions C30_not_followed_by_refuted.

(** [parser(|input| ...)] keeps no state between calls, the function starts again after what it has consumed. *)
Theorem C30_parser_fn_refuted :
  let p := parser_fn0 (ct "a" ,, ct "b") in
  fails_in_pieces p "a" ["b"]%string "b" /\ at_once p "ab" (CommitOk (97%N, 98%N)) "".
Proof. cbn zeta. split; [|whole]. do 5 eexists. rd "a"%string. er. Qed.
Print Assumptions C30_parser_fn_refuted.

(** [take_until] with a terminator of two tokens that is cut in two: the first half becomes part of the result. *)
Theorem C30_take_until_refuted :
  let p := take_until (ct "-" ,, ct ">") in
  in_pieces p "a-" [">"]%string (EndValue (t8 "a-")) ">" /\ at_once p "a->" (CommitOk (t8 "a")) "->".
Proof. cbn zeta. split; [|whole]. do 4 eexists. rd "a"%string. ok "-"%string. Qed.
Print Assumptions C30_take_until_refuted.

(** [repeat_until], both parsers backtracking. *)
Theorem C30_repeat_until_refuted :
  let p := repeat_until (attempt (ct "a" ,, ct "b")) (attempt (ct "a" ,, ct "c")) in
  fails_in_pieces p "aba" ["c"]%string "ac" /\ at_once p "abac" (CommitOk [(97%N, 98%N)]) "ac".
Proof. cbn zeta. split; [|whole]. do 5 eexists. rd "ab"%string. er. Qed.
Print Assumptions C30_repeat_until_refuted.

(** [chainr1]: the chain keeps no state, what was parsed before a cut is forgotten. *)
Theorem C30_chainr1_refuted :
  let p := chainr1 (map (satisfy (C:=BC) isd) (fun d => (d - 48)%N)) (map (ct "+") (fun _ => N.add)) in
  in_pieces p "1+" ["2+3;"]%string (EndValue 5%N) ";" /\ at_once p "1+2+3;" (CommitOk 6%N) ";".
Proof. cbn zeta. split; [|whole]. do 4 eexists. rd "1+"%string. ok "2+3"%string. Qed.
Print Assumptions C30_chainr1_refuted.

(** [choice] over a slice resumes only the alternative it was suspended in, even when nothing of it was parsed. *)
Theorem C30_choice_slice_refuted :
  let p := choice_slice tt [ct "a"; ct "b"] in
  fails_in_pieces p "" ["b"]%string "b" /\ at_once p "b" (CommitOk 98%N) "".
Proof. cbn zeta. split; [|whole]. do 5 eexists. rd ""%string. er. Qed.
Print Assumptions C30_choice_slice_refuted.

(** A sequence that failed keeps the value of its first part; a later use of the same sequence, suspended in its first part,
    takes that old value for its own. *)
Theorem C30_stale_refuted :
  let p := many (many (optional (ct "a") ,, ct "b") ,, ct "c") in
  in_pieces p "c" ["abc;"]%string (EndValue [([], 99%N)]) "abc;" /\ at_once p "cabc;" (CommitOk [([], 99%N); ([(Some 97%N, 98%N)], 99%N)]) ";".
Proof. cbn zeta. split; [|whole]. do 4 eexists. rd "c"%string. ok ""%string. Qed.
Print Assumptions C30_stale_refuted.

(** [length_prefix] keeps no state: the length is forgotten, and read again from what follows it. *)
Theorem C30_length_prefix_refuted :
  let p := length_prefix (map (satisfy (C:=BC) isd) (fun d => (d - 48)%N)) (fun n => inl (N.to_nat n)) in
  in_pieces p "3" ["2ab!"]%string (EndValue (t8 "ab")) "!" /\ at_once p "32ab!" (CommitOk (t8 "2ab")) "!".
Proof. cbn zeta. split; [|whole]. do 4 eexists. rd "3"%string. ok "2ab"%string. Qed.
Print Assumptions C30_length_prefix_refuted.

(** [count] keeps no state either: the elements before a cut are forgotten. *)
Theorem C30_count_refuted :
  let p := count 2 (ct "a") in
  in_pieces p "a" ["ab"]%string (EndValue (t8 "a")) "b" /\ at_once p "aab" (CommitOk (t8 "aa")) "b".
Proof. cbn zeta. split; [|whole]. do 4 eexists. rd "a"%string. ok "a"%string. Qed.
Print Assumptions C30_count_refuted.

(** [take_until_byte] without the byte: at the end of the input it has skipped everything it searched before, and takes
    the rest, nothing, for an empty input. *)
Theorem C30_take_until_byte_refuted :
  let p := optional (take_until_byte (C:=BC) (fun l => l) (ch ";")) in
  in_pieces p "ab" [""]%string (EndValue None) "ab" /\ fails_at_once p "ab".
Proof. cbn zeta. split; [|whole_fails]. do 4 eexists. eo ""%string. ok ""%string. Qed.
Print Assumptions C30_take_until_byte_refuted.

(** On strings, cut between characters.  [UC] has [&str] input; 233 is "é", two bytes long. *)
Definition UC := cfg_unexpected str_tok 100 true.
Definition u_pieces {S A} (p : parser UC S A) (cs : list (list N)) (fin : ending (C:=UC) nat A) (b' : list N) : Prop :=
  exists used st' pos' eof', session p (p_init p) 0 [] false cs used fin st' pos' b' eof'.
Definition u_fails {S A} (p : parser UC S A) (cs : list (list N)) (b' : list N) : Prop := exists e, u_pieces p cs (EndParse e) b'.
Definition u_once {S A} (p : parser UC S A) (w : list N) (r : PR A (Err UC)) (b' : list N) : Prop :=
  exists i, fresh p (@Inp UC w 0 false) = Done (r, i) /\ rest i = b'.
(** UTF-8, for code points below 2048. *)
Definition utf8_2 (c : N) : list N := if (c <? 128)%N then [c] else [192 + c / 64; 128 + c mod 64]%N.
Ltac by_vm := match goal with |- ?l = ?r => let v := eval vm_compute in l in unify r v; vm_cast_no_check (eq_refl v) end.
Ltac urd u := eapply (@ses_read UC _ _ _ _ _ _ _ u); [reflexivity|unfold call_error; by_vm|by_vm|discriminate|cbn [app]].
Ltac uok u := eapply (@ses_value UC _ _ _ _ _ _ _ _ u); [reflexivity|unfold call_value; by_vm].
Ltac uer := eapply (@ses_error UC); [unfold call_error; by_vm|solve [left; reflexivity|right; reflexivity]].
Ltac uwhole := eexists; split; [by_vm|reflexivity].

(** [range]: a literal that ends inside a character of the input is an error that stops everything, though other
    alternatives would match; only when the input may continue. *)
Theorem C30_range_str_refuted :
  let p := or_ (range (C:=UC) [97%N]) (range (C:=UC) [233%N]) in
  u_fails p [[233; 59]]%N [233; 59]%N /\ u_once p [233; 59]%N (CommitOk [233%N]) [59%N].
Proof. cbn zeta. split; [|uwhole]. do 5 eexists. urd (@nil N). uer. Qed.
Print Assumptions C30_range_str_refuted.

(** [take_until_range]: the same error, met while searching, is reported instead of the missing data. *)
Theorem C30_take_until_range_str_refuted :
  let p := take_until_range (C:=UC) [59%N] in
  u_fails p [[97; 233]]%N [97; 233]%N /\ u_once p [97; 233; 59]%N (CommitOk [97; 233]%N) [59%N].
Proof. cbn zeta. split; [|uwhole]. do 5 eexists. urd (@nil N). uer. Qed.
Print Assumptions C30_take_until_range_str_refuted.

(** [take_until_byte]: where to continue the search is computed from the last part searched only; that may be inside a
    character, where it cannot continue: the search starts at the front but its result is counted from there. *)
Theorem C30_take_until_byte_str_refuted :
  let p := take_until_byte (C:=UC) (List.flat_map utf8_2) 59%N in
  u_pieces p [[233]; [97]; [59; 97]]%N (EndValue [233; 97; 59]%N) [97%N] /\ u_once p [233; 97; 59; 97]%N (CommitOk [233; 97]%N) [59; 97]%N.
Proof. cbn zeta. split; [|uwhole]. do 4 eexists. urd (@nil N). urd (@nil N). urd (@nil N). uok [233; 97; 59]%N. Qed.
Print Assumptions C30_take_until_byte_str_refuted.
