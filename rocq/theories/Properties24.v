(** Property C75: the choice of the error type never changes what is parsed. *)
From Coq Require Import String List Bool Arith NArith Lia.
Import ListNotations.
From Verif Require Import Base Errors Instances Parser Token Combinator Sequence Choice Repeat RangeP ByteP Spec LibSpec AgreeSpec TidySpec DecodeM DecodeSpec.
From Verif Require Import RangeSpec LawsProofs LawsProofs2 AgreeProofs TidyProofs CombProofs ChunkSpec ChunkProofs7 TwinSpec TwinProofs Properties1 Properties3 Properties4 Properties7 Properties8.
Unset Implicit Arguments.

(** A complete text: the two parsers both succeed with the same value and leave the same rest, or both fail, or both panic.  *)
Theorem C75_parse : forall C (X : errty (tok C) (Pos C)), x_seoi X (x_eoi X) = se_is_eoi C (se_eoi C) ->
  forall S A (p : parser C S A) (p' : parser (retype C X) S A), twin false p p' ->
  forall i, ipart i = false ->
  both (fun x y => same_sum (fst x) (fst y) /\ snd y = retyped (snd x)) (parse p i) (parse p' (retyped i)).
Proof.
  intros C X Heoi S A p p' H i U. pose proof (s_stream _ _ _ (twin_sim false Heoi S A p p' H) i (or_intror U)) as K. unfold parse.
  eapply both_map; [exact K|]. intros [r j] [r' j'] [H1 [H2 H3]]. cbn [fst snd] in *. split; auto.
  destruct r, r'; simpl in *; try contradiction; auto.
Qed.
Print Assumptions C75_parse.

(** Whichever method is called, in whichever mode and with whatever state: the answers are of the same kind (success, failure,
    committed or not), with the same value, the stream is left at the same place and the partial state is the same.  Without
    [attempt] this is so on partial streams too. *)
Theorem C75_calls : forall C (X : errty (tok C) (Pos C)), x_seoi X (x_eoi X) = se_is_eoi C (se_eoi C) ->
  forall b S A (p : parser C S A) (p' : parser (retype C X) S A), twin b p p' ->
  p_init p' = p_init p /\
  forall i, b = true \/ ipart i = false ->
  both (same_out b) (p_lazy p i) (p_lazy p' (retyped i)) /\ both (same_out b) (p_stream p i) (p_stream p' (retyped i)) /\
  forall st, (forall first, both (same_run b) (p_run p first i st) (p_run p' first (retyped i) st) /\
                            both (same_run b) (p_cmode p first i st) (p_cmode p' first (retyped i) st)) /\
  both (fun x y => same_sum (fst (fst x)) (fst (fst y)) /\ snd (fst y) = retyped (snd (fst x)) /\ snd y = snd x)
    (parse_with_state p i st) (parse_with_state p' (retyped i) st).
Proof.
  intros C X Heoi b S A p p' H. destruct (twin_sim b Heoi S A p p' H) as [K1 K2 K3 K4 K5 K6]. split; [exact K1|]. intros i U.
  split; [apply K4, U|]. split; [apply K6, U|]. intros st. split; [split; [apply K3, U|apply K5, U]|].
  unfold parse_with_state, parse_stream_partial. pose proof (K3 false i st U) as R.
  destruct (p_run p false i st) as [[[r j] s]| |], (p_run p' false (retyped i) st) as [[[r' j'] s']| |]; simpl in R; try contradiction; simpl; auto.
  apply same_run_inv in R. destruct R as [R [-> [V ->]]]. destruct r, r'; simpl in *; try contradiction; auto.
Qed.
Print Assumptions C75_calls.

(** The text arrives in pieces and is decoded once with either error type, cut in different places: same value and same rest,
    or both sessions report that it does not parse.  [attempt] is included: in C29's class it cannot tell the two apart. *)
Theorem C75_sessions : forall C (X : errty (tok C) (Pos C)), eoi_laws C -> lawful C -> pos_distinct C -> eoi_laws (retype C X) ->
  forall S A (p : parser C S A) (p' : parser (retype C X) S A), twin false p p' ->
  forall x a n h, chunkable x a n h (fun _ : unit => p) -> forall x' a' n' h', chunkable x' a' n' h' (fun _ : unit => p') ->
  forall pos w r i, fresh p (Inp w pos false) = Done (r, i) ->
  forall IoE b1 cs1 used1 (fin1 : ending (C:=C) IoE A) st1 pos1 rest1 eof1 more1, session p (p_init p) pos b1 false cs1 used1 fin1 st1 pos1 rest1 eof1 ->
  forall IoE' b2 cs2 used2 (fin2 : ending (C:=retype C X) IoE' A) st2 pos2 rest2 eof2 more2,
    session p' (p_init p') pos b2 false cs2 used2 fin2 st2 pos2 rest2 eof2 ->
  w = (b1 ++ concat cs1) ++ more1 -> w = (b2 ++ concat cs2) ++ more2 -> (eof1 = true -> more1 = []) -> (eof2 = true -> more2 = []) ->
  match fin1, fin2 with
  | EndValue v1, EndValue v2 => v1 = v2 /\ rest1 ++ more1 = rest2 ++ more2
  | EndParse _, EndParse _ => True
  | EndValue _, EndParse _ | EndParse _, EndValue _ => False
  | EndIo _ _, _ | _, EndIo _ _ => True
  end.
Proof.
  intros C X EL L D EL' S A p p' HT x a n h HC x' a' n' h' HC' pos w r i HW IoE b1 cs1 used1 fin1 st1 pos1 rest1 eof1 more1 S1 IoE' b2 cs2 used2 fin2 st2 pos2 rest2 eof2 more2 S2 W1 W2 M1 M2.
  assert (Heoi : x_seoi X (x_eoi X) = se_is_eoi C (se_eoi C)). { rewrite (el_se EL). exact (el_se EL'). }
  assert (L' : lawful (retype C X)). { destruct L as [_ _ L3 L4 L5]. constructor; auto; [exact (el_se EL')|]. intros q. rewrite (el_from EL'). exact (el_se EL'). }
  pose proof (session_whole EL L D x a n h p IoE HC _ _ _ _ _ _ _ _ _ _ _ (ready_init IoE p false) S1 more1 M1) as K1.
  pose proof (session_whole EL' L' D x' a' n' h' p' IoE' HC' _ _ _ _ _ _ _ _ _ _ _ (ready_init IoE' p' false) S2 more2 M2) as K2.
  assert (U : usable false (@Inp C w pos false)) by (right; reflexivity).
  pose proof (twin_sim false Heoi S A p p' HT) as [K3 _ R _ _ _]. specialize (R true _ (p_init p) U).
  unfold whole_answer, fresh in *. rewrite <- W1 in K1. change (tok (retype C X)) with (tok C) in *. rewrite <- W2 in K2. specialize (K1 _ _ HW).
  destruct (p_run p true (Inp w pos false) (p_init p)) as [[[r0 i0] s0]| |]; try discriminate. injection HW as -> ->.
  change (retyped (Inp w pos false)) with (@Inp (retype C X) w pos false) in R. rewrite <- K3 in R.
  destruct (p_run p' true (@Inp (retype C X) w pos false) (p_init p')) as [[[r' i'] s']| |]; simpl in R; try contradiction.
  apply same_run_inv in R. destruct R as [R1 [R2 [_ R4]]]. specialize (K2 _ _ eq_refl).
  destruct fin1 as [v1|e1|? ?], fin2 as [v2|e2|? ?]; auto.
  - destruct K1 as [u1 [_ [I1 Q1]]]. destruct K2 as [u2 [_ [I2 Q2]]]. subst r i r'. rewrite I2 in R2. apply (f_equal (@rest _)) in R2. simpl in R2.
    split; [|symmetry; exact R2]. destruct (consumed_some u1), (consumed_some u2); simpl in R1; try contradiction; auto.
  - destruct K1 as [u1 [_ [_ Q1]]]. subst r. destruct (consumed_some u1), r'; simpl in *; try contradiction; discriminate.
  - destruct K2 as [u2 [_ [_ Q2]]]. subst r'. destruct (consumed_some u2), r; simpl in *; try contradiction; discriminate.
Qed.
Print Assumptions C75_sessions.

(** The error types of the library are such choices for one another. *)
Theorem C75_library : forall T fl d,
  (retype (cfg_easy T fl d) (errty_of (cfg_unexpected T fl d)) = cfg_unexpected T fl d /\
   se_is_eoi (cfg_unexpected T fl d) (se_eoi (cfg_unexpected T fl d)) = se_is_eoi (cfg_easy T fl d) (se_eoi (cfg_easy T fl d))) /\
  (retype (cfg_easy T fl d) (errty_of (cfg_string T fl d)) = cfg_string T fl d /\
   se_is_eoi (cfg_string T fl d) (se_eoi (cfg_string T fl d)) = se_is_eoi (cfg_easy T fl d) (se_eoi (cfg_easy T fl d))) /\
  (retype (cfg_easy T fl d) (errty_of (cfg_easy1 T fl d)) = cfg_easy1 T fl d /\
   se_is_eoi (cfg_easy1 T fl d) (se_eoi (cfg_easy1 T fl d)) = se_is_eoi (cfg_easy T fl d) (se_eoi (cfg_easy T fl d))) /\
  (retype (cfg_unexpected T fl d) (errty_of (cfg_string T fl d)) = cfg_string T fl d /\
   se_is_eoi (cfg_string T fl d) (se_eoi (cfg_string T fl d)) = se_is_eoi (cfg_unexpected T fl d) (se_eoi (cfg_unexpected T fl d))).
Proof. intros T fl d. repeat split. Qed.
Print Assumptions C75_library.

(** On a partial stream [attempt] does tell them apart: [attempt(token(b'a').message("m"))] with nothing to read asks for more
    data if the error is [easy::Errors], and with [easy::Error], whose [add] forgets the end of input, lets the next
    alternative be tried. *)
Definition c75_try (C : Cfg) (c : tok C) : parser C unit (tok C) := attempt (message (@token C c) (IStatic "m")).
Theorem C75_attempt_refuted : forall T fl d (c : t_tok T) (pos : t_Pos T),
  let D := cfg_easy1 T fl d in let C := cfg_easy T fl d in
  @twin C (errty_of D) false unit (t_tok T) (c75_try C c) (c75_try (retype C (errty_of D)) c) /\
  (exists e, p_run (c75_try C c) true (@Inp C [] pos true) tt = Done (CommitErr e, @Inp C [] pos true, tt)) /\
  (exists e, p_run (c75_try D c) true (@Inp D [] pos true) tt = Done (PeekErr e, @Inp D [] pos true, tt)).
Proof.
  intros T fl d c pos D C. split; [apply tw_attempt; [reflexivity|]; refine (@tw_message C (errty_of D) false unit (t_tok T) (@token C c) (@token (retype C (errty_of D)) c) (IStatic "m") _); exact (@tw_token C (errty_of D) false c)|]. split; eexists; reflexivity.
Qed.
Print Assumptions C75_attempt_refuted.

(** The message of C29 over any error type. *)
Definition c75_field (C : Cfg) (d : tok C -> bool) (comma : tok C) := no_partial (skip (take_while1 d) (token comma)).
Definition c75_msg (C : Cfg) (d w : tok C -> bool) (comma us semi : tok C) :=
  tuple (TC (many (c75_field C d comma)) (TC (many1 (or_ (satisfy w) (token us))) (TC (optional (take_while1 d)) (T1 (token semi))))).
Lemma c75_msg_class C d w comma us semi : exists x a n h, chunkable x a n h (fun _ : unit => c75_msg C d w comma us semi).
Proof.
  do 4 eexists. unfold c75_msg. eapply ck_tuple. eapply ck_TC.
  - eapply ck_many; [|intros; apply tidy_history_free; apply td_unit].
    unfold c75_field. eapply ck_no_partial; [|reflexivity]. eapply ck_skip; [eapply ck_take_while1|eapply ck_token].
  - eapply ck_TC.
    + eapply ck_many1; [|intros; apply tidy_history_free; tidy_tac].
      eapply (ck_weak (x:=true && true) (x':=true)); [eapply ck_or; [eapply ck_satisfy|eapply ck_token]| | | |]; intros Q; exact Q.
    + eapply ck_TC; [eapply ck_optional; eapply ck_take_while1|eapply ck_T1; eapply ck_token].
Qed.
Lemma c75_msg_twin b C X d w comma us semi : @twin C X b _ _ (c75_msg C d w comma us semi) (c75_msg (retype C X) d w comma us semi).
Proof.
  apply tw_tuple, tw_TC; [apply tw_many, tw_no_partial, tw_skip; [exact (@tw_take_while1 C X b d)|exact (@tw_token C X b comma)]|].
  apply tw_TC; [apply tw_many1, tw_or; [exact (@tw_satisfy C X b w)|exact (@tw_token C X b us)]|].
  apply tw_TC; [apply tw_optional; exact (@tw_take_while1 C X b d)|]. apply tw_T1. exact (@tw_token C X b semi).
Qed.

Definition UE := errty_of (cfg_unexpected bytes_tok 100 true).
Definition UB := retype BC UE.
Example C75_ex_laws : eoi_laws BC /\ lawful BC /\ pos_distinct BC /\ eoi_laws UB.
Proof.
  split; [apply eoi_laws_easy|]. split; [exact BC_lawful|]. split; [exact BC_distinct|]. exact (eoi_laws_unexpected bytes_tok 100 true).
Qed.
Notation m1 := (c75_msg BC isd isw 44%N 95%N 59%N).
Notation m2 := (c75_msg UB isd isw 44%N 95%N 59%N).
(** "1,22,ab_7;x" is understood with both, "1,22;" with neither; the reports differ. *)
Example C75_ex_parse :
  parse m1 (@Inp BC (t8 "1,22,ab_7;x") 0 false) = Done (inl c29_value, @Inp BC (t8 "x") 10 false) /\
  parse m2 (@Inp UB (t8 "1,22,ab_7;x") 0 false) = Done (inl c29_value, @Inp UB (t8 "x") 10 false) /\
  (exists e i, parse m1 (@Inp BC (t8 "1,22;") 0 false) = Done (inr e, i) /\ length (elist e) = 2) /\
  (exists i, parse m2 (@Inp UB (t8 "1,22;") 0 false) = Done (inr UUnexpected, i)).
Proof. repeat split; try (vm_compute; reflexivity); [|eexists; vm_compute; reflexivity]. do 2 eexists. split; vm_compute; reflexivity. Qed.
(** In pieces: "1", ",2", ... with [easy::Errors], "1,22,ab", "_7;xy" with [UnexpectedParse]. *)
Ltac urd u := eapply (@ses_read UB _ _ _ _ _ _ _ (t8 u)); [vm_compute; reflexivity|unfold call_error; vm_compute; reflexivity|vm_compute; reflexivity|discriminate|cbn [app]].
Ltac uok u := eapply (@ses_value UB _ _ _ _ _ _ _ _ (t8 u)); [vm_compute; reflexivity|unfold call_value; vm_compute; reflexivity].
Example C75_ex_sessions :
  (exists st' used pos', session (IoE:=nat) m1 (p_init m1) 0 [] false [t8 "1"; t8 ",2"; t8 "2,a"; t8 "b_7"; t8 ";x"] used (EndValue c29_value) st' pos' (t8 "x") false) /\
  (exists st' used pos', session (IoE:=bool) m2 (p_init m2) 0 (t8 "1,") false [t8 "22,ab"; t8 "_7;xy"] used (EndValue c29_value) st' pos' (t8 "xy") false).
Proof.
  split; do 3 eexists.
  - rd ""%string. rd ""%string. rd "1,"%string. rd "22,a"%string. rd "b_"%string. ok "7;"%string.
  - urd "1,"%string. urd "22,ab"%string. uok "_7;"%string.
Qed.
