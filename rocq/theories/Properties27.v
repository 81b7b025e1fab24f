(** Property C78: lists with separators after the elements, and chains of operators, read in pieces. *)
From Coq Require Import String List Bool Arith NArith Lia.
Import ListNotations.
From Verif Require Import Base Errors Instances Parser Token Combinator Sequence Choice Repeat RangeP ByteP.
From Verif Require Import Spec SeqSpec TidySpec RepeatSpec AgreeSpec RangeSpec DecodeSpec ChunkSpec LawsProofs LawsProofs2 CombProofs TidyProofs ChunkProofs7 StayProofs TotalSpec SteadySpec Properties1 Properties3 Properties4 Properties8.
Unset Implicit Arguments.

(** However the text is cut: the value is a first element and then one per separator, the separator after the last one
    is optional, and the rest is what follows. *)
Theorem C78_sep_end_by1 : forall C, eoi_laws C -> lawful C -> pos_distinct C ->
  forall a1 n1 h1 a2 n2 h2 S1 S2 A B (p : parser C S1 A) (sep : parser C S2 B),
  chunkable true a1 n1 h1 (fun _ : unit => p) -> chunkable true a2 n2 h2 (fun _ : unit => sep) -> history_free false p -> history_free false sep ->
  forall IoE pos b cs used v st' pos' b' eof', session (IoE:=IoE) (sep_end_by1 p sep) (p_init (sep_end_by1 p sep)) pos b false cs used (EndValue v) st' pos' b' eof' ->
  forall more, (eof' = true -> more = []) -> let i := Inp ((b ++ concat cs) ++ more) pos false in
  (exists x, fresh (sep_end_by1 p sep) i = Done x) ->
  exists c1 a i1 c2 l ib c3 i', succeeds (fresh p) i c1 a i1 /\ reps (pair_ok (fresh sep) (fresh p)) i1 c2 l ib /\
    ((fails (fresh sep) ib false /\ i' = ib /\ c3 = false) \/ (exists x, succeeds (fresh sep) ib c3 x i' /\ fails (fresh p) i' false)) /\
    v = a :: l /\ rest i' = b' ++ more.
Proof.
  intros C EL L D a1 n1 h1 a2 n2 h2 S1 S2 A B p sep H1 H2 H3 H4 IoE pos b cs used v st' pos' b' eof' HS more HM i [[r i'] HW].
  pose proof (C29_chunks C EL L D _ _ _ _ _ _ (sep_end_by1 p sep) (ck_sep_end_by1 H1 H2 (fun _ => H3) (fun _ => H4)) IoE _ _ _ _ _ _ _ _ _ _ _ (ready_init IoE _ false) HS more HM _ _ HW) as [u [_ [K2 K3]]].
  subst i' r. destruct (proj1 (C15_sep_end_by1_succeeds C S1 S2 A B p sep H3 H4 _ _ _ _) HW) as [c1 [a [i1 [c2 [l [ib [c3 [Q1 [Q2 [Q3 [_ [Q4 _]]]]]]]]]]]].
  exists c1, a, i1, c2, l, ib, c3, (Inp (b' ++ more) (pos_after pos u) false). repeat (split; [assumption|]). reflexivity.
Qed.
Print Assumptions C78_sep_end_by1.

(** The value of a chain is the operators applied from the left. *)
Theorem C78_chainl1 : forall C, eoi_laws C -> lawful C -> pos_distinct C ->
  forall x1 a1 h1 a2 n2 h2 S1 S2 A (p : parser C S1 A) (op : parser C S2 (A -> A -> A)),
  chunkable x1 a1 true h1 (fun _ : unit => p) -> chunkable true a2 n2 h2 (fun _ : unit => op) -> history_free false p -> history_free false op -> starts_alike p ->
  forall IoE pos b cs used v st' pos' b' eof', session (IoE:=IoE) (chainl1 p op) (p_init (chainl1 p op)) pos b false cs used (EndValue v) st' pos' b' eof' ->
  forall more, (eof' = true -> more = []) -> let i := Inp ((b ++ concat cs) ++ more) pos false in
  (exists x, fresh (chainl1 p op) i = Done x) ->
  exists c1 x i1 c2 fs i', succeeds (fresh p) i c1 x i1 /\ reps (pair_ok2 (fresh op) (fresh p)) i1 c2 fs i' /\
    pair_fails (fresh op) (fresh p) i' false /\ v = foldl_chain x fs /\ rest i' = b' ++ more.
Proof.
  intros C EL L D x1 a1 h1 a2 n2 h2 S1 S2 A p op H1 H2 H3 H4 H5 IoE pos b cs used v st' pos' b' eof' HS more HM i [[r i'] HW].
  pose proof (C29_chunks C EL L D _ _ _ _ _ _ (chainl1 p op) (ck_chainl1 H1 H2 (fun _ => H3) (fun _ => H4) (fun _ => H5)) IoE _ _ _ _ _ _ _ _ _ _ _ (ready_init IoE _ false) HS more HM _ _ HW) as [u [_ [K2 K3]]].
  subst i' r. destruct (proj1 (C16_chainl1_succeeds C S1 S2 A p op H3 H4 H5 _ _ _ _) HW) as [c1 [x [i1 [c2 [fs [Q1 [Q2 [Q3 [_ [Q4 _]]]]]]]]]].
  exists c1, x, i1, c2, fs, (Inp (b' ++ more) (pos_after pos u) false). repeat (split; [assumption|]). reflexivity.
Qed.
Print Assumptions C78_chainl1.

(** Once the list has consumed something, in the first call, every later answer of the resumed parser is committed: an
    enclosing choice or repetition cannot go back behind what was consumed. *)
Theorem C78_stays_committed : forall C S1 S2 A B (p : parser C S1 A) (sep : parser C S2 B), history_free false p -> history_free false sep ->
  forall i c1 a i1 c2 l ib, succeeds (fresh p) i c1 a i1 -> reps (pair_ok (fresh sep) (fresh p)) i1 c2 l ib -> c1 || c2 = true ->
  forall calls, Forall (fun c => fst c = false) calls ->
  (forall x, In x (removelast (trace (sep_end_by1 p sep) (p_init (sep_end_by1 p sep)) ((true, i) :: calls))) -> needs_more x) ->
  forall r j, In (Done (r, j)) (trace (sep_end_by1 p sep) (p_init (sep_end_by1 p sep)) ((true, i) :: calls)) -> committed r = true.
Proof. exact (fun C S1 S2 A B p sep H1 H2 => sep_end_stays p sep H1 H2). Qed.
Print Assumptions C78_stays_committed.

(** Numbers, each followed by a semicolon or not: "1;22;3x" as "1", ";2", "2;", "3x", and at once. *)
Definition c78_num := take_while1 (C:=BC) isd.
Definition c78_list := sep_end_by1 c78_num (ct ";").
Example C78_ex_class : chunkable true true false true (fun _ : unit => c78_num) /\ chunkable true true false true (fun _ : unit => ct ";") /\
  history_free false c78_num /\ history_free false (ct ";").
Proof.
  split; [eapply ck_take_while1|]. split; [eapply ck_token|]. split; apply tidy_history_free; [apply td_take_while1|apply td_unit].
Qed.
Example C78_ex_list : in_pieces c78_list "1" [";2"; "2;"; "3x"]%string (EndValue [t8 "1"; t8 "22"; t8 "3"]) "x" /\
  at_once c78_list "1;22;3x" (CommitOk [t8 "1"; t8 "22"; t8 "3"]) "x" /\
  in_pieces c78_list "1" [";2"; "2;"; "x"]%string (EndValue [t8 "1"; t8 "22"]) "x" /\
  at_once c78_list "1;22;x" (CommitOk [t8 "1"; t8 "22"]) "x".
Proof.
  split; [|split; [whole|split; [|whole]]].
  - do 4 eexists. rd ""%string. rd "1;"%string. rd "22;"%string. ok "3"%string.
  - do 4 eexists. rd ""%string. rd "1;"%string. rd "22;"%string. ok ""%string.
Qed.

(** Words (possibly empty) joined by minus signs, the operator takes away the letters of the right word's length: "abcd-x-y;". *)
Definition c78_word := take_while (C:=BC) isw.
Definition c78_minus := map (ct "-") (fun _ (a b : list N) => firstn (length a - length b) a).
Definition c78_chain := chainl1 c78_word c78_minus.
Example C78_ex_chain_class : chunkable true true true true (fun _ : unit => c78_word) /\ chunkable true true false true (fun _ : unit => c78_minus) /\
  history_free false c78_word /\ history_free false c78_minus /\ starts_alike c78_word.
Proof.
  split; [eapply ck_take_while|]. split; [eapply ck_map; eapply ck_token|]. split; [apply tidy_history_free; apply td_take_while|].
  split; [apply tidy_history_free; tidy_tac|]. intros i. unfold c78_word, take_while, mk_mode, parse_partial_range. cbn [p_run p_init]. reflexivity.
Qed.
Example C78_ex_chain : in_pieces c78_chain "ab" ["cd-"; "x"; "-y;"]%string (EndValue (t8 "ab")) ";" /\ at_once c78_chain "abcd-x-y;" (CommitOk (t8 "ab")) ";".
Proof.
  split; [|whole]. do 4 eexists. rd ""%string. rd "abcd-"%string. rd ""%string. ok "x-y"%string.
Qed.

(** With an operand that must not be empty the chain forgets, when it is suspended after an operator, that it owes an operand:
    "1-x" is the number 1 in pieces and an error at once. *)
Definition c30_sub := map (ct "-") (fun _ => N.sub).
Definition c30_digit := map (@satisfy BC isd) (fun d => (d - 48)%N).
Theorem C30_chainl1_refuted :
  let p := chainl1 c30_digit c30_sub in
  in_pieces p "1-" ["x"]%string (EndValue 1%N) "x" /\ fails_at_once p "1-x".
Proof. cbn zeta. split; [|whole_fails]. do 4 eexists. rd "1-"%string. ok ""%string. Qed.
Print Assumptions C30_chainl1_refuted.
Example C78_ex_stays :
  succeeds (fresh (sep_end_by1 (ct "1") (ct ";"))) (bpart (t8 "1;x")) true (t8 "1") (@Inp BC (t8 "x") 2 true) /\
  exists x y z, trace (sep_end_by1 (ct "1") (ct ";")) (p_init (sep_end_by1 (ct "1") (ct ";"))) [(true, bpart (t8 "1;")); (false, @Inp BC (t8 "1") 2 true); (false, @Inp BC (t8 "x") 3 true)] = [x; y; z] /\
  needs_more x /\ needs_more y /\ z = Done (CommitOk (t8 "11"), @Inp BC (t8 "x") 3 true).
Proof.
  split; [vm_compute; reflexivity|]. do 3 eexists. split; [vm_compute; reflexivity|].
  split; [do 2 eexists; reflexivity|]. split; [do 2 eexists; reflexivity|reflexivity].
Qed.

(** Both are in the class of C74 as well: their sessions end whatever the pieces. *)
Example C78_ex_steady z : (exists x a n h, steady z x a n h (fun _ : unit => c78_list)) /\ (exists x a n h, steady z x a n h (fun _ : unit => c78_chain)).
Proof.
  destruct C78_ex_class as [_ [_ [H1 H2]]]. destruct C78_ex_chain_class as [_ [_ [H3 [H4 H5]]]].
  split; do 4 eexists.
  - eapply sd_sep_end_by1; [eapply sd_take_while1|eapply sd_token|intros _; exact H1|intros _; exact H2|intros _; eapply (@sol_take_while1 BC z false)|intros _; eapply (@sol_token BC z false)].
  - eapply sd_chainl1; [eapply sd_take_while|eapply sd_map; eapply sd_token|intros _; exact H3|intros _; exact H4|intros _; exact H5|intros _; eapply (@sol_take_while BC z false)|].
    intros _. eapply sol_map. eapply (@sol_token BC z false).
Qed.
