(** Properties C09, C10, C20, C26, C33, C39-C44, C48: backtracking, lookahead, recognition, entry points, errors. *)
From Coq Require Import String List Bool Arith NArith Lia.
Import ListNotations.
From Verif Require Import Base Errors Instances Parser Token Combinator Sequence Choice Repeat RangeP ByteP Spec SeqSpec LibSpec ForwardProofs
  AgreeSpec AgreeProofs CombProofs2 ErrSpec ErrProofs ErrProofs2 ErrProofs3 ErrProofs4 LawsProofs LawsProofs2 Properties1.
Unset Implicit Arguments.

Local Notation bt c := (@token BC c).
Local Notation inp := (@Inp BC).
Lemma lib_forward {C S A} (p : parser C S A) : lib p -> forward p.
Proof. intros H. apply fwd_run. apply lib_fwd. exact H. Qed.
Lemma BC_laws : tok_laws bytes_tok.
Proof. exact bytes_tok_laws. Qed.
Lemma BC_distinct : pos_distinct BC.
Proof. apply distinct_bytes. Qed.
Local Notation ab := (pair2 (bt 97%N) (bt 98%N)).

(** * C09 *)
Theorem C09_attempt_success : forall C S A (p : parser C S A), lib p -> forall i c a i',
  succeeds (fresh (attempt p)) i c a i' <-> succeeds (fresh p) i c a i'.
Proof. intros C S A p H. apply attempt_succeeds. apply (lib_agree _ _ _ H). Qed.
Print Assumptions C09_attempt_success.
Theorem C09_attempt_failure_complete : forall C S A (p : parser C S A), lib p -> forall i c, ipart i = false ->
  (fails (fresh (attempt p)) i c <-> c = false /\ exists c0, fails (fresh p) i c0).
Proof. intros C S A p H. apply attempt_fails_complete; [apply (lib_agree _ _ _ H)|apply lib_forward; auto]. Qed.
Print Assumptions C09_attempt_failure_complete.
(** On any input: committed exactly when the input is partial and the committed failure of [p] is about its end. *)
Theorem C09_attempt_failure : forall C S A (p : parser C S A), lib p -> forall i c,
  fails (fresh (attempt p)) i c <->
  if c then ipart i = true /\ exists e, fails_with (fresh p) i true e /\ e_is_eoi C e = true
  else fails (fresh p) i false \/ exists e, fails_with (fresh p) i true e /\ (ipart i = false \/ e_is_eoi C e = false).
Proof. intros C S A p H. apply attempt_fails; [apply (lib_agree _ _ _ H)|apply lib_forward; auto]. Qed.
Print Assumptions C09_attempt_failure.
Theorem C09_attempt_or : forall C S1 S2 A (p : parser C S1 A) (q : parser C S2 A), lib p -> forall i c a i', ipart i = false ->
  (succeeds (fresh (or_ (attempt p) q)) i c a i' <->
   succeeds (fresh p) i c a i' \/ ((exists c0, fails (fresh p) i c0) /\ succeeds (fresh q) i c a i')).
Proof. intros C S1 S2 A p q H. apply attempt_or; [apply (lib_agree _ _ _ H)|apply lib_forward; auto]. Qed.
Print Assumptions C09_attempt_or.
Example C09_ex_lib : lib ab.
Proof. repeat constructor. Qed.
(** "ac": the plain pair commits and fails, the attempted one gives way to the second alternative; at the end of partial
    data it does not. *)
Example C09_ex : fails (fresh ab) (bin [97; 99]%N) true /\ fails (fresh (attempt ab)) (bin [97; 99]%N) false /\
  succeeds (fresh (or_ (attempt ab) (pair2 (bt 97%N) (bt 99%N)))) (bin [97; 99]%N) true (97, 99)%N (inp [] 2 false) /\
  fails (fresh (attempt ab)) (bpart [97]%N) true.
Proof. repeat split; try (do 3 eexists; (split; [vm_compute; reflexivity|split; reflexivity])). Qed.

(** * C10 *)
Theorem C10_look_ahead : forall C S A (p : parser C S A), lib p ->
  (forall i c a i', succeeds (fresh (look_ahead p)) i c a i' <-> c = false /\ i' = i /\ exists c0 i0, succeeds (fresh p) i c0 a i0) /\
  (forall i c e, fails_with (fresh (look_ahead p)) i c e <-> fails_with (fresh p) i c e) /\
  (forall i r i', fresh (look_ahead p) i = Done (r, i') -> i' = i).
Proof. intros C S A p H. apply look_ahead_spec. apply (lib_agree _ _ _ H). Qed.
Print Assumptions C10_look_ahead.
Theorem C10_not_followed_by : forall C S A (p : parser C S A),
  (forall i c u i', succeeds (fresh (not_followed_by p)) i c u i' <-> c = false /\ i' = i /\ exists c0, fails (fresh p) i c0) /\
  (forall i c, fails (fresh (not_followed_by p)) i c <-> c = false /\ exists c0 a i0, succeeds (fresh p) i c0 a i0) /\
  (forall i r i', fresh (not_followed_by p) i = Done (r, i') -> i' = i).
Proof. intros C S A p. apply not_followed_by_spec. Qed.
Print Assumptions C10_not_followed_by.
Example C10_ex : succeeds (fresh (look_ahead ab)) (bin [97; 98; 99]%N) false (97, 98)%N (bin [97; 98; 99]%N) /\
  fails (fresh (look_ahead ab)) (bin [97; 99]%N) true /\
  succeeds (fresh (not_followed_by ab)) (bin [97; 99]%N) false tt (bin [97; 99]%N) /\
  fails (fresh (not_followed_by ab)) (bin [97; 98]%N) false.
Proof. repeat split; try (do 3 eexists; (split; [vm_compute; reflexivity|split; reflexivity])). Qed.
(** [not_followed_by] also answers at the end of partial data, where more input could change the answer: it succeeds on "a"
    although the next chunk may begin with "b". *)
Example C10_partial : succeeds (fresh (not_followed_by ab)) (bpart [97]%N) false tt (bpart [97]%N).
Proof. reflexivity. Qed.

(** * C20 *)
Theorem C20_recognize : forall C, lawful C -> pos_distinct C -> forall S A (p : parser C S A), lib p ->
  (forall i c l i', succeeds (fresh (recognize p)) i c l i' <-> exists a, succeeds (fresh p) i c a i' /\ advanced_by i l i') /\
  (forall i c e, fails_with (fresh (recognize p)) i c e <-> fails_with (fresh p) i c e).
Proof. intros C L D S A p H. apply recognize_spec; auto. apply lib_forward; auto. Qed.
Print Assumptions C20_recognize.
Theorem C20_recognize_range : forall C, lawful C -> forall S A (p : parser C S A), lib p ->
  (forall i c l i', succeeds (fresh (recognize_range p)) i c l i' <->
     (exists c0 a, succeeds (fresh p) i c0 a i') /\ advanced_by i l i' /\ c = consumed_some l) /\
  (forall i c e, fails_with (fresh (recognize_range p)) i c e <-> fails_with (fresh p) i c e).
Proof. intros C L S A p H. apply recognize_range_spec; auto. apply lib_forward; auto. Qed.
Print Assumptions C20_recognize_range.
Theorem C20_recognize_with_value : forall C, lawful C -> forall S A (p : parser C S A), lib p ->
  (forall i c l a i', succeeds (fresh (recognize_with_value p)) i c (l, a) i' <->
     (exists c0, succeeds (fresh p) i c0 a i') /\ advanced_by i l i' /\ c = consumed_some l) /\
  (forall i c e, fails_with (fresh (recognize_with_value p)) i c e <-> fails_with (fresh p) i c e).
Proof. intros C L S A p H. apply recognize_with_value_spec; auto. apply lib_forward; auto. Qed.
Print Assumptions C20_recognize_with_value.
Theorem C20_positions : forall fl d, pos_distinct (cfg_easy bytes_tok fl d) /\ pos_distinct (cfg_string str_tok fl d) /\ pos_distinct (cfg_string src_tok fl d).
Proof. intros. split; [apply distinct_bytes|split; [apply distinct_str|apply distinct_src]]. Qed.
Print Assumptions C20_positions.
Definition c20_p := skip (sep_by (many1 (b_digit (C:=BC) (fun x => x))) (bt 44%N)) (optional (bt 59%N)).
Example C20_ex_lib : lib c20_p.
Proof. repeat constructor. Qed.
Example C20_ex : succeeds (fresh (recognize c20_p)) (bin [49; 50; 44; 51; 59; 7]%N) true [49; 50; 44; 51; 59]%N (inp [7]%N 5 false) /\
  succeeds (fresh (recognize_with_value c20_p)) (bin [49; 50; 44; 51; 59; 7]%N) true ([49; 50; 44; 51; 59], [[49; 50]; [51]])%N (inp [7]%N 5 false) /\
  succeeds (fresh (recognize_range c20_p)) (bin [7]%N) false [] (bin [7]%N).
Proof. repeat split. Qed.

(** * C26 *)
Theorem C26_parse_ok : forall T fl d S A (p : parser (cfg_easy T fl d) S A), lib p -> forall i v i',
  parse p i = Done (inl v, i') <-> exists c, succeeds (fresh p) i c v i'.
Proof. intros T fl d S A p H. apply parse_ok. apply (lib_agree _ _ _ H). Qed.
Print Assumptions C26_parse_ok.
Theorem C26_parse_committed : forall T fl d S A (p : parser (cfg_easy T fl d) S A), lib p -> forall i e,
  fails_with (fresh p) i true e -> exists i', parse p i = Done (inr e, i').
Proof. intros T fl d S A p H. apply parse_committed. apply (lib_agree _ _ _ H). Qed.
Print Assumptions C26_parse_committed.
(** All library parsers but an outermost [attempt]. *)
Theorem C26_parse_backtracks : forall T fl d, tok_laws T -> forall S A (p : parser (cfg_easy T fl d) S A), lib p -> forall i, fails (fresh p) i false ->
  outer_attempt p \/ exists e, parse p i = Done (inr e, i) /\ said (elist e) (found i).
Proof. intros T fl d L S A p H. apply parse_backtracks; auto. Qed.
Print Assumptions C26_parse_backtracks.
(** [parse_stream_partial] and with it [parse_with_state]: all library parsers, from every state. *)
Theorem C26_parse_stream_partial : forall T fl d, tok_laws T -> forall S A (p : parser (cfg_easy T fl d) S A), lib p -> forall i st,
  match p_run p false i st, parse_stream_partial p i st with
  | Done (r, i', s'), Done (r2, i2, s2) => s2 = s' /\ shape r2 = shape r /\
      match r with PeekErr _ => i2 = i /\ exists e, error_of r2 = Some e /\ said (elist e) (found i) | _ => r2 = r /\ i2 = i' end
  | Panic, Panic | OOF, OOF => True
  | _, _ => False
  end.
Proof. intros T fl d L S A p H. apply parse_partial_spec; auto. Qed.
Print Assumptions C26_parse_stream_partial.
Definition c26_p := choice (AC (map ab fst) (AC (attempt (map (pair2 (bt 99%N) (bt 100%N)) fst)) (AL (bt 101%N)))).
Example C26_ex : lib c26_p /\ fails (fresh c26_p) (bin [99; 97]%N) false /\
  parse c26_p (bin [99; 97]%N) =
    Done (inr (MkErrs 1 [EUnexpected (IToken 97); EExpected (IToken 100); EUnexpected (IToken 99); EExpected (IToken 97); EExpected (IToken 99); EExpected (IToken 101)]%N), bin [99; 97]%N).
Proof. split; [repeat constructor|]. split; [do 3 eexists; (split; [vm_compute; reflexivity|split; reflexivity])|vm_compute; reflexivity]. Qed.
(** False of [attempt] itself: the report of [attempt(('a', 'b'))] on "ac" does not mention the first token and the input
    stays moved. *)
Theorem C26_attempt_refuted : exists i e i', fails (fresh (attempt ab)) i false /\ parse (attempt ab) i = Done (inr e, i') /\
  ~ said (elist e) (found i) /\ i' <> i.
Proof.
  exists (bin [97; 99]%N). do 2 eexists. split; [do 3 eexists; (split; [vm_compute; reflexivity|split; reflexivity])|].
  split; [vm_compute; reflexivity|]. split; [|discriminate]. cbn. intros [x [Hx [m [H1 H2]]]]. inversion H2; subst.
  repeat destruct Hx as [<-|Hx]; try discriminate; try contradiction.
Qed.
Print Assumptions C26_attempt_refuted.

(** * C33 *)
Theorem C33_any_partial_state : forall C S A (p : parser C S A) i, fresh (any_partial_state p) i = fresh p i.
Proof. intros. apply any_partial_fresh. Qed.
Print Assumptions C33_any_partial_state.
Theorem C33_any_partial_state_calls : forall C S A (p : parser C S A) calls,
  (forall x, In x (removelast (trace p (p_init p) calls)) -> needs_more x) ->
  trace (any_partial_state p) (p_init (any_partial_state p)) calls = trace p (p_init p) calls.
Proof. intros. apply any_partial_trace. auto. Qed.
Print Assumptions C33_any_partial_state_calls.
Definition c33_p := many1 (bt 97%N).
Definition c33_calls := [(false, bpart [97; 97]%N); (false, bpart [97]%N); (false, bpart [98]%N)].
Example C33_ex : (forall x, In x (removelast (trace c33_p (p_init c33_p) c33_calls)) -> needs_more x) /\
  last (trace (any_partial_state c33_p) None c33_calls) OOF = Done (CommitOk [97; 97; 97]%N, bpart [98]%N).
Proof.
  split; [|vm_compute; reflexivity]. vm_compute. intros x [<-|[<-|[]]]; do 2 eexists; reflexivity.
Qed.

(** * C39 *)
Theorem C39_merge_furthest : forall T, tok_laws T -> forall a b : errors (t_tok T) (t_Pos T),
  (t_pos_cmp T (eposition a) (eposition b) = Lt -> easy_merge T a b = b) /\
  (t_pos_cmp T (eposition b) (eposition a) = Lt -> easy_merge T a b = a) /\
  (eposition a = eposition b -> exists l', news (elist a) (elist b) l' /\ easy_merge T a b = MkErrs (eposition a) (elist a ++ l')).
Proof. intros T L a b. split; [apply merge_lt|]. split; [intros H; apply merge_gt; apply cmp_gt_lt; auto|apply merge_eq; auto]. Qed.
Print Assumptions C39_merge_furthest.
Theorem C39_merge_assoc : forall T, tok_laws T -> forall a b c : errors (t_tok T) (t_Pos T),
  easy_merge T (easy_merge T a b) c = easy_merge T a (easy_merge T b c).
Proof. intros. apply merge_assoc; auto. Qed.
Print Assumptions C39_merge_assoc.
Theorem C39_merge_idem : forall T, tok_laws T -> forall a : errors (t_tok T) (t_Pos T), (forall e, In e (elist a) -> says e <> None) -> easy_merge T a a = a.
Proof. intros. apply merge_idem; auto. Qed.
Print Assumptions C39_merge_idem.
Theorem C39_no_repeats : forall T, tok_laws T -> forall (a b : errors (t_tok T) (t_Pos T)) e, no_repeats (elist a) -> no_repeats (elist b) ->
  no_repeats (elist (easy_add T a e)) /\ no_repeats (elist (easy_merge T a b)).
Proof. intros T L a b e Ha Hb. split; [apply easy_add_no_repeats; auto|apply merge_no_repeats; auto]. Qed.
Print Assumptions C39_no_repeats.
Theorem C39_add : forall T, tok_laws T -> forall (a : errors (t_tok T) (t_Pos T)) e,
  (said (elist a) e /\ easy_add T a e = a) \/ (~ said (elist a) e /\ easy_add T a e = MkErrs (eposition a) (elist a ++ [e])).
Proof. intros T L a e. apply easy_add_cases; auto. Qed.
Print Assumptions C39_add.
Example C39_ex : tok_laws bytes_tok /\ tok_laws str_tok /\ tok_laws src_tok /\
  easy_merge bytes_tok (MkErrs 3 [EUnexpected (IToken 1); EExpected (IStatic "x")]%N) (MkErrs 3 [EExpected (IFormat "x"); EExpected (IToken 2); EMessage (IStatic "x")]%N)
  = MkErrs 3 [EUnexpected (IToken 1); EExpected (IStatic "x"); EExpected (IToken 2); EMessage (IStatic "x")]%N.
Proof. split; [exact bytes_tok_laws|]. split; [exact str_tok_laws|]. split; [exact src_tok_laws|]. reflexivity. Qed.
(** Opaque errors are not idempotent. *)
Theorem C39_other_refuted : exists a : errors N nat, easy_merge bytes_tok a a <> a.
Proof. exists (MkErrs 0 [EOther "io"]). discriminate. Qed.
Print Assumptions C39_other_refuted.

(** * C40 *)
Theorem C40_expected_same : forall C S A (p : parser C S A) m i, fresh (expected p m) i = fresh p i.
Proof. reflexivity. Qed.
Print Assumptions C40_expected_same.
(** [add_error] of [expected(p)]: where [p] would add [l], only the entries of [l] that are not expectations are kept, and
    [m] is the one expectation (unless it is there already). *)
Theorem C40_expected_add_error : forall T fl d, tok_laws T -> forall S A (p : parser (cfg_easy T fl d) S A) m, lib p ->
  forall t : trk (errors (t_tok T) (t_Pos T)), exists l x,
  elist (terr (p_adderr p t)) = elist (terr t) ++ l /\
  news (elist (terr t) ++ others l) [EExpected m] x /\
  terr (p_adderr (expected p m) t) = MkErrs (eposition (terr t)) (elist (terr t) ++ others l ++ x).
Proof. intros T fl d L S A p m H. apply expected_adds; auto. Qed.
Print Assumptions C40_expected_add_error.
Theorem C40_expected_report : forall T fl d, tok_laws T -> forall S A (p : parser (cfg_easy T fl d) S A) m, lib p ->
  forall i t i', fresh p i = Done (PeekErr t, i') ->
  exists f l x,
    news (elist (terr t)) [found i] f /\
    (outer_attempt p \/ parse p i = Done (inr (MkErrs (eposition (terr t)) (elist (terr t) ++ f ++ l)), i)) /\
    news (elist (terr t) ++ f ++ others l) [EExpected m] x /\
    parse (expected p m) i = Done (inr (MkErrs (eposition (terr t)) (elist (terr t) ++ f ++ others l ++ x)), i).
Proof. intros T fl d L S A p m H. apply expected_parse; auto. Qed.
Print Assumptions C40_expected_report.
Theorem C40_message_same : forall T fl d S A (p : parser (cfg_easy T fl d) S A) m i,
  (forall c a i', succeeds (fresh (message p m)) i c a i' <-> succeeds (fresh p) i c a i') /\
  (forall c, fails (fresh (message p m)) i c <-> fails (fresh p) i c).
Proof. intros. apply message_same. Qed.
Print Assumptions C40_message_same.
Theorem C40_message_report : forall T fl d, tok_laws T -> forall S A (p : parser (cfg_easy T fl d) S A) m, lib p ->
  (forall i t i', fresh p i = Done (PeekErr t, i') ->
   exists e x, (outer_attempt p \/ parse p i = Done (inr e, i)) /\ (exists l, elist e = elist (terr t) ++ l) /\ said (elist e) (found i) /\
     news (elist e) [EMessage m] x /\ parse (message p m) i = Done (inr (MkErrs (eposition e) (elist e ++ x)), i)) /\
  (forall i e, fails_with (fresh p) i true e ->
   exists x, news (elist e) [EMessage m] x /\ fails_with (fresh (message p m)) i true (MkErrs (eposition e) (elist e ++ x))).
Proof. intros T fl d L S A p m H. split; [apply message_parse; auto|intros i e; apply message_committed; auto]. Qed.
Print Assumptions C40_message_report.
Theorem C40_silent : forall T fl d S A (p : parser (cfg_easy T fl d) S A) i,
  (forall c a i', succeeds (fresh (silent p)) i c a i' <-> succeeds (fresh p) i c a i') /\
  (forall c e, fails_with (fresh (silent p)) i c e <-> exists e0, fails_with (fresh p) i c e0 /\ e = MkErrs (eposition e0) (others (elist e0))).
Proof. intros. apply silent_same. Qed.
Print Assumptions C40_silent.
Theorem C40_silent_report : forall T fl d, tok_laws T -> forall S A (p : parser (cfg_easy T fl d) S A) i t i', fresh p i = Done (PeekErr t, i') ->
  exists f, news (others (elist (terr t))) [found i] f /\
    parse (silent p) i = Done (inr (MkErrs (eposition (terr t)) (others (elist (terr t)) ++ f)), i).
Proof. intros T fl d L S A p. apply silent_parse; auto. Qed.
Print Assumptions C40_silent_report.
Theorem C40_unexpected : forall T fl d, tok_laws T -> forall A m (i : input (cfg_easy T fl d)),
  fails (fresh (@unexpected_any (cfg_easy T fl d) A m)) i false /\
  exists x, news [found i] [EUnexpected m] x /\ parse (@unexpected_any (cfg_easy T fl d) A m) i = Done (inr (MkErrs (ipos i) (found i :: x)), i).
Proof. intros T fl d L A m i. apply unexpected_parse; auto. Qed.
Print Assumptions C40_unexpected.
Definition c40_p := expected (or_ (bt 97%N) (or_ (bt 98%N) (unexpected_any (IStatic "keyword")))) (IStatic "letter").
Example C40_ex : parse c40_p (bin [99]%N) =
    Done (inr (MkErrs 0 [EUnexpected (IToken 99%N); EUnexpected (IStatic "keyword"); EExpected (IStatic "letter")]), bin [99]%N) /\
  parse (message c40_p (IStatic "m")) (bin []%N) =
    Done (inr (MkErrs 0 [easy_eoi; EUnexpected (IStatic "keyword"); EExpected (IStatic "letter"); EMessage (IStatic "m")]), bin []) /\
  parse (silent c40_p) (bin [99]%N) = Done (inr (MkErrs 0 [EUnexpected (IToken 99%N)]), bin [99]%N).
Proof. repeat split. Qed.

(** * C41 *)
Theorem C41_choice_of_tokens : forall T fl d, tok_laws T -> forall (l : list (t_tok T)) (t : t_tok T) ts (i : input (cfg_easy T fl d)),
  (rest i = [] -> ipart i = false) -> (forall x r, rest i = x :: r -> ~ In x (t :: l)) -> firsts [] (t :: l) ts ->
  parse (choice (token_alts t l)) i = Done (inr (MkErrs (ipos i) (found i :: List.map (fun x => EExpected (IToken x)) ts)), i).
Proof. intros T fl d L l t ts i. apply choice_tokens_error; auto. Qed.
Print Assumptions C41_choice_of_tokens.
Theorem C41_slice_of_tokens : forall T fl d, tok_laws T -> forall (l : list (t_tok T)) ts (i : input (cfg_easy T fl d)), l <> [] ->
  (rest i = [] -> ipart i = false) -> (forall x r, rest i = x :: r -> ~ In x l) -> firsts [] l ts ->
  parse (choice_slice tt (List.map (@token (cfg_easy T fl d)) l)) i = Done (inr (MkErrs (ipos i) (found i :: List.map (fun x => EExpected (IToken x)) ts)), i).
Proof. intros T fl d L l ts i. apply slice_tokens_error; auto. Qed.
Print Assumptions C41_slice_of_tokens.
Example C41_ex : firsts [] [3; 4; 3; 5]%N [3; 4; 5]%N /\
  parse (choice (token_alts (T:=bytes_tok) (fl:=100) (dg:=true) 3 [4; 3; 5])%N) (bin [9]%N)
  = Done (inr (MkErrs 0 [EUnexpected (IToken 9); EExpected (IToken 3); EExpected (IToken 4); EExpected (IToken 5)]%N), bin [9]%N).
Proof.
  split; [|reflexivity]. apply firsts_new; [intros []|]. apply firsts_new; [intros [H|[]]; discriminate|]. apply firsts_old; [left; auto|].
  apply firsts_new; [intros [H|[H|[]]]; discriminate|]. constructor.
Qed.

(** Any alternatives, each failed before one of its parts had succeeded: what all of them expected is reported. *)
Theorem C41_choice : forall T fl d A SS (t : alts (C:=cfg_easy T fl d) A SS) i e es, alts_fail t i (e :: es) ->
  parse (choice t) i = Done (inr (expectations (alts_errfns t) (own_report i (merged e es))), i).
Proof. intros T fl d A SS t i e es. apply choice_report. Qed.
Print Assumptions C41_choice.
Definition c41_alts := AC (map (skip (bt 97%N) (bt 98%N)) (fun t => [t])) (AC (many1 (bt 99%N)) (AL (expected (many1 (bt 100%N)) (IStatic "ds")))).
Example C41_choice_ex : (exists e1 e2 e3, alts_fail c41_alts (bin [120]%N) [e1; e2; e3]) /\
  parse (choice c41_alts) (bin [120]%N) = Done (inr (MkErrs 0 [EUnexpected (IToken 120); EExpected (IToken 97); EExpected (IToken 99); EExpected (IStatic "ds")]%N), bin [120]%N).
Proof.
  split; [|vm_compute; reflexivity]. do 3 eexists. cbn [alts_fail c41_alts]. do 3 eexists. split; [reflexivity|]. split; [vm_compute; reflexivity|].
  do 3 eexists. split; [reflexivity|]. split; [vm_compute; reflexivity|]. do 2 eexists. split; [reflexivity|]. vm_compute; reflexivity.
Qed.
(** In general a failed choice does not report all alternatives: next to a sequence that failed in its second part,
    an alternative that is a single token is left out of the report. *)
Theorem C41_all_alternatives_refuted : ~ (forall t a b (x : N), x <> t -> x <> a -> x <> b ->
  exists e i', parse (or_ (bt t) (with_ (optional (bt a)) (bt b))) (bin [x]) = Done (inr e, i') /\ said (elist e) (EExpected (IToken t))).
Proof.
  intros H. destruct (H 49 97 50 120)%N as [e [i' [K S]]]; [discriminate..|]. vm_compute in K. inversion K; subst. destruct S as [x [Hx [m [S1 S2]]]]. cbn in S2.
  inversion S2; subst. cbn in Hx. destruct Hx as [<-|[<-|[<-|[]]]]; discriminate S1.
Qed.
Print Assumptions C41_all_alternatives_refuted.

(** * C42 *)
Theorem C42_sequence_of_tokens : forall T fl d, tok_laws T ->
  forall (l : list (t_tok T)) t before tk more r (i : input (cfg_easy T fl d)), t :: l = before ++ tk :: more -> rest i = before ++ r ->
  (forall r', r <> tk :: r') -> (r = [] -> ipart i = false) ->
  fails (fresh (tuple (token_tuple t l))) i (match before with [] => false | _ => true end) /\
  exists i', parse (tuple (token_tuple t l)) i =
    Done (inr (MkErrs (@pos_after (cfg_easy T fl d) (ipos i) before)
                [match r with x :: _ => EUnexpected (IToken x) | [] => easy_eoi end; EExpected (IToken tk)]), i').
Proof. intros T fl d L l t before tk more r i H1 H2 H3 H4. exact (tuple_tokens_error L l t before tk more r i H1 H2 H3 H4). Qed.
Print Assumptions C42_sequence_of_tokens.
(** Any parts that are not themselves sequences or choices: after a commitment in part [f - 1] the parts from [f] to the
    failing [k] are what was expected, and part [f - 1] may say it could have gone on. *)
Theorem C42_sequence : forall C (d : errfns (C:=C)) SS B (t : tup (C:=C) SS B) k f i ib e, Forall plain_part (tup_errfns t) ->
  seq_prefix t i k f ib e -> 1 <= f -> toff e = 1%N -> k <= 254 \/ f = k ->
  fails_with (fresh (tuple t)) i true
    (expectations (firstn (S (k - f)) (skipn f (tup_errfns t))) (could_continue (nth (f - 1) (tup_errfns t) d) (with_found ib (terr e)))).
Proof. intros. apply tuple_blame; auto. Qed.
Print Assumptions C42_sequence.
Definition c42_t := TC (bt 97%N) (TC (many1 (bt 98%N)) (TC (optional (bt 99%N)) (TC (optional (bt 100%N)) (TC (bt 101%N) (T1 (bt 102%N)))))).
Example C42_ex : Forall plain_part (tup_errfns c42_t) /\
  (exists ib e, seq_prefix c42_t (bin [97; 98; 120]%N) 4 2 ib e /\ toff e = 1%N) /\
  parse (tuple c42_t) (bin [97; 98; 120]%N) =
    Done (inr (MkErrs 2 [EUnexpected (IToken 120); EExpected (IToken 98); EExpected (IToken 99); EExpected (IToken 100); EExpected (IToken 101)]%N), inp [] 3 false).
Proof.
  split; [|split].
  - repeat apply Forall_cons; try apply Forall_nil; (split; [reflexivity|]; split; intros [? ?]; reflexivity).
  - do 2 eexists. split.
    2: { instantiate (1 := Trk _ 1%N). reflexivity. }
    cbn [seq_prefix c42_t]. right. exists true. do 4 eexists. split; [vm_compute; reflexivity|]. split; [|split; [reflexivity|]].
    { right. exists true. do 4 eexists. split; [vm_compute; reflexivity|]. split; [|split; [reflexivity|]].
      { right. exists false. do 4 eexists. split; [vm_compute; reflexivity|]. split; [|split; [reflexivity|]].
        { right. exists false. do 4 eexists. split; [vm_compute; reflexivity|]. split; [|split; [reflexivity|]].
          { left. split; [reflexivity|]. split; [reflexivity|]. split; [reflexivity|]. eexists. vm_compute. reflexivity. }
          reflexivity. }
        reflexivity. }
      reflexivity. }
    reflexivity.
  - vm_compute. reflexivity.
Qed.

(** The failing part is itself a sequence, failed in its part [n]: of it, the parts up to [n] are reported. *)
Theorem C42_nested : forall C SS B S2 B2 (t : tup (C:=C) SS B) (t2 : tup (C:=C) S2 B2) done last pre post f i ib e n,
  tup_errfns t = done ++ last :: pre ++ errfns_of (tuple t2) :: post -> Forall plain_part (done ++ last :: pre) -> Forall plain_part (tup_errfns t2) ->
  seq_prefix t i (length (done ++ last :: pre)) f ib e -> f = S (length done) -> toff e = N.of_nat (S n) -> n < length (tup_errfns t2) ->
  length (done ++ last :: pre) <= 254 ->
  fails_with (fresh (tuple t)) i true (expectations (pre ++ firstn (S n) (tup_errfns t2)) (could_continue last (with_found ib (terr e)))).
Proof. intros C SS B S2 B2 t t2 done last pre post f i ib e n. apply tuple_nested. Qed.
Print Assumptions C42_nested.
(** Such a part fails with the number of the failed part in its error. *)
Theorem C42_inner : forall C SS B (t : tup (C:=C) SS B) n i ib e, Forall plain_part (tup_errfns t) -> seq_prefix t i n 0 ib e -> toff e = 1%N -> n <= 254 ->
  exists ia, fresh (tuple t) i = Done (PeekErr (Trk (terr e) (N.of_nat (S n))), ia).
Proof. intros C SS B t n i ib e. apply tuple_peek. Qed.
Print Assumptions C42_inner.
Definition c42_in := TC (optional (bt 99%N)) (TC (bt 100%N) (T1 (bt 101%N))).
Definition c42_out := TC (bt 97%N) (TC (optional (bt 98%N)) (TC (tuple c42_in) (T1 (bt 102%N)))).
Example C42_nested_ex : exists ib e, seq_prefix c42_out (bin [97; 120]%N) 2 1 ib e /\ toff e = 2%N /\
  parse (tuple c42_out) (bin [97; 120]%N) =
    Done (inr (MkErrs 1 [EUnexpected (IToken 120); EExpected (IToken 98); EExpected (IToken 99); EExpected (IToken 100)]%N), inp [] 2 false).
Proof.
  do 2 eexists. split; [|split].
  2: { instantiate (1 := Trk _ 2%N). reflexivity. }
  - cbn [seq_prefix c42_out]. right. exists true. do 4 eexists. split; [vm_compute; reflexivity|]. split; [|split; [reflexivity|]].
    { right. exists false. do 4 eexists. split; [vm_compute; reflexivity|]. split; [|split; [reflexivity|]].
      { left. split; [reflexivity|]. split; [reflexivity|]. split; [reflexivity|]. eexists. vm_compute. reflexivity. }
      reflexivity. }
    reflexivity.
  - vm_compute. reflexivity.
Qed.
(** Which parts are reported does depend on how a sequence is nested if a nested sequence was passed without commitment:
    the failing part can be left out, and a part behind the failing one can be reported. *)
Definition errors_of {A B E} (o : outcome ((A + E) * B)) : option E := match o with Done (inr e, _) => Some e | _ => None end.
Theorem C42_nesting_refuted :
  ~ (forall a b c d e i, errors_of (parse (tuple (TC (bt a) (TC (pair2 (optional (bt b)) (optional (bt c))) (TC (optional (bt d)) (T1 (bt e)))))) i)
       = errors_of (parse (tuple (TC (bt a) (TC (optional (bt b)) (TC (optional (bt c)) (TC (optional (bt d)) (T1 (bt e))))))) i)) /\
  ~ (forall a b c d i, errors_of (parse (tuple (TC (pair2 (optional (bt a)) (optional (bt b))) (TC (bt c) (T1 (bt d))))) i)
       = errors_of (parse (tuple (TC (optional (bt a)) (TC (optional (bt b)) (TC (bt c) (T1 (bt d)))))) i)).
Proof.
  split; intros H.
  - specialize (H 49 97 98 99 100 (bin [49; 120]))%N. vm_compute in H. discriminate.
  - specialize (H 97 98 99 100 (bin [120]))%N. vm_compute in H. discriminate.
Qed.
Print Assumptions C42_nesting_refuted.

(** * C43 *)
(** End of input stays end of input, and nothing else becomes it, for the minimal types into each representation. *)
Theorem C43_minimal_into : forall T fl d u s,
  let Ds := [cfg_unexpected T fl d; cfg_string T fl d; cfg_easy T fl d; cfg_easy1 T fl d] in
  Forall (fun D => se_is_eoi D (u_into D u) = match u with UEoi => true | _ => false end /\
                   se_is_eoi D (s_into D s) = match s with SEoi => true | _ => false end) Ds.
Proof. intros T fl d u s. repeat constructor; destruct u, s; reflexivity. Qed.
Print Assumptions C43_minimal_into.
Theorem C43_minimal_into_err : forall T fl d p0 u s,
  e_is_eoi (cfg_easy T fl d) (u_into_err (cfg_easy T fl d) p0 u) = (match u with UEoi => true | _ => false end) /\
  e_is_eoi (cfg_easy T fl d) (s_into_err (cfg_easy T fl d) p0 s) = (match s with SEoi => true | _ => false end) /\
  eposition (u_into_err (cfg_easy T fl d) p0 u) = p0 /\ eposition (s_into_err (cfg_easy T fl d) p0 s) = p0 /\
  u_into_err (cfg_string T fl d) p0 u = (match u with UEoi => SEoi | _ => SUnexpectedParse end) /\
  s_into_err (cfg_unexpected T fl d) p0 s = (match s with SEoi => UEoi | _ => UUnexpected end).
Proof. intros T fl d p0 u s. destruct u, s; repeat split. Qed.
Print Assumptions C43_minimal_into_err.
(** [easy::Error] into [easy::Error]: unexpected and expected entries stay what they are. *)
Theorem C43_easy_into_easy : forall T fl d (e : easy_error (t_tok T)),
  (exists x, e = EUnexpected x \/ e = EExpected x) -> easy1_into (cfg_easy T fl d) e = e.
Proof. intros T fl d e [x [->| ->]]; reflexivity. Qed.
Print Assumptions C43_easy_into_easy.
(** The position always survives, through both conversions of [easy::Errors]. *)
Lemma into_all_pos T fl d l : forall acc, eposition (fold_left (fun acc e => easy_add T acc (easy1_into (cfg_easy T fl d) e)) l acc) = eposition acc.
Proof. induction l as [|e l IH]; intros acc; cbn; auto. rewrite IH. apply easy_add_append. Qed.
Theorem C43_position : forall T fl d (es : errors (t_tok T) (t_Pos T)),
  eposition (easy_into (cfg_easy T fl d) es) = eposition es /\ eposition (easy_into_all (cfg_easy T fl d) es) = eposition es.
Proof.
  intros T fl d [p l]. split.
  - unfold easy_into. change (elist (MkErrs p l)) with l. generalize (@rev (easy_error (tok (cfg_easy T fl d))) l). intros [|e r]; reflexivity.
  - exact (into_all_pos T fl d l (MkErrs p [])).
Qed.
Print Assumptions C43_position.
(** [into_other_error] keeps every unexpected and expected entry, in order and once. *)
Theorem C43_easy_into_all : forall T fl d, tok_laws T -> forall es : errors (t_tok T) (t_Pos T),
  (forall e, In e (elist es) -> exists x, e = EUnexpected x \/ e = EExpected x) ->
  exists l, news [] (elist es) l /\ easy_into_all (cfg_easy T fl d) es = MkErrs (eposition es) l.
Proof.
  intros T fl d L es H. destruct (fold_add_news L (elist es) (MkErrs (eposition es) [])) as [l [N E]]. exists l. split; auto.
  etransitivity; [|exact E]. unfold easy_into_all. cbn. clear N E l. generalize (MkErrs (eposition es) (@nil (easy_error (t_tok T)))) as acc.
  induction (elist es) as [|e l IH]; intros acc; cbn [fold_left]; auto.
  assert (He : easy1_into (cfg_easy T fl d) e = e) by (apply C43_easy_into_easy; apply H; left; auto). rewrite He. apply IH. intros e' He'. apply H. right; auto.
Qed.
Print Assumptions C43_easy_into_all.
(** The rest is false: messages become expectations, *)
Theorem C43_message_refuted : exists e : easy_error N, says (easy1_into BC e) <> says e /\ exists x, e = EMessage x.
Proof. exists (EMessage (IStatic "m")). split; [discriminate|eauto]. Qed.
Print Assumptions C43_message_refuted.
(** [into_other] of [easy::Errors] loses all entries but the last, *)
Theorem C43_last_only_refuted : exists es : errors N nat, exists e, In e (elist es) /\ ~ said (elist (easy_into BC es)) e.
Proof.
  exists (MkErrs 0 [EUnexpected (IToken 1); EExpected (IToken 2)]%N), (EUnexpected (IToken 1%N)). split; [left; auto|].
  intros [x [[<-|[]] [m [H1 H2]]]]. cbn in H1, H2. congruence.
Qed.
Print Assumptions C43_last_only_refuted.
(** end of input of an [easy::Error] is not recognised as such by the minimal types, *)
Theorem C43_easy_eoi_refuted : forall T fl d,
  easy1_is_eoi T easy_eoi = true /\
  u_is_eoi (easy1_into (cfg_unexpected T fl d) easy_eoi) = false /\ s_is_eoi (easy1_into (cfg_string T fl d) easy_eoi) = false.
Proof. intros. repeat split. Qed.
Print Assumptions C43_easy_eoi_refuted.
(** and a [StringStreamError] about a character boundary converted to [StringStreamError] is an unspecific one. *)
Theorem C43_boundary_refuted : forall T fl d, s_into (cfg_string T fl d) SCharacterBoundary = SUnexpectedParse.
Proof. reflexivity. Qed.
Print Assumptions C43_boundary_refuted.
Example C43_ex : easy_into_all BC (MkErrs 3 [EUnexpected (IToken 1); EExpected (IToken 2); EExpected (IToken 2)]%N)
  = MkErrs 3 [EUnexpected (IToken 1); EExpected (IToken 2)]%N.
Proof. reflexivity. Qed.

(** * C44 *)
Theorem C44_unexpected_parse : forall l a, fold_left u_add l a = UEoi <-> a = UEoi \/ In UEoi l.
Proof. exact u_fold_eoi. Qed.
Print Assumptions C44_unexpected_parse.
Theorem C44_string_stream_error : forall l a, fold_left s_add l a = SEoi <-> a = SEoi \/ In SEoi l.
Proof. exact s_fold_eoi. Qed.
Print Assumptions C44_string_stream_error.
Theorem C44_string_stream_error_last : forall l a, ~ In SEoi (a :: l) -> fold_left s_add l a = last l a.
Proof.
  intros l a H. rewrite s_fold_last. destruct (existsb s_is_eoi (a :: l)) eqn:E; auto. apply existsb_exists in E.
  destruct E as [x [Hx Hs]]. destruct x; try discriminate. contradiction.
Qed.
Print Assumptions C44_string_stream_error_last.
(** Setting the expectation replaces whatever was known, end of input included; so does merging. *)
Theorem C44_set_expected : forall T fl d t x f,
  terr (e_set_expected (cfg_unexpected T fl d) t x f) = x /\ forall a b, e_merge (cfg_unexpected T fl d) a b = b.
Proof. intros; split; reflexivity. Qed.
Print Assumptions C44_set_expected.
Theorem C44_set_expected_string : forall T fl d t x f,
  terr (e_set_expected (cfg_string T fl d) t x f) = x /\ forall a b, e_merge (cfg_string T fl d) a b = b.
Proof. intros; split; reflexivity. Qed.
Print Assumptions C44_set_expected_string.
Example C44_ex : fold_left s_add [SUnexpectedParse; SEoi; SCharacterBoundary] SCharacterBoundary = SEoi.
Proof. reflexivity. Qed.
(** So [expected] hides the end of input from callers using these types: [token(1).expected("x")] on empty input. *)
Example C44_expected_hides_eoi :
  parse (@token (cfg_unexpected bytes_tok 9 true) 1%N) (@Inp (cfg_unexpected bytes_tok 9 true) [] 0 false) = Done (inr UEoi, @Inp (cfg_unexpected bytes_tok 9 true) [] 0 false) /\
  parse (expected (@token (cfg_unexpected bytes_tok 9 true) 1%N) (IStatic "x")) (@Inp (cfg_unexpected bytes_tok 9 true) [] 0 false)
    = Done (inr UUnexpected, @Inp (cfg_unexpected bytes_tok 9 true) [] 0 false).
Proof. split; reflexivity. Qed.

(** * C48 *)
Theorem C48_spanned : forall C Q S A (q_eqb : Q -> Q -> bool) (st en : Pos C -> Q) (mk : Q -> Q -> Pos C) (p : parser C S A),
  (forall i c a i', succeeds (fresh (spanned q_eqb st en mk p)) i c a i' <-> succeeds (fresh p) i c a i') /\
  (forall i c i' r, fresh p i = Done (r, i') -> is_ok r = false -> committed r = c -> forall e, error_of r = Some e ->
     exists r2, fresh (spanned q_eqb st en mk p) i = Done (r2, i') /\ committed r2 = c /\
       error_of r2 = Some (if q_eqb (st (e_position C e)) (en (e_position C e)) then e_setpos C e (mk (st (ipos i)) (en (ipos i'))) else e)).
Proof. intros. apply spanned_spec. Qed.
Print Assumptions C48_spanned.
(** Spans of byte offsets: the failing pair inside, the outer [spanned] keeps the inner span. *)
Definition span_tok : TokCfg := MkTok N.eqb (fun _ => 1) (fun a b => match Nat.compare (fst a) (fst b) with Eq => Nat.compare (snd a) (snd b) | c => c end)
  (fun p _ => (S (fst p), S (snd p))) (0, 0).
Definition SPC : Cfg := cfg_easy span_tok 100 true.
Definition sspan {S A} (p : parser SPC S A) := @spanned SPC nat S A Nat.eqb fst snd pair p.
Example C48_ex : match fresh (sspan (pair2 (@token SPC 97%N) (sspan (pair2 (@token SPC 98%N) (@token SPC 99%N))))) (@Inp SPC [97; 98; 97]%N (0, 0) false) with
  | Done (CommitErr e, _) => eposition e = (1, 3)
  | _ => False end.
Proof. vm_compute. reflexivity. Qed.
