(** C72: iterators driven by hand; C73: parsers built on demand. *)
From Coq Require Import String List Bool Arith NArith ZArith Lia.
Import ListNotations.
From Verif Require Import Base Errors Parser Token Combinator Sequence Choice Repeat RangeP ByteP Spec RepeatSpec AgreeSpec RangeSpec TidySpec DecodeSpec ChunkSpec LawsProofs LawsProofs2 AgreeProofs TidyProofs ChunkProofs7 ObjM ObjSpec ObjProofs Instances Properties1 Properties3 Properties8.
Unset Implicit Arguments.
Local Notation bt c := (@token BC c).
Local Notation inp := (@Inp BC).

(** * C72 *)
(** Calling [next] until it gives nothing and then [into_result] is [many], whatever the mode, the state and what was
    collected before. *)
Theorem C72_many : forall C S A (p : parser C S A) first i el st r i' st2,
  p_run (many p) first i (el, st) = Done (r, i', st2) <->
  exists vs it, drains (parser_machine p) (iter_new tt first i st) vs it /\ length vs < fuel C /\
    r = into_result it (el ++ vs) /\ i' = it_in it /\ st2 = (if is_ok r then [] else el ++ vs, it_st it).
Proof. intros. apply many_drains. Qed.
Print Assumptions C72_many.
(** The user may stop at any time: the elements so far have been read, nothing after them, and the result says whether one
    of them committed.  Every such prefix can be reached. *)
Theorem C72_elements : forall C S A (p : parser C S A), history_free false p -> forall i,
  (forall vs it, nexts (parser_machine p) (iter_new tt true i (p_init p)) vs it ->
     exists c, reps (succeeds (fresh p)) i c vs (it_in it) /\ forall V (v : V), into_result it v = okr c v) /\
  (forall c vs i2, reps (succeeds (fresh p)) i c vs i2 ->
     exists it, nexts (parser_machine p) (iter_new tt true i (p_init p)) vs it /\ it_in it = i2).
Proof. intros C S A p H i. split; intros; [eapply iter_elements|eapply iter_reaches]; eauto. Qed.
Print Assumptions C72_elements.
(** [next] gives nothing exactly where the parser fails.  After a backtrackable failure it may be called any number of times:
    it gives nothing again, and neither the input nor the result changes.  After a committed failure the result is that error. *)
Theorem C72_end : forall C S A (p : parser C S A), history_free false p -> forall i vs it, nexts (parser_machine p) (iter_new tt true i (p_init p)) vs it ->
  (fails (fresh p) (it_in it) false -> forall n, exists it2, nones (parser_machine p) n it it2 /\ it_in it2 = it_in it /\ forall V (v : V), into_result it2 v = into_result it v) /\
  (forall e, fails_with (fresh p) (it_in it) true e -> exists it2, iter_next (parser_machine p) it = Done (None, it2) /\ forall V (v : V), into_result it2 v = CommitErr e) /\
  (forall it2, iter_next (parser_machine p) it = Done (None, it2) -> exists c, fails (fresh p) (it_in it) c /\ c = negb (is_ok (into_result it2 tt))).
Proof. intros C S A p H. exact (iter_end p H). Qed.
Print Assumptions C72_end.
(** Not so after a committed failure: another call of [next] can turn the result into a success ([into_result] is documented
    to be one only if no error committed), although input was consumed. *)
Theorem C72_again_refuted : ~ (forall S A (p : parser BC S A), history_free false p -> forall i vs it it2 x e,
  drains (parser_machine p) (iter_new tt true i (p_init p)) vs it -> into_result it tt = CommitErr e -> iter_next (parser_machine p) it = Done (x, it2) ->
  exists e2, into_result it2 tt = CommitErr e2).
Proof.
  intros H. pose (p := no_partial (pair2 (bt 97%N) (bt 98%N))). pose (it0 := iter_new tt true (inp [97]%N 0%nat false) tt).
  destruct (iter_next (parser_machine p) it0) as [[[v|] it1]| |] eqn:E1; try (vm_compute in E1; discriminate).
  destruct (iter_next (parser_machine p) it1) as [[x it2]| |] eqn:E2.
  2, 3: vm_compute in E1; injection E1 as <-; vm_compute in E2; discriminate.
  specialize (H _ _ p (tidy_history_free false p (td_unit false p)) (inp [97]%N 0%nat false) [] it1 it2 x).
  destruct (into_result it1 tt) as [| |e|] eqn:E3; try (vm_compute in E1; injection E1 as <-; vm_compute in E3; discriminate).
  destruct (H e) as [e2 K]; auto. { exists it0. split; [constructor|exact E1]. }
  vm_compute in E1. injection E1 as <-. vm_compute in E2. injection E2 as <- <-. vm_compute in K. discriminate.
Qed.
Print Assumptions C72_again_refuted.
(** [partial_iter] in chunks: the elements collected over the calls are those of [many] on the whole text, and so is the rest. *)
Theorem C72_chunks : forall C, eoi_laws C -> lawful C -> pos_distinct C ->
  forall a n h S A (p : parser C S A), chunkable true a n h (fun _ : unit => p) -> history_free false p ->
  forall pos b cs vs b2, collects p (p_init p) pos b cs vs b2 -> length vs < fuel C ->
  forall more r i', fresh (many p) (Inp ((b ++ concat cs) ++ more) pos false) = Done (r, i') -> rest i' = b2 ++ more /\ value_of r = Some vs.
Proof. intros C EL L D a n h S A p. apply collects_whole; auto. Qed.
Print Assumptions C72_chunks.
(** The parser [number] of the documentation: it reads digits as long as there are some and converts them; it panics where the
    conversion refuses, so wherever there is no digit. *)
Theorem C72_number : forall C S V (d : parser C S (tok C)) (to_i32 : list (tok C) -> option V), history_free false d -> 1 < fuel C ->
  (forall i c l i', reps (succeeds (fresh d)) i c l i' -> fails (fresh d) i' false -> length l < fuel C ->
     match to_i32 l with
     | Some v => succeeds (fresh (doc_number d to_i32)) i c v i'
     | None => fresh (doc_number d to_i32) i = Panic
     end) /\
  (to_i32 [] = None -> forall i, fails (fresh d) i false -> fresh (doc_number d to_i32) i = Panic).
Proof.
  intros C S V d to_i32 H FU. split; [intros; eapply doc_number_reads; eauto|]. intros Z i FW.
  pose proof (doc_number_reads d to_i32 H i false [] i (reps_nil _ i) FW ltac:(simpl; lia)) as K. rewrite Z in K. exact K.
Qed.
Print Assumptions C72_number.
Definition c72_i32 (l : list N) : option N :=
  match l with [] => None | _ => let v := fold_left (fun a d => 10 * a + (d - 48))%N l 0%N in if (v <? 2147483648)%N then Some v else None end.
Definition c72_number := doc_number (C:=BC) (b_digit (C:=BC) (fun x => x)) c72_i32.
Example C72_number_ex : (exists i', parse (sep_by c72_number (bt 44%N)) (inp (t8 "123,45,6") 0%nat false) = Done (inl [123; 45; 6]%N, i') /\ rest i' = []) /\
  parse (sep_by c72_number (bt 44%N)) (inp [] 0%nat false) = Panic /\ parse (sep_by c72_number (bt 44%N)) (inp (t8 "1,") 0%nat false) = Panic.
Proof. split; [eexists; split; [vm_compute; reflexivity|reflexivity]|]. split; vm_compute; reflexivity. Qed.
(** "1,2" and then ",3,x": elements 1 | 2, 3, and "x" left. *)
Definition c72_p := no_partial (skip (satisfy (C:=BC) isd) (bt 44%N)).
Example C72_chunks_ex : collects c72_p (p_init c72_p) 0%nat (t8 "1,2") [t8 ",3,x"] [49; 50; 51]%N (t8 "x") /\
  (exists x a n h, x = true /\ chunkable x a n h (fun _ : unit => c72_p)) /\ history_free false c72_p.
Proof.
  split; [|split].
  - eapply (@co_more BC _ _ c72_p _ _ _ [49]%N _ _ (t8 "1,") (t8 "2") _ [] [50; 51]%N).
    + eexists. split; [eapply nx_cons; [vm_compute; reflexivity|apply nx_nil]|vm_compute; reflexivity].
    + vm_compute. reflexivity.
    + vm_compute. reflexivity.
    + reflexivity.
    + vm_compute. reflexivity.
    + vm_compute. discriminate.
    + eapply (@co_end BC _ _ c72_p _ _ _ (t8 "2,3,")).
      * eexists. split; [eapply nx_cons; [vm_compute; reflexivity|eapply nx_cons; [vm_compute; reflexivity|apply nx_nil]]|vm_compute; reflexivity].
      * vm_compute. reflexivity.
      * vm_compute. reflexivity.
      * vm_compute. reflexivity.
  - do 4 eexists. split; [|unfold c72_p; eapply ck_no_partial; [|reflexivity]; eapply ck_skip; [eapply ck_satisfy|eapply ck_token]]. reflexivity.
  - apply tidy_history_free. apply td_unit.
Qed.

(** * C73 *)
(** A fresh parse through [factory]: the parser built for this input, whatever was cached; its own expectations in the
    report.  If the closure reads from the input the failed parse is reported, and the input left, where the closure started. *)
Theorem C73_parse : forall C F S A (f : F -> input C -> parser C S A * input C * F) s0 o i q i1 s1, f (fst o) i = (q, i1, s1) -> p_init q = s0 ->
  m_parse (factory_obj f s0) o i =
  omap (fun x => (entry_result (fst (augment (p_adderr q) i x)), snd (augment (p_adderr q) i x), (s1, Some q))) (fresh q i1).
Proof. intros. apply factory_parse; auto. Qed.
Print Assumptions C73_parse.
(** A closure which leaves the input alone: exactly the parser it returns; one which always returns the same parser is the
    [factory] of the other properties, in every mode. *)
Theorem C73_same : forall C F S A (f : F -> input C -> parser C S A * input C * F) s0,
  (forall o i q s1, f (fst o) i = (q, i, s1) -> p_init q = s0 -> m_parse (factory_obj f s0) o i = omap (fun x => (fst x, snd x, (s1, Some q))) (parse (factory q) i)) /\
  (forall (q : parser C S A) (s : F) c first i st, c = None \/ c = Some q ->
     m_run (factory_obj (fun s i => (q, i, s)) s0) first i (s, c) st = omap (fun x => match x with (r, i', st') => (r, i', (s, Some q), st') end) (p_run (factory q) first i st)).
Proof. intros. split; intros; [apply factory_parse_still|apply factory_constant]; auto. Qed.
Print Assumptions C73_same.
(** [many(factory(f))]: every item is read by the parser built where the item starts; the repetition ends where the parser
    built there fails. *)
Theorem C73_many : forall C F A (f : F -> input C -> parser C unit A * input C * F) s c0 i,
  (forall c vs s2 i2 q i3 s3, built f s i c vs s2 i2 -> f s2 i2 = (q, i3, s3) -> length vs < fuel C ->
     (fails (fresh q) i3 false -> m_run (many_obj (factory_obj f tt)) true i (s, c0) ([], tt) = Done (okr c vs, i2, (s3, Some q), ([], tt))) /\
     (forall e, fails_with (fresh q) i3 true e -> exists i', m_run (many_obj (factory_obj f tt)) true i (s, c0) ([], tt) = Done (CommitErr e, i', (s3, Some q), (vs, tt)))) /\
  (forall r i' o' st', m_run (many_obj (factory_obj f tt)) true i (s, c0) ([], tt) = Done (r, i', o', st') ->
     exists c vs s2 i2 q i3 s3, built f s i c vs s2 i2 /\ f s2 i2 = (q, i3, s3) /\ length vs < fuel C /\ o' = (s3, Some q) /\
     ((fails (fresh q) i3 false /\ r = okr c vs /\ i' = i2) \/ exists e, fails_with (fresh q) i3 true e /\ r = CommitErr e)).
Proof. intros. split; intros; [eapply factory_many_ok|eapply factory_many_cases]; eauto. Qed.
Print Assumptions C73_many.
(** Calls that resume each other on one object: the parser built by the first call is used by all of them. *)
Theorem C73_resume : forall C F S A (f : F -> input C -> parser C S A * input C * F) s0 s q i s1 st l, f s i = (q, i, s1) ->
  calls (factory_obj f s0) (factory_new s) st (i :: l) = calls (parser_machine q) tt st (i :: l).
Proof. intros. eapply calls_same; eauto. Qed.
Print Assumptions C73_resume.
(** The first byte tells which parser to use. *)
Definition c73_peek (s : unit) (i : input BC) : parser BC unit N * input BC * unit :=
  (match rest i with c :: _ => bt c | [] => bt 33%N end, i, s).
(** "The parser is constructed on each call": not after a finished resumable parse.  The next message on the same object is
    read with the parser of the message before. *)
Theorem C73_next_message_refuted : ~ (forall F S A (f : F -> input BC -> parser BC S A * input BC * F) s0 s i v i' o' st' i2 q s2,
  m_with_state (factory_obj f s0) (factory_new s) i s0 = Done (inl v, i', o', st') -> f (fst o') i2 = (q, i2, s2) ->
  omap (fun x => fst (fst (fst x))) (m_with_state (factory_obj f s0) o' i2 s0) = omap (fun x => fst (fst x)) (parse_with_state q i2 s0)).
Proof.
  intros H. assert (K := H unit unit N c73_peek tt tt (inp [97]%N 0%nat true) 97%N (inp [] 1%nat true) (tt, Some (bt 97%N)) tt (inp [98]%N 0%nat true) (bt 98%N) tt eq_refl eq_refl).
  vm_compute in K. discriminate.
Qed.
Print Assumptions C73_next_message_refuted.
(** An object built anew for the next chunk (as a decoder does that builds its parser on every call) asks the closure again,
    which then sees the middle of the message and may return another parser. *)
Definition c73_pair (s : unit) (i : input BC) :=
  (match rest i with 97%N :: _ => pair2 (bt 97%N) (bt 98%N) | _ => pair2 (bt 98%N) (bt 97%N) end, i, s).
Theorem C73_rebuilt_refuted : ~ (forall F S A (f : F -> input BC -> parser BC S A * input BC * F) s0 s i e i' o' st' i2,
  m_with_state (factory_obj f s0) (factory_new s) i s0 = Done (inr e, i', o', st') -> e_is_eoi BC e = true ->
  omap (fun x => fst (fst (fst x))) (m_with_state (factory_obj f s0) (factory_new (fst o')) i2 st') =
  omap (fun x => fst (fst (fst x))) (m_with_state (factory_obj f s0) o' i2 st')).
Proof.
  intros H. pose (q := pair2 (bt 97%N) (bt 98%N)). pose (s0 := p_init q).
  destruct (parse_with_state q (inp [97]%N 0%nat true) s0) as [[[[v|e] i'] st']| |] eqn:E1; try (vm_compute in E1; discriminate).
  assert (E2 : m_with_state (factory_obj c73_pair s0) (factory_new tt) (inp [97]%N 0%nat true) s0 = Done (inr e, i', (tt, Some q), st')).
  { rewrite (with_state_new c73_pair s0 tt q (inp [97]%N 0%nat true) tt); [|reflexivity]. rewrite E1. reflexivity. }
  assert (K := H unit _ _ c73_pair s0 tt (inp [97]%N 0%nat true) e i' (tt, Some q) st' (inp [98]%N 1%nat true) E2). clear E2.
  vm_compute in E1. injection E1 as <- <- <-. specialize (K eq_refl).
  rewrite (factory_with_state c73_pair), (with_state_new c73_pair s0 tt (pair2 (bt 98%N) (bt 97%N)) (inp [98]%N 1%nat true) tt) in K; [|reflexivity].
  match type of K with omap _ (omap _ ?a) = omap _ (omap _ ?b) => assert (K2 : omap (fun x => match fst (fst x) with inl _ => true | inr _ => false end) a = omap (fun x => match fst (fst x) with inl _ => true | inr _ => false end) b) end.
  { repeat match type of K with context [parse_with_state ?a ?b ?c] => destruct (parse_with_state a b c) as [[[? ?] ?]| |] end; cbn in K |- *; try discriminate; auto. injection K as <-. reflexivity. }
  vm_compute in K2. discriminate.
Qed.
Print Assumptions C73_rebuilt_refuted.
(** The same object reads the message in two chunks. *)
Example C73_resume_ex : let q := pair2 (bt 97%N) (bt 98%N) in
  exists e i1 i2, calls (factory_obj c73_pair (p_init q)) (factory_new tt) (p_init q) [inp [97]%N 0%nat true; inp [98]%N 1%nat true] = Done [(inr e, i1); (inl (97, 98)%N, i2)].
Proof. intros q. eexists _, _, _. rewrite (C73_resume _ _ _ _ c73_pair _ tt q _ tt); [|reflexivity]. vm_compute. reflexivity. Qed.
(** The documentation's example: digits and letters in turn; "1a2b3cd" gives 1a2b3c and leaves "d". *)
Definition c73_turn (s : bool) (i : input BC) := (if s then b_letter (C:=BC) (fun x => x) else b_digit (C:=BC) (fun x => x), i, negb s).
Example C73_many_ex : omap (fun x => (fst (fst x), rest (snd (fst x)))) (m_parse (many_obj (factory_obj c73_turn tt)) (factory_new false) (inp (t8 "1a2b3cd") 0%nat false)) = Done (inl (t8 "1a2b3c"), t8 "d") /\
  built c73_turn false (inp (t8 "1ad") 0%nat false) true (t8 "1a") false (inp (t8 "d") 2%nat false).
Proof.
  split; [vm_compute; reflexivity|]. change true with (true || (true || false)).
  eapply bu_cons; [reflexivity|vm_compute; reflexivity|]. eapply bu_cons; [reflexivity|vm_compute; reflexivity|]. apply bu_nil.
Qed.
