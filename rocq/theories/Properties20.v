(** C69, C70: [dispatch!] and [input_converter]. *)
From Coq Require Import String List Bool Arith NArith Lia.
Import ListNotations.
From Verif Require Import Base Errors Parser Token Combinator Sequence Choice Repeat RangeP Spec AgreeSpec CombProofs AgreeProofs LibSpec TidySpec StillSpec TotalSpec DispSpec DispProofs
  ChunkSpec DecodeSpec Instances Properties1 Properties3 Properties8.
Unset Implicit Arguments.

(** * C69: [dispatch!] is its selected branch *)
Theorem C69_selected : forall (C : Cfg) A SS (d : disp (C:=C) A SS), exists k S (p : parser C S A) inj, chosen k d p inj.
Proof. exact (fun C A SS d => chosen_exists d). Qed.
Print Assumptions C69_selected.
Theorem C69_fresh : forall (C : Cfg) A k SS S (d : disp (C:=C) A SS) (p : parser C S A) inj, chosen k d p inj ->
  (forall i, fresh (dispatch d) i = fresh p i) /\ forall t, p_adderr (dispatch d) t = p_adderr p t.
Proof. intros C A k SS S d p inj H. split; [intros i; eapply disp_fresh; eauto|]. intros t. rewrite (disp_adderr_chosen _ _ _ _ _ _ H). reflexivity. Qed.
Print Assumptions C69_fresh.
(** Called again with the state it left, in either mode, the selected branch continues with its own state; any other state
    (none, or one stored when another branch was selected) counts for nothing.  There are no further states. *)
Theorem C69_resume : forall (C : Cfg) A k SS S (d : disp (C:=C) A SS) (p : parser C S A) inj, chosen k d p inj -> forall first i st,
  (exists s, st = Some (inj s) /\ forall r i' s', p_run p first i s = Done (r, i', s') -> p_run (dispatch d) first i st = Done (r, i', Some (inj s'))) \/
  (foreign d st /\ forall r i' s', p_run p first i (p_init p) = Done (r, i', s') -> p_run (dispatch d) first i st = Done (r, i', Some (inj s'))).
Proof.
  intros C A k SS S d p inj H first i st. destruct (own_or_foreign _ _ _ _ _ _ H st) as [[s ->]|F].
  - left. exists s. split; [reflexivity|]. intros r i' s' E. cbn. rewrite (disp_own _ _ _ _ _ _ H). unfold run_as. rewrite E. reflexivity.
  - right. split; [exact F|]. intros r i' s' E. cbn. rewrite (disp_foreign _ _ _ _ _ _ _ H F). unfold run_as. rewrite E. reflexivity.
Qed.
Print Assumptions C69_resume.
(** The classes of parsers that the other theorems are about. *)
Theorem C69_classes : forall (C : Cfg) A k SS S (d : disp (C:=C) A SS) (p : parser C S A) inj, chosen k d p inj ->
  (lib p -> lib (dispatch d)) /\ (honest p -> honest (dispatch d)) /\ (forall b, tidy b p -> tidy b (dispatch d)) /\
  (forall z b n, solid z b n p -> solid z b n (dispatch d)).
Proof.
  intros C A k SS S d p inj H. repeat split; intros; [eapply disp_lib|eapply disp_honest|eapply disp_tidy|eapply disp_solid]; eauto.
Qed.
Print Assumptions C69_classes.
(** The documented use: the branch is selected by what was just parsed. *)
Theorem C69_then : forall (C : Cfg) S1 X A SS (p : parser C S1 X) (sel : X -> disp (C:=C) A SS) (b : X -> beh (C:=C) A),
  (forall x, exists k S (q : parser C S A) inj, chosen k (sel x) q inj /\ forall i, b x i = fresh q i) ->
  runs_after (fresh p) b (fun _ a => a) (fresh (then_ p None (fun x => dispatch (sel x)))).
Proof.
  intros C S1 X A SS p sel b H.
  assert (K : forall x i, b x i = fresh (dispatch (sel x)) i).
  { intros x i. destruct (H x) as [k [S [q [inj [H1 H2]]]]]. rewrite H2. symmetry. eapply disp_fresh; eauto. }
  eapply runs_after_ext; [exact K|]. apply C05_then; [reflexivity|intros a; apply (mk_mode_agree (C:=C))].
Qed.
Print Assumptions C69_then.

(** The example of the documentation. *)
Definition c69_doc (e : N) : disp (C:=BC) N (unit + (unit + (unit + (unit + Empty_set)))) :=
  if N.eqb e (ch "a") then DC (ct "a") else if N.eqb e (ch "b") then DN (DC (satisfy (C:=BC) (fun b => N.eqb b (ch "b"))))
  else if N.eqb e (ch "c") then DN (DN (DC (any (C:=BC)))) else DN (DN (DN (DC (ct "d")))).
Example C69_ex_doc : let p := then_ (any (C:=BC)) None (fun e => dispatch (c69_doc e)) in
  at_once p "aa" (CommitOk (ch "a")) "" /\ at_once p "cc" (CommitOk (ch "c")) "" /\ at_once p "cd" (CommitOk (ch "d")) "" /\ at_once p "xd" (CommitOk (ch "d")) "" /\
  fails_at_once p "ab".
Proof. cbn zeta. repeat split; try whole. whole_fails. Qed.

(** A message whose first byte says what follows, in pieces. *)
Definition c69_word := map (take_while1 (C:=BC) isd ,, ct ";") (fun x => fst x).
Definition c69_pair := map (ct "x" ,, take_while1 (C:=BC) isw) (fun x => snd x).
Definition c69_sel (e : N) : disp (C:=BC) (list N) (_ + (_ + (unit + Empty_set))) :=
  if N.eqb e (ch "w") then DC c69_word else if N.eqb e (ch "p") then DN (DC c69_pair) else DN (DN (DC (map (any (C:=BC)) (fun t => [t])))).
Definition c69_msg := then_ (any (C:=BC)) None (fun e => dispatch (c69_sel e)).
Definition c69_g1 (e : unit * N) : unit + N := if N.eqb (snd e) (ch "w") then inl tt else inr (snd e).
Definition c69_g2 (e : N) : unit + unit := if N.eqb e (ch "p") then inl tt else inr tt.
Example C69_ex_class : exists x a n h, chunkable x a n h (fun _ : unit => c69_msg).
Proof.
  assert (W : chunkable false false false false (fun _ : unit => c69_word)).
  { eapply ck_weak; [unfold c69_word; apply ck_map; eapply ck_tuple; eapply ck_TC; [eapply ck_take_while1|eapply ck_T1; eapply ck_token]|discriminate..]. }
  assert (P : chunkable false false false false (fun _ : unit => c69_pair)).
  { eapply ck_weak; [unfold c69_pair; apply ck_map; eapply ck_tuple; eapply ck_TC; [eapply ck_token|eapply ck_T1; eapply ck_take_while1]|discriminate..]. }
  assert (O : chunkable false false false false (fun _ : unit => map (any (C:=BC)) (fun t => [t]))).
  { eapply ck_weak; [apply ck_map; eapply ck_any|discriminate..]. }
  do 4 eexists. unfold c69_msg.
  eapply (ck_then (J:=unit) (p:=fun _ => any (C:=BC)) (s0:=None) (q:=fun jv : unit * N => dispatch (c69_sel (snd jv)))); [apply ck_any| |reflexivity].
  set (o := map (any (C:=BC)) (fun t => [t])) in *.
  set (d2 := fun _ : unit => @DC BC _ _ Empty_set o). set (d1 := fun e => if N.eqb e (ch "p") then @DC BC _ _ (unit + Empty_set) c69_pair else DN (d2 tt)).
  assert (D2 : chunkable false false false false (fun k => dispatch (d2 k))).
  { apply (@ck_dispatch BC false false false false unit unit False _ _ _ (fun _ => o) (fun k : False => match k with end) (fun _ => inl tt) O). apply ck_none. auto. }
  assert (D1 : chunkable false false false false (fun e => dispatch (d1 e))).
  { eapply ck_ext; [exact (@ck_dispatch BC false false false false N unit unit _ _ _ (fun _ => c69_pair) d2 c69_g2 P D2)|].
    intros e. unfold d1, c69_g2. destruct (N.eqb e (ch "p")); reflexivity. }
  eapply ck_ext; [exact (@ck_dispatch BC false false false false (unit * N) unit N _ _ _ (fun _ => c69_word) d1 c69_g1 W D1)|].
  intros [[] e]. unfold c69_sel, c69_g1, d1, d2. cbn [snd]. destruct (N.eqb e (ch "w")), (N.eqb e (ch "p")); reflexivity.
Qed.
Example C69_ex_session : in_pieces c69_msg "" ["w1"; "2"; "3;k"]%string (EndValue (t8 "123")) "k" /\ in_pieces c69_msg "p" ["x"; "ab"; "c "]%string (EndValue (t8 "abc")) " ".
Proof.
  split; do 4 eexists.
  - rd ""%string. rd "w"%string. rd ""%string. ok "123;"%string.
  - rd "p"%string. rd "x"%string. rd ""%string. ok "abc"%string.
Qed.
(** The same parser used for one message after another: what the first left behind is of another branch. *)
Example C69_ex_foreign : foreign (c69_sel (ch "p")) (Some (inl (p_init c69_word))) /\ foreign (c69_sel (ch "w")) (Some (inr (inl (p_init c69_pair)))) /\
  chosen 1 (c69_sel (ch "p")) c69_pair (fun s => inr (inl s)).
Proof. split; [apply fo_before|]. split; [apply fo_after|]. apply ch_later. apply ch_here. Qed.

(** As the parser before something else in a sequence it does not say what else it could have accepted: with the branch
    alone, "a" is among what was expected. *)
Definition reports {S A} (p : parser BC S A) (w : string) (l : list (easy_error N)) : Prop :=
  exists e i, parse p (bin (t8 w)) = Done (inr e, i) /\ elist e = l.
Theorem C69_expected_refuted :
  reports (with_ (many (ct "a")) (ct ";")) "ab" [EUnexpected (IToken (ch "b")); EExpected (IToken (ch "a")); EExpected (IToken (ch ";"))] /\
  reports (with_ (dispatch (@DC BC _ _ Empty_set (many (ct "a")))) (ct ";")) "ab" [EUnexpected (IToken (ch "b")); EExpected (IToken (ch ";"))].
Proof. split; eexists _, _; (split; [vm_compute; reflexivity|reflexivity]). Qed.
Print Assumptions C69_expected_refuted.

(** * C70: [input_converter] *)
Theorem C70_succeeds : forall (C D : Cfg) S A (p : parser D S A) (conv : input C -> (input D + Err C) * input C) (cerr : Err D -> input C -> Err C * input C) i c a i',
  succeeds (fresh (input_converter p conv cerr)) i c a i' <-> exists j j', conv i = (inl j, i') /\ succeeds (fresh p) j c a j'.
Proof. exact (fun C D S A p conv cerr => conv_succeeds p conv cerr). Qed.
Print Assumptions C70_succeeds.
Theorem C70_fails : forall (C D : Cfg) S A (p : parser D S A) (conv : input C -> (input D + Err C) * input C) (cerr : Err D -> input C -> Err C * input C) i c e,
  fails_with (fresh (input_converter p conv cerr)) i c e <->
  (c = false /\ fst (conv i) = inr e) \/ exists j i1 e0, conv i = (inl j, i1) /\ fails_with (fresh p) j c e0 /\ e = fst (cerr e0 i1).
Proof. exact (fun C D S A p conv cerr => conv_fails p conv cerr). Qed.
Print Assumptions C70_fails.
(** The outer input is moved by the converter only: if that just looks at it nothing is consumed, committed or not. *)
Theorem C70_unmoved : forall (C D : Cfg) S A (p : parser D S A) (conv : input C -> (input D + Err C) * input C) (cerr : Err D -> input C -> Err C * input C) first i st r i' st',
  snd (conv i) = i -> (forall e, snd (cerr e i) = i) -> p_run (input_converter p conv cerr) first i st = Done (r, i', st') -> i' = i.
Proof. exact (fun C D S A p conv cerr => conv_unmoved p conv cerr). Qed.
Print Assumptions C70_unmoved.
Theorem C70_history_free : forall (C D : Cfg) S A (p : parser D S A) (conv : input C -> (input D + Err C) * input C) (cerr : Err D -> input C -> Err C * input C) b,
  history_free b p -> history_free b (input_converter p conv cerr).
Proof. exact (fun C D S A p conv cerr => conv_history_free p conv cerr). Qed.
Print Assumptions C70_history_free.
(** With a converter that only looks, repeating the parser never ends, however much the inner one consumes. *)
Theorem C70_many_diverges : forall (C D : Cfg) S A (p : parser D S A) (conv : input C -> (input D + Err C) * input C) (cerr : Err D -> input C -> Err C * input C) i j c a j',
  history_free false p -> conv i = (inl j, i) -> succeeds (fresh p) j c a j' -> fresh (many (input_converter p conv cerr)) i = OOF.
Proof.
  intros C D S A p conv cerr i j c a j' H1 H2 H3. apply (C12_many_diverges C S A (input_converter p conv cerr) (conv_history_free p conv cerr false H1) i c a).
  apply conv_succeeds. eauto.
Qed.
Print Assumptions C70_many_diverges.

(** Converters from a stream to a stream of the same kind: one copies what is left, the other moves everything over. *)
Definition c70_copy (i : input BC) : (input BC + Err BC) * input BC := (inl i, i).
Definition c70_move (i : input BC) : (input BC + Err BC) * input BC := (inl i, @Inp BC [] (pos_after (C:=BC) (ipos i) (rest i)) (ipart i)).
Definition c70_err (e : Err BC) (i : input BC) : Err BC * input BC := (e, i).
Notation copied p := (input_converter (C:=BC) p c70_copy c70_err).
Notation moved p := (input_converter (C:=BC) p c70_move c70_err).
Example C70_ex : at_once (copied (ct "a")) "ab" (CommitOk (ch "a")) "ab" /\ at_once (moved (ct "a")) "ab" (CommitOk (ch "a")) "" /\
  fresh (many (copied (ct "a"))) (bin (t8 "ab")) = OOF.
Proof. split; [whole|]. split; [whole|]. vm_compute. reflexivity. Qed.

(** A parser that suspends is called again on a stream made anew: what it had read of a copy it reads again; what it had not
    read of a stream that was moved over is gone. *)
Theorem C70_pieces_refuted :
  in_pieces (copied (ct "a" ,, any (C:=BC))) "a" ["b"]%string (EndValue (ch "a", ch "a")) "ab" /\
  at_once (copied (ct "a" ,, any (C:=BC))) "ab" (CommitOk (ch "a", ch "b")) "ab" /\
  fails_in_pieces (moved (take (C:=BC) 3)) "ab" ["c"; ""]%string "" /\ at_once (moved (take (C:=BC) 3)) "abc" (CommitOk (t8 "abc")) "".
Proof.
  split; [|split; [whole|split; [|whole]]].
  - do 4 eexists. rd ""%string. ok ""%string.
  - do 5 eexists. rd "ab"%string. eo "c"%string. er.
Qed.
Print Assumptions C70_pieces_refuted.

(** What the inner parser expected is not reported. *)
Theorem C70_expected_refuted :
  reports (ct "a") "b" [EUnexpected (IToken (ch "b")); EExpected (IToken (ch "a"))] /\
  reports (copied (ct "a")) "b" [EUnexpected (IToken (ch "b"))].
Proof. split; eexists _, _; (split; [vm_compute; reflexivity|reflexivity]). Qed.
Print Assumptions C70_expected_refuted.
