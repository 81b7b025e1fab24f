(** Properties C11-C19, C28, C45: repetition, and independence of earlier uses. *)
From Coq Require Import String List Bool Arith NArith Lia.
Import ListNotations.
From Verif Require Import Base Errors Instances Parser Token Combinator Sequence Choice Repeat RangeP ByteP Spec SeqProofs CombProofs
  TidySpec TidyProofs RepeatSpec RepeatProofs RepeatProofs2 RepeatProofs3 RepeatProofs4 Properties1.
Unset Implicit Arguments.

Notation bt c := (@token BC c).
Local Notation inp := (@Inp BC).
Ltac tidy_tac := repeat first [ apply td_unit | apply td_message | apply td_expected | apply td_silent | apply td_map | apply td_map_input | apply td_flat_map | apply td_and_then | apply td_from_str | apply td_ignore | apply td_lazy | apply td_factory | apply td_opaque | apply td_spanned | apply td_by_ref | apply td_parser_fn | apply td_optional | apply td_any_partial_state | apply td_left | apply td_right | apply td_recognize_with_value | apply td_take_while | apply td_take_while1 | apply td_take_fn | apply td_attempt | apply td_not_followed_by | apply td_tuple | apply td_with | apply td_skip | apply td_then | apply td_choice | apply td_or | apply td_sep_by | apply td_sep_end_by | apply td_choice_slice | apply td_many | apply td_many1 | apply td_count_min_max | apply td_sep_by1 | apply td_sep_end_by1 | apply td_chainl1 | apply td_iterate | apply td_T1 | apply td_TC | left; solve [lia] ].

(** * C28: earlier, abandoned uses leave no trace in tidy parsers *)
Theorem C28_tidy_history_free : forall C b S A (p : parser C S A), tidy b p -> history_free b p.
Proof. exact (fun C b S A p H => tidy_history_free b p H). Qed.
Print Assumptions C28_tidy_history_free.

(** A line of bracketed lists of numbers, used over and over. *)
Definition c28_p := many1 (skip (between (bt 91%N) (bt 93%N) (sep_by (many1 (b_digit (C:=BC) (fun x => x))) (bt 44%N))) (optional (bt 32%N))).
Example C28_ex : tidy false c28_p.
Proof. unfold c28_p, between. tidy_tac. Qed.

(** False in general.  [attempt] around a counted repetition: after an abandoned use on 1 2 the parser
    [attempt(count_min_max(2, 2, token(1)))] used on 1 3 succeeds, although there is only one 1. *)
Definition c28_two := attempt (count_min_max 2 2 (bt 1%N)).
Definition c28_left := match p_run c28_two true (bin [1; 2]%N) (p_init c28_two) with Done (_, _, st) => st | _ => p_init c28_two end.
Theorem C28_attempt_count_refuted : ~ history_free false c28_two.
Proof.
  intros H. specialize (H c28_left).
  assert (Hl : leftover false c28_two c28_left).
  { eapply (@left_run BC _ _ false c28_two (p_init c28_two) (bin [1; 2]%N)); [constructor|vm_compute; reflexivity|right; exact I]. }
  specialize (H Hl (bin [1; 3]%N)). vm_compute in H. discriminate.
Qed.
Print Assumptions C28_attempt_count_refuted.
(** It makes a real difference: [many1((many(attempt(count_min_max(2, 2, 'a'))), optional('a'), 'b'))] on "aaabaab" returns the
    left-over 'a' of the first round in the second. *)
Definition c28_rounds := many1 (tuple (TC (many c28_two) (TC (optional (bt 1%N)) (T1 (bt 2%N))))).
Example C28_rounds_wrong :
  match fresh c28_rounds (bin [1; 1; 1; 2; 1; 1; 2]%N) with
  | Done (CommitOk l, _) => l = [([[1; 1]], (Some 1, 2)); ([[1; 1]], (Some 1, 2))]%N
  | _ => False
  end.
Proof. vm_compute. reflexivity. Qed.
Example C28_rounds_right :
  match fresh (tuple (TC (many c28_two) (TC (optional (bt 1%N)) (T1 (bt 2%N))))) (bin [1; 1; 2]%N) with
  | Done (CommitOk x, _) => x = ([[1; 1]], (None, 2))%N
  | _ => False
  end.
Proof. vm_compute. reflexivity. Qed.

(** The same for [attempt(many(..))]: the elements collected before the committed failure come back. *)
Definition state_after {S A} (p : parser BC S A) (i : input BC) : S :=
  match p_run p true i (p_init p) with Done (_, _, st) => st | _ => p_init p end.
Lemma c28_refute {S A} (p : parser BC S A) i1 i2 :
  match p_run p true i1 (p_init p) with Done (r, _, _) => not_commit_err r | _ => False end ->
  omap fst (p_run p true i2 (state_after p i1)) <> fresh p i2 -> ~ history_free false p.
Proof.
  intros H1 H2 H. apply H2. apply H. unfold state_after. destruct (p_run p true i1 (p_init p)) as [[[r j] st]| |] eqn:Hr; try contradiction.
  eapply left_run; [apply left_init|exact Hr|right; exact H1].
Qed.
Theorem C28_attempt_many_refuted : ~ history_free false (attempt (many (pair2 (bt 1%N) (bt 2%N)))).
Proof. apply (c28_refute _ (bin [1; 2; 1; 3]%N) (bin [7]%N)); vm_compute; [exact I|discriminate]. Qed.
Print Assumptions C28_attempt_many_refuted.
(** [attempt(many1(..))]: a debug build panics on the second use. *)
Theorem C28_attempt_many1_refuted : ~ history_free false (attempt (many1 (pair2 (bt 1%N) (bt 2%N)))).
Proof. apply (c28_refute _ (bin [1; 2; 1; 3]%N) (bin [1; 2]%N)); vm_compute; [exact I|discriminate]. Qed.
Print Assumptions C28_attempt_many1_refuted.
Example C28_attempt_many1_panics :
  fresh (many (optional (attempt (skip (many1 (pair2 (bt 1%N) (bt 2%N))) (bt 9%N))))) (bin [1; 2; 1; 2; 9]%N) = OOF /\
  omap fst (p_run (attempt (many1 (pair2 (bt 1%N) (bt 2%N)))) true (bin [1; 2]%N) (state_after (attempt (many1 (pair2 (bt 1%N) (bt 2%N)))) (bin [1; 2; 1; 3]%N))) = Panic.
Proof. split; vm_compute; reflexivity. Qed.
(** [take_until] and [repeat_until] do not need [attempt]: running out of (complete) input is backtrackable and leaves the
    tokens already collected behind. *)
Theorem C28_take_until_refuted : ~ history_free false (take_until (bt 2%N)).
Proof. apply (c28_refute _ (bin [1; 1]%N) (bin [2]%N)); vm_compute; [exact I|discriminate]. Qed.
Print Assumptions C28_take_until_refuted.
Example C28_take_until_leak :
  match omap fst (p_run (take_until (bt 2%N)) true (bin [3; 2]%N) (state_after (take_until (bt 2%N)) (bin [1; 1]%N))) with
  | Done (CommitOk l, _) => l = [1; 1; 3]%N
  | _ => False
  end.
Proof. vm_compute. reflexivity. Qed.
Theorem C28_repeat_until_refuted : ~ history_free false (repeat_until (bt 1%N) (bt 2%N)).
Proof. apply (c28_refute _ (bin [1; 3]%N) (bin [1; 2]%N)); vm_compute; [exact I|discriminate]. Qed.
Print Assumptions C28_repeat_until_refuted.
(** * C11 *)
Theorem C11_many_succeeds : forall C S A (p : parser C S A), history_free false p -> forall i c l i',
  succeeds (fresh (many p)) i c l i' <->
  reps (succeeds (fresh p)) i c l i' /\ fails (fresh p) i' false /\ length l < fuel C.
Proof. exact (fun C S A p H => many_ok p H). Qed.
Print Assumptions C11_many_succeeds.
Theorem C11_many_fails : forall C S A (p : parser C S A), history_free false p -> forall i c e,
  fails_with (fresh (many p)) i c e <->
  c = true /\ exists c' l i', reps (succeeds (fresh p)) i c' l i' /\ fails_with (fresh p) i' true e /\ length l < fuel C.
Proof. exact (fun C S A p H => many_fails p H). Qed.
Print Assumptions C11_many_fails.
Theorem C11_many1_succeeds : forall C S A (p : parser C S A), history_free false p -> forall i c l i',
  succeeds (fresh (many1 p)) i c l i' <->
  l <> [] /\ reps (succeeds (fresh p)) i c l i' /\ fails (fresh p) i' false /\ length l <= fuel C.
Proof. exact (fun C S A p H => many1_ok p H). Qed.
Print Assumptions C11_many1_succeeds.
Theorem C11_many1_fails : forall C S A (p : parser C S A), history_free false p -> forall i c e,
  fails_with (fresh (many1 p)) i c e <->
  fails_with (fresh p) i c e \/
  (c = true /\ exists c' l i', l <> [] /\ reps (succeeds (fresh p)) i c' l i' /\ fails_with (fresh p) i' true e /\ length l <= fuel C).
Proof. exact (fun C S A p H => many1_fails p H). Qed.
Print Assumptions C11_many1_fails.
Theorem C11_skip_many_succeeds : forall C S A (p : parser C S A), history_free false p -> forall i c u i',
  succeeds (fresh (skip_many p)) i c u i' <-> exists l, succeeds (fresh (many p)) i c l i'.
Proof. exact (fun C S A p H => skip_many_ok p H). Qed.
Print Assumptions C11_skip_many_succeeds.
Theorem C11_skip_many_fails : forall C S A (p : parser C S A), history_free false p -> forall i c e,
  fails_with (fresh (skip_many p)) i c e <-> fails_with (fresh (many p)) i c e.
Proof. exact (fun C S A p H => skip_many_fails p H). Qed.
Print Assumptions C11_skip_many_fails.
Theorem C11_skip_many1_succeeds : forall C S A (p : parser C S A), history_free false p -> forall i c u i',
  succeeds (fresh (skip_many1 p)) i c u i' <-> exists l, succeeds (fresh (many1 p)) i c l i'.
Proof. exact (fun C S A p H => skip_many1_ok p H). Qed.
Print Assumptions C11_skip_many1_succeeds.
Theorem C11_skip_many1_fails : forall C S A (p : parser C S A), history_free false p -> forall i c e,
  fails_with (fresh (skip_many1 p)) i c e <-> fails_with (fresh (many1 p)) i c e.
Proof. exact (fun C S A p H => skip_many1_fails p H). Qed.
Print Assumptions C11_skip_many1_fails.

Definition c11_p := pair2 (bt 1%N) (bt 2%N).
Example C11_ex_hyp : history_free false c11_p.
Proof. apply C28_tidy_history_free. unfold c11_p, pair2. tidy_tac. Qed.
Ltac failtac := do 3 eexists; (split; [vm_compute; reflexivity|split; reflexivity]).
Example C11_ex_two : reps (succeeds (fresh c11_p)) (bin [1; 2; 1; 2; 7]%N) true [(1, 2); (1, 2)]%N (inp [7]%N 4 false) /\
  fails (fresh c11_p) (inp [7]%N 4 false) false.
Proof.
  split; [|failtac]. change true with (true || (true || false)). eapply reps_cons; [vm_compute; reflexivity|].
  eapply reps_cons; [vm_compute; reflexivity|]. apply reps_nil.
Qed.
Example C11_ex_broken : exists e, fails_with (fresh (many c11_p)) (bin [1; 2; 1; 3]%N) true e.
Proof. failtac. Qed.

(** * C12 *)
Theorem C12_many_terminates : forall C S A (p : parser C S A), history_free false p -> productive (fresh p) -> total (fresh p) ->
  forall i, length (rest i) < fuel C -> exists x, fresh (many p) i = Done x.
Proof. exact (fun C S A p H => many_total p H). Qed.
Print Assumptions C12_many_terminates.
Theorem C12_many1_terminates : forall C S A (p : parser C S A), history_free false p -> productive (fresh p) -> total (fresh p) ->
  forall i, length (rest i) <= fuel C -> exists x, fresh (many1 p) i = Done x.
Proof. exact (fun C S A p H => many1_total p H). Qed.
Print Assumptions C12_many1_terminates.
Theorem C12_sep_by1_terminates : forall C S1 S2 A B (p : parser C S1 A) (sep : parser C S2 B),
  history_free false p -> history_free false sep -> total (fresh p) -> total (fresh sep) -> shrinks (fresh p) -> shrinks (fresh sep) ->
  productive (fresh sep) \/ productive (fresh p) ->
  forall i, length (rest i) < fuel C -> exists x, fresh (sep_by1 p sep) i = Done x.
Proof. exact (fun C S1 S2 A B p sep H1 H2 => sep_by1_total p sep H1 H2). Qed.
Print Assumptions C12_sep_by1_terminates.
Theorem C12_sep_end_by1_terminates : forall C S1 S2 A B (p : parser C S1 A) (sep : parser C S2 B),
  history_free false p -> history_free false sep -> total (fresh p) -> total (fresh sep) -> shrinks (fresh p) -> shrinks (fresh sep) ->
  productive (fresh sep) \/ productive (fresh p) ->
  forall i, length (rest i) < fuel C -> exists x, fresh (sep_end_by1 p sep) i = Done x.
Proof. exact (fun C S1 S2 A B p sep H1 H2 => sep_end_by1_total p sep H1 H2). Qed.
Print Assumptions C12_sep_end_by1_terminates.
Theorem C12_chainl1_terminates : forall C S1 S2 A (p : parser C S1 A) (op : parser C S2 (A -> A -> A)),
  history_free false p -> history_free false op -> starts_alike p -> total (fresh p) -> total (fresh op) ->
  shrinks (fresh p) -> shrinks (fresh op) -> productive (fresh op) \/ productive (fresh p) ->
  forall i, length (rest i) < fuel C -> exists x, fresh (chainl1 p op) i = Done x.
Proof. exact (fun C S1 S2 A p op H1 H2 H3 => chainl1_total p op H1 H2 H3). Qed.
Print Assumptions C12_chainl1_terminates.
Theorem C12_chainr1_terminates : forall C S1 S2 A (p : parser C S1 A) (op : parser C S2 (A -> A -> A)),
  productive (p_lazy p) -> productive (p_lazy op) -> total (p_lazy p) -> total (p_lazy op) ->
  forall i, 2 * length (rest i) < fuel C -> exists x, fresh (chainr1 p op) i = Done x.
Proof. exact (fun C S1 S2 A p op => chainr1_total p op). Qed.
Print Assumptions C12_chainr1_terminates.
Theorem C12_repeat_until_terminates : forall C S1 S2 A B (p : parser C S1 A) (e : parser C S2 B),
  history_free false p -> history_free false e -> total (fresh p) -> total (fresh e) -> productive (fresh p) ->
  forall i, 2 * length (rest i) + 1 < fuel C -> exists x, fresh (repeat_until p e) i = Done x.
Proof. exact (fun C S1 S2 A B p e H1 H2 => repeat_until_total p e H1 H2). Qed.
Print Assumptions C12_repeat_until_terminates.
Theorem C12_take_until_terminates : forall C S A (p : parser C S A), history_free false p -> total (fresh p) ->
  forall i, exists x, fresh (take_until p) i = Done x.
Proof. exact (fun C S A p H => take_until_total p H). Qed.
Print Assumptions C12_take_until_terminates.
Theorem C12_escaped_terminates : forall C S1 S2 A B (p : parser C S1 A) esc (q : parser C S2 B),
  total (p_lazy p) -> total (freshc q) -> productive (p_lazy p) -> shrinks (freshc q) -> restores (p_lazy p) ->
  forall i, length (rest i) < fuel C -> exists x, fresh (escaped p esc q) i = Done x.
Proof. exact (fun C S1 S2 A B p esc q => escaped_total p esc q). Qed.
Print Assumptions C12_escaped_terminates.
(** [p] succeeding in place: no amount of fuel is enough. *)
Theorem C12_many_diverges : forall C S A (p : parser C S A), history_free false p ->
  forall i c a, succeeds (fresh p) i c a i -> fresh (many p) i = OOF.
Proof. exact (fun C S A p H => many_diverges p H). Qed.
Print Assumptions C12_many_diverges.

(** Every non-lookahead single token parser makes progress; more generally [satisfy]. *)
Theorem C12_satisfy_progress : forall C (f : tok C -> bool), productive (fresh (satisfy f)) /\ total (fresh (satisfy f)).
Proof. exact (fun C f => satisfy_progress f). Qed.
Print Assumptions C12_satisfy_progress.
Example C12_ex : exists x, fresh (many (satisfy (C:=BC) (fun c => (c <? 10)%N))) (bin [1; 2; 3; 77]%N) = Done x.
Proof.
  apply C12_many_terminates; [apply C28_tidy_history_free; tidy_tac|apply C12_satisfy_progress|apply C12_satisfy_progress|vm_compute; lia].
Qed.
Example C12_ex_diverges : fresh (many (optional (bt 1%N))) (bin [2]%N) = OOF.
Proof. eapply (C12_many_diverges) with (c:=false) (a:=None); [apply C28_tidy_history_free; tidy_tac|]. vm_compute. reflexivity. Qed.

(** * C13 *)
Theorem C13_count_min_max_succeeds : forall C S A (p : parser C S A), history_free false p -> forall mn mx i c l i', mn <= mx ->
  (succeeds (fresh (count_min_max mn mx p)) i c l i' <->
   reps (succeeds (fresh p)) i c l i' /\ mn <= length l <= mx /\ (length l = mx \/ fails (fresh p) i' false)).
Proof. exact (fun C S A p H => cmm_ok p H). Qed.
Print Assumptions C13_count_min_max_succeeds.
Theorem C13_count_min_max_fails : forall C S A (p : parser C S A), history_free false p -> forall mn mx i c, mn <= mx ->
  (fails (fresh (count_min_max mn mx p)) i c <->
   exists c' l i', reps (succeeds (fresh p)) i c' l i' /\
     ((length l < mx /\ fails (fresh p) i' true /\ c = true) \/ (length l < mn /\ fails (fresh p) i' false /\ c = c'))).
Proof. exact (fun C S A p H => cmm_fails p H). Qed.
Print Assumptions C13_count_min_max_fails.
Theorem C13_count_min_max_panics : forall C S A (p : parser C S A) mn mx i, mx < mn -> fresh (count_min_max mn mx p) i = Panic.
Proof. exact (fun C S A p => cmm_panics p). Qed.
Print Assumptions C13_count_min_max_panics.
Theorem C13_count : forall C S A (p : parser C S A) n i, fresh (count n p) i = fresh (count_min_max 0 n p) i.
Proof. exact (fun C S A p => fresh_count p). Qed.
Print Assumptions C13_count.
Theorem C13_skip_count_min_max_succeeds : forall C S A (p : parser C S A), history_free false p -> forall mn mx i c u i', mn <= mx ->
  (succeeds (fresh (skip_count_min_max mn mx p)) i c u i' <-> exists l, succeeds (fresh (count_min_max mn mx p)) i c l i').
Proof. exact (fun C S A p H => skip_cmm_ok p H). Qed.
Print Assumptions C13_skip_count_min_max_succeeds.
Theorem C13_skip_count_min_max_fails : forall C S A (p : parser C S A), history_free false p -> forall mn mx i c, mn <= mx ->
  (fails (fresh (skip_count_min_max mn mx p)) i c <-> fails (fresh (count_min_max mn mx p)) i c).
Proof. exact (fun C S A p H => skip_cmm_fails p H). Qed.
Print Assumptions C13_skip_count_min_max_fails.
Theorem C13_skip_count_succeeds : forall C S A (p : parser C S A), history_free false p -> forall n i c u i',
  succeeds (fresh (skip_count n p)) i c u i' <-> exists l, succeeds (fresh (count n p)) i c l i'.
Proof. exact (fun C S A p H => skip_count_ok p H). Qed.
Print Assumptions C13_skip_count_succeeds.
Example C13_ex_max : succeeds (fresh (count_min_max 1 2 (bt 1%N))) (bin [1; 1; 1]%N) true [1; 1]%N (inp [1]%N 2 false).
Proof. vm_compute. reflexivity. Qed.
Example C13_ex_min : fails (fresh (count_min_max 3 5 (bt 1%N))) (bin [1; 1; 2]%N) true /\ fails (fresh (count_min_max 3 5 (bt 1%N))) (bin [2]%N) false.
Proof. split; failtac. Qed.

(** * C14 *)
Theorem C14_sep_by1_succeeds : forall C S1 S2 A B (p : parser C S1 A) (sep : parser C S2 B), history_free false p -> history_free false sep ->
  forall i c l i', succeeds (fresh (sep_by1 p sep)) i c l i' <->
  exists c1 a i1 c2 l', succeeds (fresh p) i c1 a i1 /\ reps (pair_ok (fresh sep) (fresh p)) i1 c2 l' i' /\
    pair_fails (fresh sep) (fresh p) i' false /\ length l' < fuel C /\ l = a :: l' /\ c = c1 || c2.
Proof. exact (fun C S1 S2 A B p sep H1 H2 => sep_by1_ok p sep H1 H2). Qed.
Print Assumptions C14_sep_by1_succeeds.
Theorem C14_sep_by1_fails : forall C S1 S2 A B (p : parser C S1 A) (sep : parser C S2 B), history_free false p -> history_free false sep ->
  forall i c, fails (fresh (sep_by1 p sep)) i c <->
  fails (fresh p) i c \/
  (c = true /\ exists c1 a i1 c2 l' i', succeeds (fresh p) i c1 a i1 /\ reps (pair_ok (fresh sep) (fresh p)) i1 c2 l' i' /\
     pair_fails (fresh sep) (fresh p) i' true /\ length l' < fuel C).
Proof. exact (fun C S1 S2 A B p sep H1 H2 => sep_by1_fails p sep H1 H2). Qed.
Print Assumptions C14_sep_by1_fails.
Theorem C14_sep_by_succeeds : forall C S1 S2 A B (p : parser C S1 A) (sep : parser C S2 B), history_free false p -> history_free false sep ->
  forall i c l i', succeeds (fresh (sep_by p sep)) i c l i' <->
  succeeds (fresh (sep_by1 p sep)) i c l i' \/ (c = false /\ l = [] /\ i' = i /\ fails (fresh p) i false).
Proof. exact (fun C S1 S2 A B p sep H1 H2 => sep_by_ok p sep H1 H2). Qed.
Print Assumptions C14_sep_by_succeeds.
Theorem C14_sep_by_fails : forall C S1 S2 A B (p : parser C S1 A) (sep : parser C S2 B), history_free false p -> history_free false sep ->
  forall i c, fails (fresh (sep_by p sep)) i c <-> c = true /\ fails (fresh (sep_by1 p sep)) i true.
Proof. exact (fun C S1 S2 A B p sep H1 H2 => sep_by_fails p sep). Qed.
Print Assumptions C14_sep_by_fails.
Example C14_ex_ok : succeeds (fresh (sep_by1 (bt 1%N) (bt 2%N))) (bin [1; 2; 1; 3]%N) true [1; 1]%N (inp [3]%N 3 false).
Proof. vm_compute. reflexivity. Qed.
Example C14_ex_dangling : pair_fails (fresh (bt 2%N)) (fresh (bt 1%N)) (inp [2; 3]%N 1 false) true /\
  fails (fresh (sep_by (bt 1%N) (bt 2%N))) (bin [1; 2; 3]%N) true.
Proof. split; [right; exists true, 2%N, (inp [3]%N 2 false), false; split; [vm_compute; reflexivity|split; [failtac|reflexivity]]|failtac]. Qed.

(** * C15 *)
Theorem C15_sep_end_by1_succeeds : forall C S1 S2 A B (p : parser C S1 A) (sep : parser C S2 B), history_free false p -> history_free false sep ->
  forall i c l i', succeeds (fresh (sep_end_by1 p sep)) i c l i' <->
  exists c1 a i1 c2 l' ib c3, succeeds (fresh p) i c1 a i1 /\ reps (pair_ok (fresh sep) (fresh p)) i1 c2 l' ib /\
    ((fails (fresh sep) ib false /\ i' = ib /\ c3 = false) \/ (exists x, succeeds (fresh sep) ib c3 x i' /\ fails (fresh p) i' false)) /\
    length l' < fuel C /\ l = a :: l' /\ c = c1 || c2 || c3.
Proof. exact (fun C S1 S2 A B p sep H1 H2 => sep_end_by1_ok p sep H1 H2). Qed.
Print Assumptions C15_sep_end_by1_succeeds.
Theorem C15_sep_end_by1_fails : forall C S1 S2 A B (p : parser C S1 A) (sep : parser C S2 B), history_free false p -> history_free false sep ->
  forall i c, fails (fresh (sep_end_by1 p sep)) i c <->
  fails (fresh p) i c \/
  (c = true /\ exists c1 a i1 c2 l' ib, succeeds (fresh p) i c1 a i1 /\ reps (pair_ok (fresh sep) (fresh p)) i1 c2 l' ib /\
     (fails (fresh sep) ib true \/ exists c3 x i2, succeeds (fresh sep) ib c3 x i2 /\ fails (fresh p) i2 true) /\ length l' < fuel C).
Proof. exact (fun C S1 S2 A B p sep H1 H2 => sep_end_by1_fails p sep H1 H2). Qed.
Print Assumptions C15_sep_end_by1_fails.
Theorem C15_sep_end_by_succeeds : forall C S1 S2 A B (p : parser C S1 A) (sep : parser C S2 B), history_free false p -> history_free false sep ->
  forall i c l i', succeeds (fresh (sep_end_by p sep)) i c l i' <->
  succeeds (fresh (sep_end_by1 p sep)) i c l i' \/ (c = false /\ l = [] /\ i' = i /\ fails (fresh p) i false).
Proof. exact (fun C S1 S2 A B p sep H1 H2 => sep_end_by_ok p sep H1 H2). Qed.
Print Assumptions C15_sep_end_by_succeeds.
Theorem C15_sep_end_by_fails : forall C S1 S2 A B (p : parser C S1 A) (sep : parser C S2 B), history_free false p -> history_free false sep ->
  forall i c, fails (fresh (sep_end_by p sep)) i c <-> c = true /\ fails (fresh (sep_end_by1 p sep)) i true.
Proof. exact (fun C S1 S2 A B p sep H1 H2 => sep_end_by_fails p sep). Qed.
Print Assumptions C15_sep_end_by_fails.
Example C15_ex_trailing : succeeds (fresh (sep_end_by1 (bt 1%N) (bt 2%N))) (bin [1; 2; 1; 2; 2]%N) true [1; 1]%N (inp [2]%N 4 false).
Proof. vm_compute. reflexivity. Qed.

(** * C16 *)
Theorem C16_chainl1_succeeds : forall C S1 S2 A (p : parser C S1 A) (op : parser C S2 (A -> A -> A)),
  history_free false p -> history_free false op -> starts_alike p -> forall i c v i',
  succeeds (fresh (chainl1 p op)) i c v i' <->
  exists c1 x i1 c2 fs, succeeds (fresh p) i c1 x i1 /\ reps (pair_ok2 (fresh op) (fresh p)) i1 c2 fs i' /\
    pair_fails (fresh op) (fresh p) i' false /\ length fs < fuel C /\ v = foldl_chain x fs /\ c = c1 || c2.
Proof. exact (fun C S1 S2 A p op H1 H2 H3 => chainl1_ok p op H1 H2 H3). Qed.
Print Assumptions C16_chainl1_succeeds.
Theorem C16_chainl1_fails : forall C S1 S2 A (p : parser C S1 A) (op : parser C S2 (A -> A -> A)),
  history_free false p -> history_free false op -> starts_alike p -> forall i c,
  fails (fresh (chainl1 p op)) i c <->
  fails (fresh p) i c \/
  (c = true /\ exists c1 x i1 c2 fs i', succeeds (fresh p) i c1 x i1 /\ reps (pair_ok2 (fresh op) (fresh p)) i1 c2 fs i' /\
     pair_fails (fresh op) (fresh p) i' true /\ length fs < fuel C).
Proof. exact (fun C S1 S2 A p op H1 H2 H3 => chainl1_fails p op H1 H2 H3). Qed.
Print Assumptions C16_chainl1_fails.
Definition c16_minus := map (bt 45%N) (fun _ => N.sub).
Definition c16_num := map (b_digit (C:=BC) (fun x => x)) (fun d => (d - 48)%N).
(** 9-3-2 is 4. *)
Example C16_ex : succeeds (fresh (chainl1 c16_num c16_minus)) (bin [57; 45; 51; 45; 50; 59]%N) true 4%N (inp [59]%N 5 false) /\
  starts_alike c16_num /\ foldl_chain 9%N [(N.sub, 3); (N.sub, 2)]%N = 4%N.
Proof. split; [vm_compute; reflexivity|split; [intros i; reflexivity|vm_compute; reflexivity]]. Qed.
Example C16_ex_dangling : fails (fresh (chainl1 c16_num c16_minus)) (bin [57; 45; 59]%N) true.
Proof. failtac. Qed.

(** * C17 *)
(** What [chainr1] does in full; it always uses its parts through [parse_lazy]. *)
Theorem C17_chainr1_succeeds : forall C S1 S2 A (p : parser C S1 A) (op : parser C S2 (A -> A -> A)) i c v i',
  fresh (chainr1 p op) i <> OOF ->
  (succeeds (fresh (chainr1 p op)) i c v i' <-> chr (p_lazy p) (p_lazy op) i c v i').
Proof. exact (fun C S1 S2 A p op => chainr1_ok p op). Qed.
Print Assumptions C17_chainr1_succeeds.
Theorem C17_chainr1_fails_first : forall C S1 S2 A (p : parser C S1 A) (op : parser C S2 (A -> A -> A)) i,
  fails (fresh (chainr1 p op)) i false <-> fails (p_lazy p : beh A) i false /\ 0 < fuel C.
Proof. exact (fun C S1 S2 A p op => chainr1_fails_peek p op). Qed.
Print Assumptions C17_chainr1_fails_first.
(** A chain [x1 o1 x2 ... xn] with no operator after it is folded from the right ... *)
Theorem C17_right_fold : forall C S1 S2 A (p : parser C S1 A) (op : parser C S2 (A -> A -> A)) i c1 x i1 c2 fs i',
  succeeds (p_lazy p) i c1 x i1 -> reps (pair_ok2 (p_lazy op) (p_lazy p)) i1 c2 fs i' -> fails (p_lazy op : beh _) i' false ->
  fresh (chainr1 p op) i <> OOF -> succeeds (fresh (chainr1 p op)) i (c1 || c2) (foldr_chain x fs) i'.
Proof. intros C S1 S2 A p op i c1 x i1 c2 fs i' H1 H2 H3 H4. apply chainr1_ok; auto. eapply chr_fold; eauto. Qed.
Print Assumptions C17_right_fold.
(** ... and so is one with a dangling operator, which is consumed and dropped. *)
Theorem C17_dangling_operator_dropped : forall C S1 S2 A (p : parser C S1 A) (op : parser C S2 (A -> A -> A)) i c1 x i1 c2 fs ib c3 f i',
  succeeds (p_lazy p) i c1 x i1 -> reps (pair_ok2 (p_lazy op) (p_lazy p)) i1 c2 fs ib -> succeeds (p_lazy op) ib c3 f i' ->
  fails (p_lazy p : beh _) i' false -> fails (p_lazy op : beh _) i' false ->
  fresh (chainr1 p op) i <> OOF -> succeeds (fresh (chainr1 p op)) i (c1 || c2 || c3) (foldr_chain x fs) i'.
Proof. intros C S1 S2 A p op i c1 x i1 c2 fs ib c3 f i' H1 H2 H3 H4 H5 H6. apply chainr1_ok; auto. eapply chr_fold_drop; eauto. Qed.
Print Assumptions C17_dangling_operator_dropped.
(** 9-(3-2) is 8. *)
Example C17_ex : succeeds (fresh (chainr1 c16_num c16_minus)) (bin [57; 45; 51; 45; 50; 59]%N) true 8%N (inp [59]%N 5 false) /\
  foldr_chain 9%N [(N.sub, 3); (N.sub, 2)]%N = 8%N.
Proof. split; vm_compute; reflexivity. Qed.
Example C17_ex_dangling : succeeds (fresh (chainr1 c16_num c16_minus)) (bin [57; 45; 59]%N) true 9%N (inp [59]%N 2 false).
Proof. vm_compute. reflexivity. Qed.

(** * C18 *)
Theorem C18_take_until_succeeds : forall C S A (p : parser C S A), history_free false p -> forall i c l i',
  succeeds (fresh (take_until p)) i c l i' <->
  exists c1 c2 x k, reps (passed (fresh p)) i c1 l i' /\ succeeds (fresh p) i' c2 x k /\ c = c1 || c2.
Proof. exact (fun C S A p H => take_until_ok p H). Qed.
Print Assumptions C18_take_until_succeeds.
Theorem C18_take_until_fails : forall C S A (p : parser C S A), history_free false p -> forall i c,
  fails (fresh (take_until p)) i c <->
  exists c1 l i', reps (passed (fresh p)) i c1 l i' /\
    ((fails (fresh p) i' true /\ c = true) \/ (rest i' = [] /\ fails (fresh p) i' false /\ c = ipart i)).
Proof. exact (fun C S A p H => take_until_fails p H). Qed.
Print Assumptions C18_take_until_fails.
(** "Passed" in terms of positions: the end parser fails backtrackably before every returned token. *)
Theorem C18_passed : forall C A (b : beh (C:=C) A) i c l i', reps (passed b) i c l i' <->
  c = negb (match l with [] => true | _ => false end) /\ advanced_by i l i' /\
  forall l1 l2 j, l = l1 ++ l2 -> l2 <> [] -> advanced_by i l1 j -> fails b j false.
Proof. exact (fun C A b => reps_passed b). Qed.
Print Assumptions C18_passed.
Theorem C18_skip_until_succeeds : forall C S A (p : parser C S A) i c u i',
  succeeds (fresh (skip_until p)) i c u i' <-> exists l, succeeds (fresh (take_until p)) i c l i'.
Proof. exact (fun C S A p i c u i' => with_value_ok (take_until p) i c u i'). Qed.
Print Assumptions C18_skip_until_succeeds.
Theorem C18_skip_until_fails : forall C S A (p : parser C S A) i c,
  fails (fresh (skip_until p)) i c <-> fails (fresh (take_until p)) i c.
Proof. exact (fun C S A p i c => with_value_fails (take_until p) i c). Qed.
Print Assumptions C18_skip_until_fails.
Theorem C18_repeat_until_succeeds : forall C S1 S2 A B (p : parser C S1 A) (e : parser C S2 B), history_free false p -> history_free false e ->
  forall i c l i', succeeds (fresh (repeat_until p e)) i c l i' <->
  exists c1 c2 x k, reps (item_ok (fresh e) (fresh p)) i c1 l i' /\ succeeds (fresh e) i' c2 x k /\ c = c1 || c2 /\ 2 * length l < fuel C.
Proof. exact (fun C S1 S2 A B p e H1 H2 => repeat_until_ok p e H1 H2). Qed.
Print Assumptions C18_repeat_until_succeeds.
Theorem C18_repeat_until_fails : forall C S1 S2 A B (p : parser C S1 A) (e : parser C S2 B), history_free false p -> history_free false e ->
  forall i c er, fails_with (fresh (repeat_until p e)) i c er <->
  exists c1 l i', reps (item_ok (fresh e) (fresh p)) i c1 l i' /\
    ((fails_with (fresh e) i' true er /\ c = true /\ 2 * length l < fuel C) \/
     (fails (fresh e) i' false /\ fails_with (fresh p) i' c er /\ 2 * length l + 1 < fuel C)).
Proof. exact (fun C S1 S2 A B p e H1 H2 => repeat_until_fails p e H1 H2). Qed.
Print Assumptions C18_repeat_until_fails.
Example C18_ex : succeeds (fresh (take_until (attempt (pair2 (bt 1%N) (bt 2%N))))) (bin [1; 1; 3; 1; 2; 9]%N) true [1; 1; 3]%N (inp [1; 2; 9]%N 3 false).
Proof. vm_compute. reflexivity. Qed.
Example C18_ex_hyp : history_free false (attempt (pair2 (bt 1%N) (bt 2%N))).
Proof. apply C28_tidy_history_free. unfold pair2. tidy_tac. Qed.
Example C18_ex_repeat : succeeds (fresh (repeat_until (pair2 (bt 1%N) (bt 2%N)) (bt 3%N))) (bin [1; 2; 1; 2; 3]%N) true [(1, 2); (1, 2)]%N (inp [3]%N 4 false).
Proof. vm_compute. reflexivity. Qed.
(** Finding: an item failing backtrackably after committed items makes [repeat_until] fail backtrackably (and with the
    input past those items): the commitment of earlier items is forgotten in failures. *)
Example C18_repeat_until_forgets_commitment : exists t i',
  fresh (repeat_until (pair2 (bt 1%N) (bt 2%N)) (bt 3%N)) (bin [1; 2; 7]%N) = Done (PeekErr t, i') /\ ipos i' = 3.
Proof. do 2 eexists. split; vm_compute; reflexivity. Qed.

(** * C19 *)
Theorem C19_iterate_succeeds : forall C J S A (f : J -> parser C S A) s0 (Clean : S -> Prop), Clean s0 ->
  (forall x, p_init (f x) = s0) -> (forall x, run_hyg false Clean (p_run (f x))) -> forall items i c l i',
  succeeds (fresh (iterate s0 items f)) i c l i' <-> runs_all (List.map (fun x => fresh (f x)) items) i c l i'.
Proof. exact (fun C J S A f s0 Clean H1 H2 H3 => iterate_ok f s0 Clean H1 H2 H3). Qed.
Print Assumptions C19_iterate_succeeds.
Theorem C19_iterate_fails : forall C J S A (f : J -> parser C S A) s0 (Clean : S -> Prop), Clean s0 ->
  (forall x, p_init (f x) = s0) -> (forall x, run_hyg false Clean (p_run (f x))) -> forall items i c e,
  fails_with (fresh (iterate s0 items f)) i c e <->
  exists pre x post c1 l i' c2, items = pre ++ x :: post /\ runs_all (List.map (fun x => fresh (f x)) pre) i c1 l i' /\
    fails_with (fresh (f x)) i' c2 e /\ c = c1 || c2.
Proof. exact (fun C J S A f s0 Clean H1 H2 H3 => iterate_fails f s0 Clean H1 H2 H3). Qed.
Print Assumptions C19_iterate_fails.
Theorem C19_iterate_stateless : forall C J A (f : J -> parser C unit A) items i c l i',
  succeeds (fresh (iterate tt items f)) i c l i' <-> runs_all (List.map (fun x => fresh (f x)) items) i c l i'.
Proof.
  intros C J A f. apply (iterate_ok f tt (fun _ => True) I); [intros x; destruct (p_init (f x)); reflexivity|].
  intros x i [] [] _ _. apply orel_refl. intros [[r j] []] _. repeat split; auto.
Qed.
Print Assumptions C19_iterate_stateless.
Example C19_ex : succeeds (fresh (iterate tt [3; 1; 2]%N (fun c => bt c))) (bin [3; 1; 2; 9]%N) true [3; 1; 2]%N (inp [9]%N 3 false) /\
  fails (fresh (iterate tt [3; 1; 2]%N (fun c => bt c))) (bin [3; 2]%N) true /\ fails (fresh (iterate tt [3; 1; 2]%N (fun c => bt c))) (bin [4]%N) false.
Proof. split; [vm_compute; reflexivity|split; failtac]. Qed.

(** * C45 *)
(** Normal text parsers that leave the input alone when they do not match ([restores]); [take_while1], the documented
    use, is one of them. *)
Theorem C45_escaped_succeeds : forall C, lawful C -> forall S1 S2 A B (p : parser C S1 A) esc (q : parser C S2 B), restores (p_lazy p) ->
  forall i c u i', succeeds (fresh (escaped p esc q)) i c u i' <->
  exists l, reps (escaped_step (p_lazy p) esc (freshc q)) i c l i' /\
    (fails (p_lazy p : beh _) i' false /\ (rest i' = [] -> ipart i' = false) /\ (forall t r, rest i' = t :: r -> t <> esc)) /\ length l < fuel C.
Proof. exact (fun C L S1 S2 A B p esc q H => escaped_ok L p esc q H). Qed.
Print Assumptions C45_escaped_succeeds.
Theorem C45_escaped_fails : forall C, lawful C -> forall S1 S2 A B (p : parser C S1 A) esc (q : parser C S2 B), restores (p_lazy p) ->
  forall i c, fails (fresh (escaped p esc q)) i c <->
  c = true /\ exists c1 l i', reps (escaped_step (p_lazy p) esc (freshc q)) i c1 l i' /\
    (fails (p_lazy p : beh _) i' true \/ (fails (p_lazy p : beh _) i' false /\ rest i' = [] /\ ipart i' = true) \/
     (exists i1 c2, fails (p_lazy p : beh _) i' false /\ advanced_by i' [esc] i1 /\ fails (freshc q) i1 c2)) /\ length l < fuel C.
Proof. exact (fun C L S1 S2 A B p esc q H => escaped_fails L p esc q H). Qed.
Print Assumptions C45_escaped_fails.
Definition c45_text := take_while1 (C:=BC) (fun c => negb (c =? 92)%N && negb (c =? 34)%N).
Theorem C45_take_while1_restores : forall C (f : tok C -> bool), restores (p_lazy (take_while1 f)).
Proof. exact (fun C f => take_while1_restores f). Qed.
Print Assumptions C45_take_while1_restores.
(** ab\"c" : the text up to the closing quote. *)
Example C45_ex : succeeds (fresh (escaped c45_text 92%N (one_of (C:=BC) [34; 92]%N))) (bin [97; 98; 92; 34; 99; 34]%N) true tt (inp [34]%N 5 false) /\
  fails (fresh (escaped c45_text 92%N (one_of (C:=BC) [34; 92]%N))) (bin [97; 92; 98; 34]%N) true.
Proof. split; [vm_compute; reflexivity|failtac]. Qed.
(** Without the side condition the claim is false: [satisfy] moves the input when it refuses a token, so the escape
    token is eaten by the failed normal parser.  escaped(satisfy(a..z), '\', one_of(n)) on a\n stops after the backslash. *)
Definition c45_letter := satisfy (C:=BC) (fun c => (97 <=? c)%N).
Theorem C45_satisfy_refuted : ~ (forall i c u i', succeeds (fresh (escaped c45_letter 92%N (bt 110%N))) i c u i' ->
  exists l, reps (escaped_step (p_lazy c45_letter) 92%N (freshc (bt 110%N))) i c l i').
Proof.
  intros H. specialize (H (bin [97; 92; 98]%N) true tt (inp [98]%N 2 false) ltac:(vm_compute; reflexivity)). destruct H as [l H].
  inversion H as [|i0 c0 a i1 c' l0 i' Hok Hre E1 E2 E3 E4]; subst. clear H. destruct Hok as [[x Hs]|[j [x [Hf _]]]].
  - unfold succeeds in Hs. vm_compute in Hs. destruct c0; inversion Hs; subst. clear Hs.
    inversion Hre as [|i0 c0 a1 i2 c1 l1 i3 Hok2 Hre2 F1 F2 F3 F4]; subst. destruct Hok2 as [[x2 Hs2]|[j [x2 [Hf [Ha Hs2]]]]].
    + unfold succeeds in Hs2. vm_compute in Hs2. destruct c0; inversion Hs2.
    + destruct Ha as [Ha [Hb Hc]]. destruct j as [jl jp jb]. simpl in *. inversion Ha; subst.
      unfold succeeds in Hs2. vm_compute in Hs2. destruct c0; inversion Hs2.
  - destruct Hf as [e [r [k [K1 [K2 K3]]]]]. vm_compute in K1. inversion K1; subst. discriminate.
Qed.
Print Assumptions C45_satisfy_refuted.
(** "a\n" is cut after the backslash: *)
Example C45_satisfy_outcome : succeeds (fresh (escaped c45_letter 92%N (bt 110%N))) (bin [97; 92; 35]%N) true tt (inp [35]%N 2 false).
Proof. vm_compute. reflexivity. Qed.
