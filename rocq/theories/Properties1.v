(** Theorems for C01-C05 and C49: results, token parsers, sequences. *)
From Coq Require Import String List Bool Arith NArith.
Import ListNotations.
From Verif Require Import Base Parser Errors Token Combinator Sequence Instances Spec SeqSpec
  ResultProofs LawsProofs TokenProofs SeqProofs CombProofs.
Set Implicit Arguments.

(** Instances used in the examples: bytes with [easy] errors, fuel 100. *)
Definition BC : Cfg := cfg_easy bytes_tok 100 true.
Lemma BC_lawful : lawful BC.
Proof. apply lawful_easy. apply bytes_lawful. Qed.
Definition bin (l : list N) : input BC := @Inp BC l 0 false.
Definition bpart (l : list N) : input BC := @Inp BC l 0 true.

(** * C01 *)
Theorem C01_and_then_assoc : forall (A B D E : Type) (r : PR A E) (f : A -> PR B E) (g : B -> PR D E),
  pr_and_then (pr_and_then r f) g = pr_and_then r (fun x => pr_and_then (f x) g).
Proof. exact pr_and_then_assoc. Qed.
Print Assumptions C01_and_then_assoc.

Theorem C01_and_then_unit : forall (A E : Type) (r : PR A E) (B : Type) (a : A) (f : A -> PR B E),
  pr_and_then r PeekOk = r /\ pr_and_then (PeekOk a) f = f a.
Proof. intros. split; [apply pr_and_then_right_unit|apply pr_and_then_left_unit]. Qed.
Print Assumptions C01_and_then_unit.

(** A chain of steps: the result is committed iff some executed step was, and value and error are those of the last
    executed step. *)
Theorem C01_chain : forall (A E : Type) (fs : list (A -> PR A E)) (a : A) (rs : list (PR A E)),
  executed fs a rs ->
  committed (chain fs (PeekOk a)) = existsb committed rs /\
  value_of (chain fs (PeekOk a)) = value_of (last rs (PeekOk a)) /\
  error_of (chain fs (PeekOk a)) = error_of (last rs (PeekOk a)).
Proof. exact chain_spec. Qed.
Print Assumptions C01_chain.
Example C01_chain_ex : executed
  [fun n => CommitOk (S n); fun n => PeekOk (n + n); fun _ => PeekErr (to_trk false); fun n => CommitOk n] 3
  [CommitOk 4; PeekOk 8; PeekErr (to_trk false)].
Proof. exact executed_example. Qed.

(** [Commit::combine_commit] and [Commit::combine] are the same chaining. *)
Theorem C01_combine : forall (A B E : Type) (c : commit A) (f : A -> PR B E) (g : A -> std_result B E),
  combine_commit c f = pr_and_then (of_commit E c) f /\
  from_std (commit_combine c g) = pr_and_then (of_commit E c) (fun a => from_std (g a)).
Proof. intros. split; [apply combine_commit_and_then|apply combine_and_then]. Qed.
Print Assumptions C01_combine.

Theorem C01_merge : forall (A : Type) (a b c : commit A),
  commit_merge (commit_merge a b) c = commit_merge a (commit_merge b c) /\
  into_inner (commit_merge a b) = into_inner b /\
  is_peek (commit_merge a b) = is_peek a && is_peek b.
Proof. intros. split; [apply commit_merge_assoc|]. destruct a, b; auto. Qed.
Print Assumptions C01_merge.

Theorem C01_result_round_trip : forall (A E : Type) (r : PR A E), from_std (into_std r) = r.
Proof. exact from_into_std. Qed.
Print Assumptions C01_result_round_trip.

(** * C02 *)
Theorem C02_any : forall C, single_token (@any C) (fun t r => r = t).
Proof. exact (fun C => @any_single C). Qed.
Print Assumptions C02_any.
Theorem C02_satisfy : forall C (f : tok C -> bool), single_token (satisfy f) (fun t r => r = t /\ f t = true).
Proof. exact (fun C => @satisfy_single C). Qed.
Print Assumptions C02_satisfy.
Theorem C02_satisfy_map : forall C R (f : tok C -> option R), single_token (satisfy_map f) (fun t r => f t = Some r).
Proof. exact (fun C => @satisfy_map_single C). Qed.
Print Assumptions C02_satisfy_map.
Theorem C02_token : forall C, lawful C -> forall c : tok C, single_token (token c) (fun t r => r = c /\ t = c).
Proof. exact (fun C => @token_single C). Qed.
Print Assumptions C02_token.
Theorem C02_one_of : forall C, lawful C -> forall l : list (tok C), single_token (one_of l) (fun t r => r = t /\ In t l).
Proof. exact (fun C => @one_of_single C). Qed.
Print Assumptions C02_one_of.
Theorem C02_none_of : forall C, lawful C -> forall l : list (tok C), single_token (none_of l) (fun t r => r = t /\ ~ In t l).
Proof. exact (fun C => @none_of_single C). Qed.
Print Assumptions C02_none_of.
Example C02_ex1 : p_run (@one_of BC [3%N; 4%N]) true (bin [4%N; 5%N]) tt = Done (CommitOk 4%N, @Inp BC [5%N] 1 false, tt).
Proof. reflexivity. Qed.
Example C02_ex2 : lawful (cfg_unexpected str_tok 7 true) /\ lawful (cfg_string src_tok 7 true) /\ lawful (cfg_easy1 bytes_tok 7 true).
Proof.
  repeat split; try apply lawful_unexpected; try apply lawful_string; try apply lawful_easy1;
  auto using str_lawful, src_lawful, bytes_lawful; try apply lawful_unexpected; try apply lawful_string; try apply lawful_easy1; auto using str_lawful, src_lawful, bytes_lawful.
Qed.

Theorem C02_eof : forall C, lawful C -> forall first (i : input C) st,
  (rest i = [] -> p_run eof first i st = Done (PeekOk tt, i, tt)) /\
  (rest i <> [] -> p_run eof first i st = Done (PeekErr (to_trk (e_empty C (ipos i))), i, tt)).
Proof. exact (fun C => @eof_spec C). Qed.
Print Assumptions C02_eof.

Theorem C02_value_produce_position : forall C A (v : A) (f : unit -> A),
  always (@value C A v) (fun _ => v) /\ always (@produce C A f) (fun _ => f tt) /\ always (@position C) (fun i => ipos i).
Proof. intros. split; [apply value_always|split; [apply produce_always|apply position_always]]. Qed.
Print Assumptions C02_value_produce_position.

(** * C03 *)
Theorem C03_tokens : forall C X (cmp : X -> tok C -> bool) (exp : info (tok C)) (l : list X),
  literal_parser (tokens cmp exp l) cmp (fun e => e_add C e (se_expected C exp)) l.
Proof. exact (fun C => @tokens_literal C). Qed.
Print Assumptions C03_tokens.
Theorem C03_tokens_cmp : forall C X (cmp : X -> tok C -> bool) (l : list X),
  literal_parser (tokens_cmp l cmp) cmp (fun e => e) l.
Proof. exact (fun C => @tokens_cmp_literal C). Qed.
Print Assumptions C03_tokens_cmp.
(** The three cases of [literal_parser] cover every input. *)
Theorem C03_cases_cover : forall C X (cmp : X -> tok C -> bool) (l : list X) (i : input C),
  (exists ts r, rest i = ts ++ r /\ Forall2 (fun x t => cmp x t = true) l ts) \/
  (exists l1 x l2 ts t r, rest i = ts ++ t :: r /\ l = l1 ++ x :: l2 /\
     Forall2 (fun x t => cmp x t = true) l1 ts /\ cmp x t = false) \/
  (exists l1 x l2, l = l1 ++ x :: l2 /\ Forall2 (fun x t => cmp x t = true) l1 (rest i)).
Proof.
  intros C X cmp l i. destruct (literal_outcome_total cmp l i) as [ts r H M|l1 l2 y ts r t' H L M N|l1 l2 y L M].
  - left. eauto.
  - right. left. exists l1, y, l2, ts, t', r. auto.
  - right. right. eauto.
Qed.
Print Assumptions C03_cases_cover.
Example C03_ex : exists ts r, rest (bin [1; 2; 9]%N) = ts ++ r /\
  Forall2 (fun x t => tok_eqb BC x t = true) [1%N; 2%N] ts.
Proof. exists [1%N; 2%N], [9%N]. split; auto. Qed.
(** Failing inside the literal is committed, at its start: "12" on "13". *)
Example C03_ex_mismatch : exists j, p_run (@tokens_cmp BC _ [1%N; 2%N] N.eqb) true (bin [1; 3]%N) tt
  = Done (CommitErr (MkErrs 0 [EUnexpected (IToken 3%N)]), j, tt).
Proof. eexists. reflexivity. Qed.

(** * C04 *)
(** Success: exactly the in-order success of the parts. *)
Theorem C04_tuple_succeeds : forall C SS B (t : tup (C:=C) SS B) i c b i',
  succeeds (fresh (tuple t)) i c b i' <-> seq_ok t i c b i'.
Proof. exact (fun C SS B => @tuple_succeeds C SS B). Qed.
Print Assumptions C04_tuple_succeeds.
(** Failure: exactly the failure of a first failing part, whose later parts are irrelevant. *)
Theorem C04_tuple_fails : forall C SS B (t : tup (C:=C) SS B) i c,
  fails (fresh (tuple t)) i c <-> exists k c0 f ib ia, seq_stop t i k c0 f ib ia /\
    c = c0 || match f with inl _ => true | inr _ => false end.
Proof. exact (fun C SS B => @tuple_fails C SS B). Qed.
Print Assumptions C04_tuple_fails.
(** The error is the failing part's own when it committed, or when nothing was committed before. *)
Theorem C04_tuple_error : forall C SS B (t : tup (C:=C) SS B) i k c ib ia,
  (forall e, seq_stop t i k c (inl e) ib ia -> fresh (tuple t) i = Done (CommitErr e, ia)) /\
  (forall e, seq_stop t i k false (inr e) ib ia -> fails_with (fresh (tuple t)) i false (terr e)).
Proof.
  intros C SS B t i k c ib ia. split.
  - intros e. apply fresh_tuple_commit.
  - intros e H. destruct (@fresh_tuple_peek C SS B t i k false e ib ia H) as [x Hx].
    eexists. eexists. split; [exact Hx|]. destruct (k =? 0); auto.
Qed.
Print Assumptions C04_tuple_error.
Definition ex3 := TC (@token BC 1%N) (TC (@value BC _ 7) (T1 (@token BC 2%N))).
Example C04_ex_ok : seq_ok ex3 (bin [1; 2; 3]%N) true (1%N, (7, 2%N)) (@Inp BC [3%N] 2 false).
Proof. exists true, (@Inp BC [2; 3]%N 1 false), true. repeat split. exists false. eexists. exists true. repeat split. Qed.
Example C04_ex_stop : exists e, seq_stop ex3 (bin [1; 3]%N) 2 true (inr e) (@Inp BC [3%N] 1 false) (@Inp BC [] 2 false).
Proof.
  eexists. right. exists true, 1%N, (@Inp BC [3%N] 1 false), 1, false. repeat split.
  right. exists false, 7. eexists. exists 0, false. repeat split.
Qed.
Example C04_ex_fails : fails (fresh (tuple ex3)) (bin [1; 3]%N) true.
Proof. eexists. eexists. eexists. split; [vm_compute; reflexivity|]. split; reflexivity. Qed.

(** * C05 *)
Theorem C05_pair : forall C S1 A S2 B (p : parser C S1 A) (q : parser C S2 B),
  runs_after (fresh p) (fun _ => fresh q) pair (fresh (pair2 p q)).
Proof. exact (fun C S1 A S2 B => @pair2_runs C S1 A S2 B). Qed.
Print Assumptions C05_pair.
Theorem C05_with : forall C S1 A S2 B (p : parser C S1 A) (q : parser C S2 B),
  runs_after (fresh p) (fun _ => fresh q) (fun _ b => b) (fresh (with_ p q)).
Proof. exact (fun C S1 A S2 B => @with_runs C S1 A S2 B). Qed.
Print Assumptions C05_with.
Theorem C05_skip : forall C S1 A S2 B (p : parser C S1 A) (q : parser C S2 B),
  runs_after (fresh p) (fun _ => fresh q) (fun a _ => a) (fresh (skip p q)).
Proof. exact (fun C S1 A S2 B => @skip_runs C S1 A S2 B). Qed.
Print Assumptions C05_skip.
Theorem C05_between : forall C S1 A S2 B S3 D (open : parser C S1 A) (close : parser C S2 B) (p : parser C S3 D),
  (forall i c x i', succeeds (fresh (between open close p)) i c x i' <->
     exists c1 a i1 c2 i2 c3 b, succeeds (fresh open) i c1 a i1 /\ succeeds (fresh p) i1 c2 x i2 /\
       succeeds (fresh close) i2 c3 b i' /\ c = c1 || c2 || c3) /\
  (forall i c, fails (fresh (between open close p)) i c <->
     fails (fresh open) i c \/
     (exists c1 a i1 c2, succeeds (fresh open) i c1 a i1 /\ fails (fresh p) i1 c2 /\ c = c1 || c2) \/
     (exists c1 a i1 c2 b i2 c3, succeeds (fresh open) i c1 a i1 /\ succeeds (fresh p) i1 c2 b i2 /\
        fails (fresh close) i2 c3 /\ c = c1 || c2 || c3)).
Proof. exact (fun C S1 A S2 B S3 D => @between_runs C S1 A S2 B S3 D). Qed.
Print Assumptions C05_between.
(** The parsers returned by the function share a partial state type, hence its default value. *)
Theorem C05_then : forall C S1 A S2 B (p : parser C S1 A) (s0 : S2) (f : A -> parser C S2 B),
  (forall a, p_init (f a) = s0) -> (forall a, cmode_agrees (f a)) ->
  runs_after (fresh p) (fun a => fresh (f a)) (fun _ b => b) (fresh (then_ p s0 f)) /\
  runs_after (fresh p) (fun a => fresh (f a)) (fun _ b => b) (fresh (then_partial p s0 f)) /\
  runs_after (fresh p) (fun a => fresh (f a)) pair (fresh (then_ref p s0 f)).
Proof. intros. split; [apply then_runs; auto|]. split; [apply then_runs; auto|apply then_ref_runs; auto]. Qed.
Print Assumptions C05_then.
Example C05_then_ex : succeeds (fresh (then_ (@any BC) tt (fun t => token t))) (bin [5; 5; 6]%N) true 5%N (@Inp BC [6%N] 2 false)
  /\ (forall a, p_init (@token BC a) = tt) /\ (forall a, cmode_agrees (@token BC a)).
Proof. split; [reflexivity|]. split; auto. intros a. apply default_cmode_agrees. reflexivity. Qed.
Theorem C05_map : forall C S A B (p : parser C S A) (f : A -> B) i,
  (forall c b i', succeeds (fresh (map p f)) i c b i' <-> exists a, succeeds (fresh p) i c a i' /\ b = f a) /\
  (forall c e, fails_with (fresh (map p f)) i c e <-> fails_with (fresh p) i c e).
Proof. intros. split; intros; [apply (maps_to_succeeds _ _ _ _ _ _ _ (map_maps p f))|apply (maps_to_fails _ _ _ _ _ _ (map_maps p f))]. Qed.
Print Assumptions C05_map.
(** The function of [map_input] may also move the input; the commitment stays that of the parser. *)
Theorem C05_map_input : forall C S A B (p : parser C S A) (f : A -> input C -> B * input C) i,
  (forall c b i', succeeds (fresh (map_input p f)) i c b i' <-> exists a j, succeeds (fresh p) i c a j /\ f a j = (b, i')) /\
  (forall c e, fails_with (fresh (map_input p f)) i c e <-> fails_with (fresh p) i c e).
Proof.
  intros C S A B p f i. unfold succeeds, fails_with, fresh, okr. simpl.
  destruct (p_run p true i (p_init p)) as [[[r j] s]| |]; simpl.
  - split.
    + intros c b i'. destruct r as [a|a|e|e]; try destruct (f a j) as [b0 i0] eqn:Hf; destruct c; simpl; split; intros H; try discriminate;
        try (inversion H; subst; eauto; fail); destruct H as [a1 [j1 [H1 H2]]]; inversion H1; subst; rewrite H2 in Hf; inversion Hf; reflexivity.
    + intros c e. destruct r as [a|a|e0|e0]; try destruct (f a j) as [b0 i0] eqn:Hf; simpl; split; intros [r0 [j0 [H1 [H2 H3]]]];
        inversion H1; subst; try discriminate; eexists _, _; repeat split; eauto.
  - split; intros; split; intros H; try discriminate H; destruct H as [? [? [H _]]]; discriminate H.
  - split; intros; split; intros H; try discriminate H; destruct H as [? [? [H _]]]; discriminate H.
Qed.
Print Assumptions C05_map_input.
Example C05_map_input_ex : succeeds (fresh (map_input (value 7%N) (fun v i => (v, length (rest i), i)))) (bin [5; 6]%N) false (7%N, 2) (bin [5; 6]%N).
Proof. reflexivity. Qed.
Theorem C05_ignore : forall C S A (p : parser C S A) i,
  (forall c i', succeeds (fresh (ignore p)) i c tt i' <-> exists a, succeeds (fresh p) i c a i') /\
  (forall c e, fails_with (fresh (ignore p)) i c e <-> fails_with (fresh p) i c e).
Proof.
  intros. split; intros; [|apply (maps_to_fails _ _ _ _ _ _ (ignore_maps p))].
  rewrite (maps_to_succeeds _ _ _ _ _ _ _ (ignore_maps p)). split; intros [a H]; exists a; tauto.
Qed.
Print Assumptions C05_ignore.
Theorem C05_flat_map : forall C S A B (p : parser C S A) (f : A -> B + Err C),
  (forall i c b i', succeeds (fresh (flat_map p f)) i c b i' <-> exists a, succeeds (fresh p) i c a i' /\ f a = inl b) /\
  (forall i c e, fails_with (fresh (flat_map p f)) i c e <->
     fails_with (fresh p) i c e \/ exists a i', succeeds (fresh p) i c a i' /\ f a = inr e).
Proof. exact (fun C S A B => @flat_map_spec C S A B). Qed.
Print Assumptions C05_flat_map.
Theorem C05_and_then : forall C, lawful C -> forall S A B (p : parser C S A) (f : A -> B + SErr C),
  (forall i c b i', succeeds (fresh (and_then p f)) i c b i' <-> exists a, succeeds (fresh p) i c a i' /\ f a = inl b) /\
  (forall i c a i' se, succeeds (fresh p) i c a i' -> f a = inr se -> (ipart i' = false \/ rest i' <> []) ->
     exists r, fresh (and_then p f) i = Done (r, i') /\ committed r = c /\ error_of r = Some (e_from C (ipos i) se)) /\
  (forall i c a i' se, succeeds (fresh p) i c a i' -> f a = inr se -> ipart i' = true -> rest i' = [] ->
     fresh (and_then p f) i = Done (CommitErr (e_from C (ipos i) se), i)) /\
  (forall i c e, fails_with (fresh p) i c e -> fails_with (fresh (and_then p f)) i c e).
Proof. exact (fun C L S A B => @and_then_spec C L S A B). Qed.
Print Assumptions C05_and_then.
Example C05_and_then_ex : fresh (and_then (@any BC) (fun t => if (t =? 0)%N then inr (EMessage (IStatic "zero")) else inl t)) (bin [0; 1]%N)
  = Done (CommitErr (MkErrs 0 [EMessage (IStatic "zero")]), (@Inp BC [1%N] 1 false)).
Proof. reflexivity. Qed.

(** * C49 *)
(** For every mode and every state, including states no run produces. *)
Theorem C49_tuple_no_missing_value : forall C SS B (t : tup (C:=C) SS B),
  tup_all (fun S A (p : parser C S A) => never_panics p) t -> never_panics (tuple t).
Proof. exact (fun C SS B => @tuple_never_panics C SS B). Qed.
Print Assumptions C49_tuple_no_missing_value.
Example C49_ex : tup_all (fun S A (p : parser BC S A) => never_panics p) ex3.
Proof.
  assert (Ht : forall c, never_panics (@token BC c)).
  { intros c first [[|t l] ps part] st H; unfold token, mk_lazy, lazy_run, satisfy_impl in H; simpl in H.
    - destruct part; discriminate H.
    - destruct (t =? c)%N; discriminate H. }
  simpl. repeat split; auto. intros first i st. cbn. congruence.
Qed.
