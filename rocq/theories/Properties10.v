(** Properties C52 and C53: parsers that always return, and recursive grammars. *)
From Coq Require Import String List Bool Arith NArith Lia.
Import ListNotations.
From Verif Require Import Base Errors Instances Parser Token Combinator Sequence Choice Repeat RangeP ByteP Spec AgreeSpec RepeatSpec TidySpec TotalSpec.
From Verif Require Import LawsProofs ForwardProofs TotalProofs TotalProofs2 Properties1 Properties3.
Unset Implicit Arguments.

Ltac sol_side := first [ reflexivity | discriminate | lia | intros; discriminate ].
Ltac sol_go := repeat first
  [ progress unfold between, tup3, pair2, skip_many, skip_many1, b_digit, b_letter, b_space, b_spaces, byte_class, bt
  | apply sol_token | apply sol_any | apply sol_satisfy | apply sol_one_of | apply sol_none_of | apply sol_value | apply sol_eof | apply sol_position
  | apply sol_expected | apply sol_message | apply sol_silent | apply sol_map | apply sol_ignore | apply sol_parser_fn | apply sol_attempt
  | apply sol_take_while1 ].

(** * C52 *)
(** No panic, no undefined behaviour, no endless loop; also when the parser is used again with the state it was left in. *)
Theorem C52_run : forall C, lawful C -> forall z b n S A (p : parser C S A), solid z b n p -> forall st, used z b p st -> forall i, fits z i ->
  returns (p_run p true i st).
Proof. intros C L z b n S A p H st Hu i Hi. destruct (solid_returns L z b n S A p H st Hu i Hi) as [r [i' [st' [E _]]]]. eexists. exact E. Qed.
Print Assumptions C52_run.
Theorem C52_parse : forall C, lawful C -> forall z b n S A (p : parser C S A), solid z b n p -> forall i, fits z i -> returns (parse p i).
Proof.
  intros C L z b n S A p H i Hi. destruct (solid_stream L z b n S A p H i Hi) as [r [i' [E _]]]. unfold parse. rewrite E. eexists. reflexivity.
Qed.
Print Assumptions C52_parse.
Theorem C52_lazy : forall C, lawful C -> forall z b n S A (p : parser C S A), solid z b n p -> forall i, fits z i -> returns (p_lazy p i).
Proof. intros C L z b n S A p H i Hi. destruct (solid_lazy L z b n S A p H i Hi) as [r [i' [E _]]]. eexists. exact E. Qed.
Print Assumptions C52_lazy.
(** What the index [true] promises. *)
Theorem C52_consumes : forall C, lawful C -> forall z b S A (p : parser C S A), solid z b true p -> forall st, used z b p st -> forall i a i' st', fits z i ->
  p_run p true i st = Done (CommitOk a, i', st') \/ p_run p true i st = Done (PeekOk a, i', st') -> shorter i' i.
Proof.
  intros C L z b S A p H st Hu i a i' st' Hi Hr. destruct (solid_returns L z b true S A p H st Hu i Hi) as [r [j [s [E K]]]].
  destruct Hr as [Hr|Hr]; rewrite Hr in E; inversion E; subst; apply K; reflexivity.
Qed.
Print Assumptions C52_consumes.

(** A list of lines of comma separated numbers and quoted texts, up to a marker. *)
Section Ex.
Variables (fl : nat) (d : bool).
Let EC := cfg_easy bytes_tok fl d.
Definition c52_tok (c : N) := token (C:=EC) c.
Definition c52_item := or_ (map (many1 (b_digit (C:=EC) (fun x => x))) (fun _ => tt))
   (between (c52_tok 34) (c52_tok 34) (escaped (take_while1 (C:=EC) (fun t => negb (t =? 34)%N && negb (t =? 92)%N)) 92%N (@any EC))).
Definition c52_p := repeat_until (skip (sep_by1 c52_item (c52_tok 44)) (c52_tok 10)) (attempt (pair2 (c52_tok 46) (c52_tok 46))).
Lemma c52_solid z : solid z true false c52_p.
Proof.
  unfold c52_p, c52_item, c52_tok. eapply sol_repeat_until; [|apply sol_attempt; apply sol_tuple; eapply (sol_TC (n1:=true) (n2:=true)); [apply sol_token|apply sol_T1, sol_token]].
  eapply (sol_skip (n1:=true) (n2:=true)); [|apply sol_token]. eapply (sol_sep_by1 (n1:=true) (n2:=true)); [reflexivity| |apply sol_token].
  apply sol_or; [apply sol_map; apply sol_many1; [discriminate|]; sol_go|]. unfold between. apply sol_parser_fn, sol_map, sol_tuple.
  eapply (sol_TC (n1:=true) (n2:=true)); [apply sol_token|]. eapply (sol_TC (n1:=false) (n2:=true)); [|apply sol_T1, sol_token].
  eapply sol_escaped; [sol_go|apply sol_any].
Qed.
End Ex.
Example C52_ex : exists z, fits z (bin [49; 44; 34; 92; 34; 34; 10; 50; 10; 46; 46]%N) /\ solid z true false (c52_p 100 true) /\
  succeeds (fresh (c52_p 100 true)) (bin [49; 44; 34; 92; 34; 34; 10; 50; 10; 46; 46]%N) true [[tt; tt]; [tt]] (@Inp BC [46; 46]%N 9 false).
Proof. exists 50. split; [vm_compute; lia|]. split; [apply c52_solid|]. vm_compute. reflexivity. Qed.

(** The side conditions are needed.  A repetition of something that need not consume does not end, however large the
    iteration bound: *)
Theorem C52_unproductive_refuted : forall C (i : input C), fresh (many (value (C:=C) tt)) i = OOF /\ fresh (many (@position C)) i = OOF.
Proof.
  intros C i. assert (K : forall S A (p : parser C S A), (forall st, exists a, p_run p true i st = Done (PeekOk a, i, st)) ->
    forall n c st, iter_all n p true c i st = OOF).
  { intros S A p H. induction n as [|n IH]; intros c st; [reflexivity|]. cbn [iter_all]. destruct (H st) as [a ->]. cbn [obind omap]. rewrite IH. reflexivity. }
  split; unfold fresh, many, mk_mode; cbn [p_run p_init]; unfold many_run; (rewrite K; [reflexivity|]); intros []; eexists; reflexivity.
Qed.
Print Assumptions C52_unproductive_refuted.
(** Debug assertions fail when a parser that was stopped by a committed failure is used again: in [many1] and in [then]. *)
Theorem C52_many1_refuted : ~ (forall z p, p = many1 (pair2 (bt 1%N) (bt 2%N)) -> solid z false true p -> forall i, fits z i -> returns (fresh (take_until (attempt p)) i)).
Proof.
  intros H. destruct (H 50 _ eq_refl) with (i := bin [1; 2; 1; 3; 1; 2]%N) as [x Hx].
  - apply sol_many1; [discriminate|]. apply sol_tuple. eapply (sol_TC (n1:=true) (n2:=true)); [apply sol_token|apply sol_T1, sol_token].
  - vm_compute. lia.
  - vm_compute in Hx. discriminate.
Qed.
Print Assumptions C52_many1_refuted.
Theorem C52_then_refuted : ~ (forall z p, p = then_ (bt 1%N) tt (fun _ => parser_fn0 (pair2 (bt 2%N) (bt 3%N))) -> solid z false true p -> forall i, fits z i -> returns (fresh (take_until (attempt p)) i)).
Proof.
  intros H. destruct (H 50 _ eq_refl) with (i := bin [1; 2; 4; 1; 2; 3]%N) as [x Hx].
  - apply (@sol_then BC 50 false true true); [discriminate|apply sol_token|intros; apply sol_parser_fn0, sol_tuple].
    eapply (sol_TC (n1:=true) (n2:=true)); [apply sol_token|apply sol_T1, sol_token].
  - vm_compute. lia.
  - vm_compute in Hx. discriminate.
Qed.
Print Assumptions C52_then_refuted.

(** * C53 *)
(** A grammar defined by recursion through a function: if every recursive use comes after something has been consumed, the
    call stack is never deeper than the input is long, and the parser returns. *)
Theorem C53_rec_fn : forall C, lawful C -> forall S A b n (F : parser C unit A -> parser C S A),
  (forall z p, starts_alike p -> solid z true n p -> solid (Datatypes.S z) b n (F p)) ->
  forall k i, length (rest i) < k -> 2 * length (rest i) + 1 < fuel C -> returns (parse (rec_fn F k) i).
Proof.
  intros C L S A b n F HF k i H1 H2. eapply C52_parse; [exact L|exact (solid_rec_fn L b n F HF k)|split; auto].
Qed.
Print Assumptions C53_rec_fn.
Theorem C53_rec_macro : forall C, lawful C -> forall S A n (F : parser C unit A -> parser C S A),
  (forall z p, solid z true n p -> solid (Datatypes.S z) false n (F p)) ->
  forall k i, length (rest i) < k -> 2 * length (rest i) + 1 < fuel C -> returns (parse (rec_macro F k) i).
Proof.
  intros C L S A n F HF k i H1 H2. eapply C52_parse; [exact L|exact (solid_rec_macro n F HF k)|split; auto].
Qed.
Print Assumptions C53_rec_macro.

(** The grammar of the tests in lib.rs:675-835: expressions of numbers, names, arrays in brackets and terms in parentheses. *)
Inductive expr := Id (s : list N) | Int (n : N) | Array (l : list expr) | Plus (a b : expr) | Times (a b : expr).
Section Grammar.
Variables (fl : nat) (d : bool).
Notation EC := (cfg_easy bytes_tok fl d).
Definition g_tok (c : N) := token (C:=EC) c.
Definition g_spaces := silent (b_spaces (C:=EC) (fun x => x)).
Definition g_term (e : parser EC unit expr) : parser EC unit expr :=
  fn_parser (fun i => omap (fun x => (into_std (fst x), snd x))
    (p_stream (chainl1 (chainl1 e (map (g_tok 42) (fun _ => Times))) (map (g_tok 43) (fun _ => Plus))) i)).
Definition g_body (e : parser EC unit expr) :=
  let word := expected (many1 (b_letter (C:=EC) (fun x => x))) (IStatic "identifier") in
  let integer := map (expected (many1 (b_digit (C:=EC) (fun x => x))) (IStatic "integer")) (fun l => fold_left (fun n c => n * 10 + (c - 48)) l 0)%N in
  let array := expected (between (g_tok 91) (g_tok 93) (sep_by e (g_tok 44))) (IStatic "[") in
  let paren := expected (between (g_tok 40) (g_tok 41) (g_term e)) (IStatic "(") in
  skip (with_ g_spaces (or_ (or_ (or_ (map word Id) (map integer Int)) (map array Array)) paren)) g_spaces.
Lemma g_body_solid z e : starts_alike e -> solid z true true e -> solid (Datatypes.S z) false true (g_body e).
Proof.
  intros Ha He. assert (Ht : solid z true true (g_term e)).
  { apply sol_fn_parser. apply (solid_fn (lawful_easy bytes_lawful fl d) z false true).
    apply sol_chainl1 with (n2 := true); [reflexivity|apply anew_chainl1| |apply sol_map, sol_token].
    apply sol_chainl1 with (n2 := true); [reflexivity|apply anew_unit; exact Ha|apply sol_weak_b; exact He|apply sol_map, sol_token]. }
  unfold g_body, g_spaces, g_tok. eapply (sol_skip (n1:=true) (n2:=false)).
  - eapply (sol_with (n1:=false) (n2:=true)).
    + unfold b_spaces, skip_many. apply sol_silent, sol_expected, sol_parser_fn, sol_ignore, sol_many, sol_ignore. sol_go.
    + apply sol_or; [apply sol_or; [apply sol_or|]|].
      * apply sol_map, sol_expected, sol_many1; [discriminate|]. sol_go.
      * apply sol_map, sol_map, sol_expected, sol_many1; [discriminate|]. sol_go.
      * unfold between. apply sol_map, sol_expected, sol_parser_fn, sol_map, sol_tuple.
        eapply (sol_TC (n1:=true) (n2:=true)); [apply sol_token|]. eapply (sol_TC (n1:=false) (n2:=true)); [|apply sol_T1, sol_token].
        apply sol_sep_by with (n1 := true) (n2 := true); [reflexivity|apply sol_weak_b; exact He|apply sol_token].
      * unfold between. apply sol_expected, sol_parser_fn, sol_map, sol_tuple.
        eapply (sol_TC (n1:=true) (n2:=true)); [apply sol_token|]. eapply (sol_TC (n1:=true) (n2:=true)); [|apply sol_T1, sol_token].
        apply sol_weak_b. exact Ht.
  - unfold b_spaces, skip_many. apply sol_silent, sol_expected, sol_parser_fn, sol_ignore, sol_many, sol_ignore. sol_go.
Qed.
End Grammar.
Theorem C53_grammar : forall fl d (i : input (cfg_easy bytes_tok fl d)) k, length (rest i) < k -> 2 * length (rest i) + 1 < fl ->
  returns (parse (rec_fn (g_body fl d) k) i).
Proof.
  intros fl d i k H1 H2. eapply (C53_rec_fn _ (lawful_easy bytes_lawful fl d) _ _ false true (g_body fl d)); auto.
  intros z e. apply g_body_solid.
Qed.
Print Assumptions C53_grammar.
(** ["[(1+x*2), []]"] *)
Example C53_ex : parse (rec_fn (g_body 100 true) 14) (bin [91; 40; 49; 43; 120; 42; 50; 41; 44; 32; 91; 93; 93]%N) =
  Done (inl (Array [Plus (Int 1) (Times (Id [120]) (Int 2)); Array []])%N, @Inp BC []%N 13 false).
Proof. vm_compute. reflexivity. Qed.
(** Left recursion does not return, however deep the stack. *)
Theorem C53_left_recursion_refuted : forall k i, parse (rec_fn (fun e : parser BC unit N => skip e (bt 43%N)) k) i = OOF.
Proof.
  set (F := fun e : parser BC unit N => skip e (bt 43%N)).
  assert (Q : forall e, (forall f i st, p_run e f i st = OOF) -> forall i, p_stream (F e) i = OOF).
  { intros e H i. unfold F, skip, mk_mode. cbn [p_stream]. unfold default_stream, pair2, tuple, mk_mode. cbn [p_run p_init]. unfold tuple_run. cbn [seq_all fst snd tup_init]. unfold seq_head. cbn [orb]. rewrite H. reflexivity. }
  assert (K : forall k f i st, p_run (rec_fn F k) f i st = OOF).
  { induction k as [|k IH]; intros f i st; [reflexivity|]. cbn [rec_fn]. specialize (Q _ IH i). cbv [fn_parser mk_lazy p_run lazy_run]. rewrite Q. reflexivity. }
  intros k i. unfold parse. destruct k; [reflexivity|]. cbn [rec_fn]. specialize (Q _ (K k) i).
  cbv [fn_parser mk_lazy p_stream default_stream lazy_run]. cbv [p_stream] in Q. rewrite Q. reflexivity.
Qed.
Print Assumptions C53_left_recursion_refuted.
