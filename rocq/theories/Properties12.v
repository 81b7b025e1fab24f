(** C58-C61: grammars written with the combinators. *)
From Coq Require Import String List Bool Arith NArith Lia.
Import ListNotations.
From Verif Require Import Base Parser Token Combinator Sequence Choice Repeat ByteP Spec LibSpec TotalSpec GrammarSpec GrammarProofs GrammarProofs2 GrammarProofs3
  Instances Properties1 Properties2 Properties3 Properties4.
Unset Implicit Arguments.

(** * C58: a grammar does what its meaning with commitment says *)
Theorem C58_sound : forall (C : Cfg) (G : nat -> gram C) by_fn k g i c r, ipart i = false ->
  does (fresh (grammar_parser G by_fn k g)) i c r -> ev G g (rest i) c r.
Proof. intros C G by_fn k g i c r. apply grammar_sound. Qed.
Print Assumptions C58_sound.
Theorem C58_complete : forall (C : Cfg) (G : nat -> gram C) by_fn g l c r, ev G g l c r -> length l < fuel C ->
  exists depth, forall k i, depth <= k -> rest i = l -> ipart i = false -> does (fresh (grammar_parser G by_fn k g)) i c r.
Proof. intros C G by_fn g l c r H Hf. destruct (grammar_complete G by_fn g l c r H) as [k0 K]. exists k0. intros k i Hk Hi Hp. apply (K k Hk i Hi Hp Hf). Qed.
Print Assumptions C58_complete.
(** Hence one result, whatever the depth of the call stack and whether rules are functions or macros. *)
Theorem C58_deterministic : forall (C : Cfg) (G : nat -> gram C) f1 f2 k1 k2 g i1 i2 c1 c2 r1 r2,
  ipart i1 = false -> ipart i2 = false -> rest i1 = rest i2 ->
  does (fresh (grammar_parser G f1 k1 g)) i1 c1 r1 -> does (fresh (grammar_parser G f2 k2 g)) i2 c2 r2 -> c1 = c2 /\ r1 = r2.
Proof.
  intros C G f1 f2 k1 k2 g i1 i2 c1 c2 r1 r2 P1 P2 E D1 D2. apply grammar_sound in D1; auto. apply grammar_sound in D2; auto. rewrite <- E in D2.
  exact (ev_det G _ _ _ _ D1 _ _ D2).
Qed.
Print Assumptions C58_deterministic.
(** Through [parse]. *)
Theorem C58_parse : forall (C : Cfg) (G : nat -> gram C) by_fn k g i, ipart i = false ->
  (forall t i', parse (grammar_parser G by_fn k g) i = Done (inl t, i') -> exists c, ev G g (rest i) c (Some (t, rest i'))) /\
  (forall e i', parse (grammar_parser G by_fn k g) i = Done (inr e, i') -> exists c, ev G g (rest i) c None).
Proof.
  intros C G by_fn k g i Hp. split.
  - intros t i' H. apply (parse_ok _ _ _ _ (grammar_lib G by_fn k g)) in H. destruct H as [c H]. exists c. apply (grammar_sound G by_fn k g i c (Some (t, rest i')) Hp). exists i'. auto.
  - intros e i' H. assert (Q : exists c, fails (fresh (grammar_parser G by_fn k g)) i c) by (apply (parse_err _ _ (grammar_lib G by_fn k g)); eauto).
    destruct Q as [c Q]. exists c. apply (grammar_sound G by_fn k g i c None Hp Q).
Qed.
Print Assumptions C58_parse.

Notation ch c := (GTok (C:=BC) (fun t => N.eqb t c)).
(** (ab | ac) on "ac": the first alternative commits, so the second is not tried. *)
Example C58_ex : ev (fun _ => GEps) (GAlt (GSeq (ch 97%N) (ch 98%N)) (GSeq (ch 97%N) (ch 99%N))) [97; 99]%N true None /\
  fails (fresh (grammar_parser (fun _ => GEps) (fun _ => true) 1 (GAlt (GSeq (ch 97%N) (ch 98%N)) (GSeq (ch 97%N) (ch 99%N))))) (bin [97; 99]%N) true.
Proof.
  split; [|eexists; eexists _, _; split; [vm_compute; reflexivity|split; reflexivity]].
  apply ev_alt_committed. apply (ev_seq_second (C := BC) (x := @Tok BC 97%N) (l1 := [99]%N) (c1 := true) (c2 := false)); [apply (@ev_tok BC); reflexivity|apply (@ev_tok_no BC); reflexivity].
Qed.

(** * C59: with every alternative but the last and everything repeated under [attempt], the parser is the parsing expression
    grammar *)
Definition attempted_rules {C : Cfg} (G : nat -> gram C) (gr : nat -> bool) : Prop :=
  forall n, attempted gr (G n) = true /\ (gr n = true -> gentle gr (G n) = true).
Theorem C59_peg_sound : forall (C : Cfg) (G : nat -> gram C) gr by_fn k g i c r, attempted_rules G gr -> attempted gr g = true -> ipart i = false ->
  does (fresh (grammar_parser G by_fn k g)) i c r -> peg G g (rest i) r.
Proof. intros C G gr by_fn k g i c r R A Hp H. apply grammar_sound in H; auto. eapply (ev_peg G gr R); eauto. Qed.
Print Assumptions C59_peg_sound.
Theorem C59_peg_complete : forall (C : Cfg) (G : nat -> gram C) gr by_fn g l r, attempted_rules G gr -> attempted gr g = true ->
  peg G g l r -> length l < fuel C ->
  exists depth c, forall k i, depth <= k -> rest i = l -> ipart i = false -> does (fresh (grammar_parser G by_fn k g)) i c r.
Proof.
  intros C G gr by_fn g l r R A H Hf. destruct (peg_ev G gr R g l r H A) as [c K]. destruct (grammar_complete G by_fn g l c r K) as [k0 Q].
  exists k0, c. intros k i Hk Hi Hp. apply (Q k Hk i Hi Hp Hf).
Qed.
Print Assumptions C59_peg_complete.
(** Without [attempt] it is not: the grammar of [C58_ex] as a parsing expression grammar accepts "ac". *)
Theorem C59_no_attempt_refuted : exists (G : nat -> gram BC) g l i t l', rest i = l /\ ipart i = false /\ peg G g l (Some (t, l')) /\
  forall k, fails (fresh (grammar_parser G (fun _ => true) k g)) i true.
Proof.
  exists (fun _ => GEps), (GAlt (GSeq (ch 97%N) (ch 98%N)) (GSeq (ch 97%N) (ch 99%N))), [97; 99]%N, (bin [97; 99]%N), (Both (@Tok BC 97%N) (@Tok BC 99%N)), [].
  split; [reflexivity|]. split; [reflexivity|]. split.
  - apply peg_alt_second.
    + apply (peg_seq_second (C := BC) (x := @Tok BC 97%N) (l1 := [99]%N)); [apply (@peg_tok BC); reflexivity|apply (@peg_tok_no BC); reflexivity].
    + apply (peg_seq (C := BC) (l1 := [99]%N)); [apply (@peg_tok BC); reflexivity|apply (@peg_tok BC); reflexivity].
  - intros k. eexists; eexists _, _; split; [vm_compute; reflexivity|split; reflexivity].
Qed.
Print Assumptions C59_no_attempt_refuted.
(** a^n b^n c^n, which is not context free:
    rule 0 <- &(rule1 'c') 'a'+ rule2 !.     rule 1 <- 'a' (rule1 / nothing) 'b'     rule 2 <- 'b' (rule2 / nothing) 'c' *)
Definition abc (n : nat) : gram BC :=
  match n with
  | 0 => GSeq (GLook (GTry (GSeq (GCall 1) (ch 99%N)))) (GSeq (ch 97%N) (GSeq (GMany (ch 97%N)) (GSeq (GCall 2) (GNot (GTok (fun _ => true))))))
  | 1 => GSeq (ch 97%N) (GSeq (GAlt (GTry (GCall 1)) GEps) (ch 98%N))
  | _ => GSeq (ch 98%N) (GSeq (GAlt (GTry (GCall 2)) GEps) (ch 99%N))
  end.
Example C59_ex_rules : attempted_rules abc (fun _ => false).
Proof. intros [|[|n]]; split; try reflexivity; discriminate. Qed.
Example C59_ex : (exists t i, parse (grammar_parser abc (fun n => Nat.eqb n 1) 10 (GCall 0)) (bin [97; 97; 98; 98; 99; 99]%N) = Done (inl t, i)) /\
  (exists e i, parse (grammar_parser abc (fun n => Nat.eqb n 1) 10 (GCall 0)) (bin [97; 97; 98; 98; 99]%N) = Done (inr e, i)) /\
  (exists e i, parse (grammar_parser abc (fun n => Nat.eqb n 1) 10 (GCall 0)) (bin [97; 98; 98; 99; 99]%N) = Done (inr e, i)).
Proof. split; [|split]; eexists _, _; vm_compute; reflexivity. Qed.

(** * C60: LL(1) grammars need no [attempt] *)
(** What any grammar accepts it derives. *)
Theorem C60_sound : forall (C : Cfg) (G : nat -> gram C) by_fn k g i c t l, (forall n, plain (G n) = true) -> plain g = true -> ipart i = false ->
  does (fresh (grammar_parser G by_fn k g)) i c (Some (t, l)) -> exists w, rest i = w ++ l /\ derives G g w t.
Proof. intros C G by_fn k g i c t l R P Hp H. apply grammar_sound in H; auto. eapply (ev_derives G R); eauto. Qed.
Print Assumptions C60_sound.
(** An LL(1) grammar followed by [eof] accepts exactly the words it derives, and always returns. *)
Theorem C60_ll1 : forall (C : Cfg), lawful C -> forall (G : nat -> gram C) nu fi fo rank, ll1_grammar G nu fi fo rank ->
  forall fol g, ll1 nu fi fo fol g -> forall by_fn i, ipart i = false -> length (rest i) < fuel C ->
  exists depth, forall k, depth <= k ->
    (forall t, (exists i', parse (skip (grammar_parser G by_fn k g) eof) i = Done (inl t, i')) <-> derives G g (rest i) t) /\
    returns (parse (skip (grammar_parser G by_fn k g) eof) i).
Proof. intros C L G nu fi fo rank HG fol g Hg by_fn i Hp Hf. exact (whole_ll1 G by_fn nu fi fo rank fol g i L HG Hg Hp Hf). Qed.
Print Assumptions C60_ll1.
(** Inside a larger text it takes a word whenever what comes next can follow; it commits exactly if the word is not empty. *)
Theorem C60_prefix : forall (C : Cfg) (G : nat -> gram C) nu fi fo rank, ll1_grammar G nu fi fo rank ->
  forall fol g w r t, ll1 nu fi fo fol g -> next_in fol r -> derives G g w t -> length (w ++ r) < fuel C ->
  forall by_fn, exists depth, forall k i, depth <= k -> rest i = w ++ r -> ipart i = false ->
    does (fresh (grammar_parser G by_fn k g)) i (match w with [] => false | _ => true end) (Some (t, r)).
Proof.
  intros C G nu fi fo rank HG fol g w r t Hg Hr D Hf by_fn. pose proof (derives_ev G nu fi fo rank HG g w t D fol r Hg Hr) as K.
  destruct (grammar_complete G by_fn _ _ _ _ K) as [k0 Q]. exists k0. intros k i Hk Hi Hp. apply (Q k Hk i Hi Hp Hf).
Qed.
Print Assumptions C60_prefix.
Theorem C60_unambiguous : forall (C : Cfg) (G : nat -> gram C) nu fi fo rank, ll1_grammar G nu fi fo rank ->
  forall fol g w t u, ll1 nu fi fo fol g -> derives G g w t -> derives G g w u -> t = u.
Proof. intros C G nu fi fo rank HG fol g w t u. apply (ll1_unambiguous G nu fi fo rank HG). Qed.
Print Assumptions C60_unambiguous.

(** Sums and products: rule 0 = expr <- term ('+' term)*, rule 1 = term <- factor ('*' factor)*, rule 2 = factor <- digit / '(' expr ')'. *)
Definition dig (t : tok BC) : bool := (48 <=? t)%N && (t <=? 57)%N.
Definition arith (n : nat) : gram BC :=
  match n with
  | 0 => GSeq (GCall 1) (GMany (GSeq (ch 43%N) (GCall 1)))
  | 1 => GSeq (GCall 2) (GMany (GSeq (ch 42%N) (GCall 2)))
  | _ => GAlt (GTok (C:=BC) dig) (GSeq (ch 40%N) (GSeq (GCall 0) (ch 41%N)))
  end.
Definition a_fi (n : nat) (t : tok BC) : bool := dig t || N.eqb t 40%N.
Definition a_fo (n : nat) (t : tok BC) : bool :=
  match n with 0 => N.eqb t 41%N | 1 => N.eqb t 41%N || N.eqb t 43%N | _ => N.eqb t 41%N || N.eqb t 43%N || N.eqb t 42%N end.
Ltac bytes := intros t; unfold apart, a_fi, a_fo, dig; cbn [tok BC];
  repeat (rewrite ?orb_true_iff, ?andb_true_iff, ?N.eqb_eq, ?N.leb_le, ?orb_false_r in * ); intros; try lia.
Example C60_ex_ll1 : ll1_grammar arith (fun _ => false) a_fi a_fo (fun n => 2 - n).
Proof.
  intros [|[|n]]; (split; [reflexivity|]); cbn [arith first nullable left_below ll1 andb orb]; repeat split; try reflexivity; try lia; unfold apart; try solve [bytes]; try discriminate.
Qed.
Example C60_ex_start : ll1 (fun _ => false) a_fi a_fo (fun _ => false) (GCall 0).
Proof. intros t H. discriminate. Qed.
Example C60_ex : (exists t i, parse (skip (grammar_parser arith (fun n => Nat.eqb n 2) 12 (GCall 0)) eof) (bin [49; 43; 40; 50; 43; 51; 41; 42; 52]%N) = Done (inl t, i)) /\
  (exists e i, parse (skip (grammar_parser arith (fun n => Nat.eqb n 2) 12 (GCall 0)) eof) (bin [49; 43; 40; 50; 43; 51; 42; 52]%N) = Done (inr e, i)).
Proof. split; eexists _, _; vm_compute; reflexivity. Qed.
(** Without the LL(1) conditions words are lost: ab | ac derives "ac". *)
Theorem C60_not_ll1_refuted : exists (G : nat -> gram BC) g w t, (forall n, plain (G n) = true) /\ plain g = true /\ derives G g w t /\
  forall k, exists e i', parse (skip (grammar_parser G (fun _ => true) k g) eof) (bin w) = Done (inr e, i').
Proof.
  exists (fun _ => GEps), (GAlt (GSeq (ch 97%N) (ch 98%N)) (GSeq (ch 97%N) (ch 99%N))), [97; 99]%N, (Both (@Tok BC 97%N) (@Tok BC 99%N)).
  split; [reflexivity|]. split; [reflexivity|]. split.
  - apply de_right. apply (de_seq (C := BC) (v := [97%N]) (w := [99%N])); apply (@de_tok BC); reflexivity.
  - intros k. eexists _, _. vm_compute. reflexivity.
Qed.
Print Assumptions C60_not_ll1_refuted.

(** * C61: grammars without left recursion and endless repetition always give a result *)
Theorem C61_total : forall (C : Cfg) (G : nat -> gram C) nu rank, well_founded_grammar G nu rank ->
  forall g, loops_consume nu g -> forall by_fn i, ipart i = false -> length (rest i) < fuel C ->
  exists depth c r, ev G g (rest i) c r /\ forall k, depth <= k -> does (fresh (grammar_parser G by_fn k g)) i c r /\ returns (parse (grammar_parser G by_fn k g) i).
Proof.
  intros C G nu rank WF g HL by_fn i Hp Hf. destruct (total_returns G by_fn nu rank g i WF HL Hp Hf) as [k0 [c [r K]]]. exists k0, c, r. split.
  - exact (grammar_sound G by_fn k0 g i c r Hp (K k0 (le_n k0))).
  - intros k Hk. split; [exact (K k Hk)|]. specialize (K k Hk). destruct r as [[t l]|].
    + destruct K as [i' [K _]]. exists (inl t, i'). apply (parse_ok _ _ _ _ (grammar_lib G by_fn k g)). eauto.
    + assert (Q : exists e i', parse (grammar_parser G by_fn k g) i = Done (inr e, i')) by (apply (parse_err _ _ (grammar_lib G by_fn k g)); eauto).
      destruct Q as [e [i' Q]]. exists (inr e, i'). exact Q.
Qed.
Print Assumptions C61_total.
(** The parsing expression grammar itself is total then. *)
Theorem C61_peg : forall (C : Cfg) (G : nat -> gram C) gr nu rank, well_founded_grammar G nu rank -> attempted_rules G gr ->
  forall g, loops_consume nu g -> attempted gr g = true -> forall l, exists r, peg G g l r /\ forall r', peg G g l r' -> r' = r.
Proof.
  intros C G gr nu rank WF R g HL A l. destruct (total G nu rank WF g l HL) as [c [r H]]. exists r. pose proof (ev_peg G gr R g l c r H A) as P.
  split; [exact P|]. intros r' P'. exact (peg_det G _ _ _ P' _ P).
Qed.
Print Assumptions C61_peg.
Example C61_ex_abc : well_founded_grammar abc (fun _ => false) (fun n => match n with 0 => 1 | _ => 0 end).
Proof. intros [|[|n]]; cbn; repeat split; auto; discriminate. Qed.
(** A left recursive rule never returns. *)
Theorem C61_left_recursion_refuted : forall c r, ~ ev (C:=BC) (fun _ => GSeq (GCall 0) (ch 43%N)) (GCall 0) [] c r.
Proof.
  assert (K : forall g l c r, ev (C:=BC) (fun _ => GSeq (GCall 0) (ch 43%N)) g l c r -> g <> GCall 0 /\ g <> GSeq (GCall 0) (ch 43%N)).
  { induction 1; split; intros E; try discriminate; try (injection E as -> ->); try (injection E as ->); intuition congruence. }
  intros c r H. apply K in H. intuition congruence.
Qed.
Print Assumptions C61_left_recursion_refuted.
