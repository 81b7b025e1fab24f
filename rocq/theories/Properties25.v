(** Property C76: searching a text that arrives in pieces; C07 again: a choice of a slice that is resumed. *)
From Coq Require Import String List Bool Arith NArith Lia.
Import ListNotations.
From Verif Require Import Base Errors Instances Parser Token Combinator Sequence Choice Repeat RangeP ByteP ExamplesM.
From Verif Require Import Spec AgreeSpec SliceSpec RangeSpec DecodeSpec ChunkSpec SearchSpec LawsProofs LawsProofs2 ChunkProofs7 SliceProofs SearchProofs Properties1 Properties4 Properties5 Properties8.
Unset Implicit Arguments.

(** * C76 *)
Theorem C76_byte : forall C, eoi_laws C -> lawful C -> is_slice (C:=C) -> forall (code : tok C -> N) x y z,
  let whole := fun w : list (tok C) => w in
  let right := fun p is => finds_in_pieces code (first_in is) whole p /\ ends_in_pieces p in
  right (take_until_byte (List.map code) x) (fun b => b = x) /\
  right (take_until_byte2 (List.map code) x y) (fun b => b = x \/ b = y) /\
  right (take_until_byte3 (List.map code) x y z) (fun b => b = x \/ b = y \/ b = z).
Proof.
  intros C EL L SL code x y z whole right.
  assert (Q : forall f is, (forall b, f b = true <-> is b) -> right (take_until_byte_by (List.map code) f) is).
  { intros f is Hf. pose proof (laws_byte f is Hf) as HL. eapply (search_finds EL code); [exact HL|]. eapply search_parser_fn.
    exact (search_take_fn L SL _ _ (laws_map code _ _ HL)). }
  split; [|split]; apply Q; intros b; rewrite ?orb_true_iff, !N.eqb_eq; intuition congruence.
Qed.
Print Assumptions C76_byte.

Theorem C76_bytes : forall C, eoi_laws C -> lawful C -> is_slice (C:=C) -> forall (code : tok C -> N) needle,
  finds_in_pieces code (first_of needle) (fun w => w) (take_until_bytes (List.map code) needle) /\ ends_in_pieces (take_until_bytes (List.map code) needle).
Proof.
  intros C EL L SL code needle. eapply (search_finds EL code); [exact (laws_bytes needle)|]. eapply search_parser_fn.
  exact (search_take_fn L SL _ _ (laws_map code _ _ (laws_bytes needle))).
Qed.
Print Assumptions C76_bytes.

(** benches/buffers.rs: the number of bytes before the first "1". *)
Theorem C76_bench : forall C, eoi_laws C -> lawful C -> pos_distinct C -> is_slice (C:=C) -> forall (code : tok C -> N),
  finds_in_pieces code (first_in (fun b => b = 49%N)) (@length (tok C)) (bf_parser code) /\ ends_in_pieces (bf_parser code).
Proof.
  intros C EL L D SL code.
  assert (Q : finds_in_pieces code (first_of [49%N]) (@length (tok C)) (bf_parser code) /\ ends_in_pieces (bf_parser code)).
  { eapply (search_finds EL code); [exact (laws_bytes [49%N])|]. eapply search_any_partial. eapply (search_map _ (fun b => b) _ _ (@length _)).
    eapply (search_recognize L D). eapply search_parser_fn. exact (search_take_fn L SL _ _ (laws_map code _ _ (laws_bytes [49%N]))). }
  destruct Q as [Q1 Q2]. split; [|exact Q2].
  assert (X : forall w b, first_in (fun b => b = 49%N) w b <-> first_of [49%N] w b).
  { intros w b. split.
    - intros [t [a [-> [-> H]]]]. exists a. split; [reflexivity|]. intros b' a' K. destruct (Nat.le_gt_cases (length b) (length b')) as [|Hl]; auto. exfalso.
      assert (Z : nth_error (b ++ 49%N :: a) (length b') = Some 49%N) by (rewrite K, nth_error_app2, Nat.sub_diag by lia; reflexivity).
      rewrite nth_error_app1 in Z by exact Hl. apply nth_error_In in Z. rewrite Forall_forall in H. exact (H _ Z eq_refl).
    - intros [a [H1 H2]]. exists 49%N, a. split; [exact H1|]. split; [reflexivity|]. apply Forall_forall. intros x Hx ->. apply in_split in Hx. destruct Hx as [l1 [l2 ->]].
      specialize (H2 l1 (l2 ++ [49%N] ++ a)). rewrite H1, <- app_assoc in H2. specialize (H2 eq_refl). rewrite app_length in H2. cbn in H2. lia. }
  intros IoE st eof HR pos b cs used fin st' pos' b' eof' HS. specialize (Q1 IoE st eof HR pos b cs used fin st' pos' b' eof' HS). cbv zeta in *.
  destruct Q1 as [K1 [K2 K3]]. split; [intros Hc v Hv; apply (K1 Hc v), X, Hv|]. split; [exact K2|]. destruct fin as [v|e|q e].
  - destruct K3. split; [assumption|]. apply X. assumption.
  - destruct K3 as [? [? K3]]. split; [assumption|]. split; [assumption|]. intros v Hv. apply (K3 v), X, Hv.
  - destruct K3 as [? K3]. split; [assumption|]. intros v Hv. apply (K3 v), X, Hv.
Qed.
Print Assumptions C76_bench.

(** The benchmark keeps its decoder from one iteration to the next, and the "1" stays in the buffer: every iteration after the
    first is over at once, with nothing read. *)
Theorem C76_bench_again : forall C, eoi_laws C -> lawful C -> pos_distinct C -> is_slice (C:=C) -> forall (code : tok C -> N),
  forall IoE st eof, ready IoE (bf_parser code) st eof -> forall pos t b cs used (fin : ending (C:=C) IoE nat) st' pos' b' eof', code t = 49%N ->
  session (bf_parser code) st pos (t :: b) eof cs used fin st' pos' b' eof' -> cs = [] /\ fin = EndValue 0 /\ b' = t :: b.
Proof.
  intros C EL L D SL code IoE st eof HR pos t b cs used fin st' pos' b' eof' Ht HS.
  destruct (C76_bench C EL L D SL code) as [Q _]. specialize (Q IoE st eof HR pos (t :: b) cs used fin st' pos' b' eof' HS). cbv zeta in Q. destruct Q as [K1 [K2 K3]].
  assert (Z : forall w, first_in (fun b => b = 49%N) (List.map code ((t :: b) ++ w)) (List.map code [])).
  { intros w. exists (code t), (List.map code (b ++ w)). split; [reflexivity|]. split; [exact Ht|constructor]. }
  assert (Hc : cs = []) by (destruct cs as [|c cs]; [reflexivity|exfalso; exact (K1 ltac:(discriminate) [] (Z _))]). split; [exact Hc|]. subst cs.
  destruct fin as [v|e|q e].
  - destruct K3 as [-> [u [a [H1 [H2 H3]]]]]. cbn [concat] in *. rewrite app_nil_r in *. destruct used as [|x used]; [split; [reflexivity|exact K2]|]. exfalso.
    cbn in H1. injection H1 as H1 _. inversion H3 as [|? ? H4 _]; subst. apply H4. rewrite <- H1. exact Ht.
  - destruct K3 as [_ [_ K3]]. exfalso. exact (K3 [] (Z _)).
  - destruct K3 as [_ K3]. exfalso. exact (K3 [] (Z _)).
Qed.
Print Assumptions C76_bench_again.

(** "By returning [NotFound(n)] it indicates that the input can skip ahead until [n] when parsing is next resumed" (range.rs:616-617):
    the [n] is counted from where the last search began, and stored as if it were counted from the start of the buffer.  When the
    text comes in pieces of [d] bytes, after the piece [k] (counted from 0) only [d * ((k + 2) / 2)] of the [d * (k + 1)] bytes searched are
    skipped; the other half is searched again, so that the searching of all of it takes quadratic time. *)
Theorem C76_half_again : forall C, lawful C -> is_slice (C:=C) -> forall (code : tok C -> N) x t d n pos, code t <> x ->
  states (take_until_byte (List.map code) x) pos 0 (List.map (fun k => repeat t (d * (k + 1))) (seq 0 n)) = List.map (fun k => d * ((k + 2) / 2)) (seq 0 n).
Proof.
  intros C L SL code x t d n pos Ht. pose proof (search_again L SL code x t d Ht n 0 pos) as Q. cbn [Nat.add Nat.div2] in Q. rewrite Nat.mul_0_r in Q. etransitivity; [exact Q|].
  apply map_ext. intros k. rewrite Nat.div2_div. reflexivity.
Qed.
Print Assumptions C76_half_again.
(** Four pieces of three bytes. *)
Example C76_ex_again : states (take_until_byte (List.map (fun n : tok BC => n)) 49%N) (C:=BC) 0 0 (List.map (fun k => repeat 32%N (3 * (k + 1))) [0; 1; 2; 3]) = [3; 3; 6; 6].
Proof. exact (C76_half_again BC BC_lawful (fun t => eq_refl) (fun n => n) 49%N 32%N 3 4 0 ltac:(discriminate)). Qed.

(** On strings it goes wrong: the skipped length may end inside a character, the skip then fails, unnoticed, and the place found is
    counted from the start of the buffer with the skipped length added.  "a", "é", "\nzz" until the line feed. *)
Definition utf8 (c : N) : list N :=
  (if c <? 128 then [c] else if c <? 2048 then [192 + c / 64; 128 + c mod 64]
   else if c <? 65536 then [224 + c / 4096; 128 + c / 64 mod 64; 128 + c mod 64]
   else [240 + c / 262144; 128 + c / 4096 mod 64; 128 + c / 64 mod 64; 128 + c mod 64])%N.
Example utf8_length : List.map (fun c => length (utf8 c)) [97; 233; 8364; 128512]%N = List.map utf8_len [97; 233; 8364; 128512]%N.
Proof. reflexivity. Qed.
Definition str_bytes : list (tok SC) -> list N := List.flat_map utf8.
Definition soi (n : nat) : Err SC := @MkErrs N nat n [EUnexpected (IStatic "end of input")].
Ltac srd n o := eapply (@ses_read SC _ _ _ _ _ _ _ [] (soi n) o); [reflexivity|reflexivity|reflexivity|discriminate|].
Ltac sok u := eapply (@ses_value SC _ _ _ _ _ _ _ _ u); [reflexivity|reflexivity].
Theorem C76_str_byte_refuted :
  let p := take_until_byte (C:=SC) str_bytes 10%N in
  (exists pos, session (IoE:=unit) p (p_init p) 0 [97]%N false [[233]; [10; 122; 122]]%N [97; 233; 10; 122]%N (EndValue [97; 233; 10; 122]%N) 0 pos [122]%N false) /\
  fresh p (@Inp SC [97; 233; 10; 122; 122]%N 0 false) = Done (CommitOk [97; 233]%N, @Inp SC [10; 122; 122]%N 3 false).
Proof.
  split; [|reflexivity]. eexists.
  srd 1 1. srd 3 2. sok [97; 233; 10; 122]%N.
Qed.
Print Assumptions C76_str_byte_refuted.
(** The first skip is enough if the text looked for is longer: "é", "\r\n" until "\r\n". *)
Theorem C76_str_bytes_refuted :
  let p := take_until_bytes (C:=SC) str_bytes [13; 10]%N in
  (exists pos, session (IoE:=unit) p (p_init p) 0 [233]%N false [[13; 10]]%N [233; 13]%N (EndValue [233; 13]%N) 0 pos [10]%N false) /\
  fresh p (@Inp SC [233; 13; 10]%N 0 false) = Done (CommitOk [233]%N, @Inp SC [13; 10]%N 2 false).
Proof.
  split; [|reflexivity]. eexists.
  srd 2 1. sok [233; 13]%N.
Qed.
Print Assumptions C76_str_bytes_refuted.

(** The hypotheses hold of byte slices; "ab\r", "c\r", "\nd" until "\r\n". *)
Example C76_ex_laws : eoi_laws BC /\ lawful BC /\ pos_distinct BC /\ is_slice (C:=BC).
Proof. split; [exact (eoi_laws_easy bytes_tok 100 true)|]. split; [exact BC_lawful|]. split; [exact BC_distinct|intros t; reflexivity]. Qed.
Definition boi (n : nat) : Err BC := @MkErrs N nat n [EUnexpected (IStatic "end of input")].
Ltac brd n o := eapply (@ses_read BC _ _ _ _ _ _ _ [] (boi n) o); [reflexivity|reflexivity|reflexivity|discriminate|].
Ltac bok u := eapply (@ses_value BC _ _ _ _ _ _ _ _ u); [reflexivity|reflexivity].
Definition c76_p := take_until_bytes (C:=BC) (List.map (fun n : tok BC => n)) [13; 10]%N.
Example C76_ex_bytes : exists pos, session (IoE:=unit) c76_p (p_init c76_p) 0 [97; 98; 13]%N false [[99; 13]; [10; 100]]%N [97; 98; 13; 99]%N (EndValue [97; 98; 13; 99]%N) 0 pos [13; 10; 100]%N false.
Proof. eexists. brd 3 2. brd 5 2. bok [97; 98; 13; 99]%N. Qed.
(** The benchmark in small: three blanks and "1", then the same decoder again. *)
Definition c76_b := bf_parser (C:=BC) (fun n => n).
Example C76_ex_bench : exists pos, session (IoE:=unit) c76_b None 0 [] false [[32; 32]; [32]; [49]]%N [32; 32; 32]%N (EndValue 3) (Some ([], 0)) pos [49]%N false.
Proof. eexists. brd 0 (Some (@nil N, 0)). brd 2 (Some (@nil N, 2)). brd 3 (Some (@nil N, 1)). bok [32; 32; 32]%N. Qed.
Example C76_ex_bench_again : ready unit c76_b (Some ([], 0)) false /\ exists pos, session (IoE:=unit) c76_b (Some ([], 0)) 3 [49]%N false [] [] (EndValue 0) (Some ([], 0)) pos [49]%N false.
Proof.
  split; [|eexists; bok (@nil N)]. destruct C76_ex_bench as [pos H]. eapply ready_next; [|exact H]. apply ready_init.
Qed.

(** * C07 *)
(** A choice of a slice whose alternatives before [p] fail without committing, leaving the state alone, while [p] fails having
    committed: from then on, until [p] succeeds, the choice is [p], resumed. *)
Theorem C07_slice_calls : forall C S A (s0 : S) (qs : list (parser C S A)) p l first i calls,
  Forall (fun q => exists e j, p_run q first i s0 = Done (PeekErr e, j, s0)) qs ->
  (exists e i' s', p_run p first i s0 = Done (CommitErr e, i', s')) ->
  Forall (fun c => fst c = false) calls -> (forall x, In x (removelast (trace p s0 ((first, i) :: calls))) -> needs_more x) ->
  trace (choice_slice s0 (qs ++ p :: l)) (0, s0) ((first, i) :: calls) = trace p s0 ((first, i) :: calls).
Proof. exact (fun C S A => @slice_calls C S A). Qed.
Print Assumptions C07_slice_calls.
(** Two alternatives: digits and letters; the word "ab" comes as "a", "b.". *)
Definition c07_ps := [many1 (satisfy (C:=BC) isd); many1 (satisfy (C:=BC) (fun c => (97 <=? c)%N && (c <=? 122)%N))].
Definition c07_word := many1 (satisfy (C:=BC) (fun c => (97 <=? c)%N && (c <=? 122)%N)).
Definition c07_calls := [(false, bpart [97]%N); (false, @Inp BC [98; 46]%N 1 true)].
Example C07_ex_calls : (forall x, In x (removelast (trace c07_word (p_init c07_word) c07_calls)) -> needs_more x) /\
  trace (choice_slice (p_init c07_word) c07_ps) (0, p_init c07_word) c07_calls = trace c07_word (p_init c07_word) c07_calls /\
  last (trace c07_word (p_init c07_word) c07_calls) OOF = Done (CommitOk [97; 98]%N, @Inp BC [46]%N 2 true).
Proof.
  assert (H : forall x, In x (removelast (trace c07_word (p_init c07_word) c07_calls)) -> needs_more x) by (vm_compute; intros x [<-|[]]; do 2 eexists; reflexivity).
  split; [exact H|]. split; [|vm_compute; reflexivity].
  apply (C07_slice_calls BC _ _ (p_init c07_word) [many1 (satisfy (C:=BC) isd)] c07_word [] false (bpart [97]%N) [(false, @Inp BC [98; 46]%N 1 true)]).
  - constructor; [|constructor]. do 2 eexists. reflexivity.
  - do 3 eexists. reflexivity.
  - repeat constructor.
  - exact H.
Qed.

(** When [p] has succeeded, the next call chooses anew, in the state that [p] left. *)
Theorem C07_slice_next : forall C S A (s0 : S) (qs : list (parser C S A)) p l first i calls s' v j more,
  Forall (fun q => exists e j, p_run q first i s0 = Done (PeekErr e, j, s0)) qs ->
  (exists e i' s', p_run p first i s0 = Done (CommitErr e, i', s')) ->
  Forall (fun c => fst c = false) calls -> (forall x, In x (removelast (trace p s0 ((first, i) :: calls))) -> needs_more x) ->
  last (trace p s0 ((first, i) :: calls)) OOF = Done (CommitOk v, j) \/ last (trace p s0 ((first, i) :: calls)) OOF = Done (PeekOk v, j) ->
  state_after p s0 ((first, i) :: calls) = Some s' ->
  let choice := choice_slice s0 (qs ++ p :: l) in
  trace choice (0, s0) ((first, i) :: calls ++ more) = trace p s0 ((first, i) :: calls) ++ trace choice (0, s') more.
Proof. exact (fun C S A => @slice_next C S A). Qed.
Print Assumptions C07_slice_next.
(** The word, then the number "7.". *)
Example C07_ex_next : last (trace (choice_slice (p_init c07_word) c07_ps) (0, p_init c07_word) (c07_calls ++ [(false, @Inp BC [55; 46]%N 2 true)])) OOF =
  Done (CommitOk [55]%N, @Inp BC [46]%N 3 true) /\ state_after c07_word (p_init c07_word) c07_calls = Some (false, true, [], tt).
Proof.
  split; [|reflexivity]. pose proof (C07_slice_next BC _ _ (p_init c07_word) [many1 (satisfy (C:=BC) isd)] c07_word [] false (bpart [97]%N) [(false, @Inp BC [98; 46]%N 1 true)]
    (false, true, [], tt) [97; 98]%N (@Inp BC [46]%N 2 true) [(false, @Inp BC [55; 46]%N 2 true)]) as Q. cbv zeta in Q.
  change (last (trace (choice_slice (p_init c07_word) ([many1 (satisfy (C:=BC) isd)] ++ c07_word :: [])) (0, p_init c07_word)
    ((false, bpart [97]%N) :: [(false, @Inp BC [98; 46]%N 1 true)] ++ [(false, @Inp BC [55; 46]%N 2 true)])) OOF = Done (CommitOk [55]%N, @Inp BC [46]%N 3 true)).
  rewrite Q.
  - vm_compute. reflexivity.
  - constructor; [|constructor]. do 2 eexists. reflexivity.
  - do 3 eexists. reflexivity.
  - repeat constructor.
  - exact (proj1 C07_ex_calls).
  - left. vm_compute. reflexivity.
  - reflexivity.
Qed.
