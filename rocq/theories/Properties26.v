(** Property C77: the small programs examples/number.rs and examples/readme.rs. *)
From Coq Require Import String List Bool Arith NArith Lia.
Import ListNotations.
From Verif Require Import Base Errors Instances Parser Token Combinator Sequence Choice Repeat RangeP ByteP JsonSpec ExamplesM.
From Verif Require Import Spec AgreeSpec RangeSpec DecodeSpec ChunkSpec TotalSpec SmallSpec LawsProofs LawsProofs2 CombProofs AgreeProofs RangeProofs AgreeProofs ChunkProofs7 LangProofs SmallProofs Properties1 Properties4 Properties8 Properties10.
Unset Implicit Arguments.

(** * examples/number.rs *)
(** It reads the longest decimal text at the beginning and gives what [str::parse::<f64>] makes of it. *)
Theorem C77_number : forall (C : Cfg), lawful C -> forall (code : tok C -> N) (lit : N -> tok C),
  (forall n, (n < 256)%N -> code (lit n) = n) -> (forall t, lit (code t) = t) ->
  forall F (f64 : list (tok C) -> option F) bad i, length (rest i) < fuel C -> ipart i = false ->
  (forall v i', parse (nm_number code lit f64 bad) i = Done (inl v, i') <-> exists w, advanced_by i w i' /\ longest_decimal code (rest i) w /\ f64 w = Some v).
Proof.
  intros C L code lit CL LC F f64 bad i Hf Hp v i'.
  rewrite (lang_parse (fuel C) (nm_number code lit f64 bad) _ _ (number_agrees code lit f64 bad) (lang_number L code lit CL LC f64 bad (fuel C) (le_n _)) i Hf Hp v i').
  split; intros [w [K1 K2]]; exists w; (split; [exact K1|]); destruct K1 as [K1 _]; rewrite K1 in *; exact K2.
Qed.
Print Assumptions C77_number.

(** It fails exactly where no digit comes first, or the closure rejects the text read; it always returns. *)
Theorem C77_number_fails : forall (C : Cfg), lawful C -> forall (code : tok C -> N) (lit : N -> tok C),
  (forall n, (n < 256)%N -> code (lit n) = n) -> (forall t, lit (code t) = t) ->
  forall F (f64 : list (tok C) -> option F) bad i, 2 * length (rest i) + 1 < fuel C -> ipart i = false ->
  returns (parse (nm_number code lit f64 bad) i) /\
  ((exists e i', parse (nm_number code lit f64 bad) i = Done (inr e, i')) <->
   not_at (dec_digit code) (rest i) \/ exists w, longest_decimal code (rest i) w /\ f64 w = None).
Proof.
  intros C L code lit CL LC F f64 bad i Hf Hp.
  assert (R : returns (parse (nm_number code lit f64 bad) i)) by (eapply C52_parse; [exact L|apply (sol_number code lit f64 bad (Datatypes.S (length (rest i))))|split; [lia|exact Hf]]).
  split; [exact R|]. pose proof (C77_number C L code lit CL LC F f64 bad i ltac:(lia) Hp) as X.
  assert (Y : not_at (dec_digit code) (rest i) <-> stops (dec_digit code) (rest i)).
  { unfold not_at. destruct (rest i) as [|t r]; cbn; [split; [auto|discriminate]|]. split; [intros K; exact (K t r eq_refl)|intros K t' r' Q; injection Q as <- <-; exact K]. }
  rewrite Y. split.
  - intros [e [j E]]. destruct (decimal_covers code (rest i)) as [K|[w [r [K1 K2]]]]; [auto|]. right. exists w. split; [exact K2|]. destruct (f64 w) as [v|] eqn:Ef; [|reflexivity]. exfalso.
    assert (Q : parse (nm_number code lit f64 bad) i = Done (inl v, @Inp C r (pos_after (ipos i) w) (ipart i))) by (apply X; exists w; split; [apply advance_by; exact K1|auto]).
    congruence.
  - intros H. destruct R as [x R]. destruct x as [[v|e] j]; [exfalso|eauto]. apply X in R. destruct R as [w [K1 [K2 K3]]]. destruct H as [H|[w' [H1 H2]]].
    + destruct K1 as [K1 _]. refine (proj1 (no_decimal code (rest i)) H w (rest j) K1 _). apply K2.
    + rewrite (longest_unique code (rest i) w' w H1 K2) in H2. congruence.
Qed.
Print Assumptions C77_number_fails.

(** The closure hands its bytes to [str::from_utf8_unchecked]: whatever it would do on bytes that are not such a text, nothing
    changes, as it is never given any. *)
Theorem C77_number_safe : forall (C : Cfg), lawful C -> forall (code : tok C -> N) (lit : N -> tok C),
  (forall n, (n < 256)%N -> code (lit n) = n) -> (forall t, lit (code t) = t) ->
  forall F (f64 g64 : list (tok C) -> option F) bad, (forall w, decimal_text code w -> f64 w = g64 w) ->
  forall i, length (rest i) < fuel C -> ipart i = false -> fresh (nm_number code lit f64 bad) i = fresh (nm_number code lit g64 bad) i.
Proof. intros C L code lit CL LC F f64 g64 bad H i Hf Hp. exact (number_closure L code lit CL LC f64 g64 bad H i Hf Hp). Qed.
Print Assumptions C77_number_safe.

(** In pieces it reads the same: a session ends with the value of the longest decimal text in all of the text, seen or yet to come. *)
Theorem C77_number_pieces : forall (C : Cfg), eoi_laws C -> lawful C -> pos_distinct C -> forall (code : tok C -> N) (lit : N -> tok C),
  (forall n, (n < 256)%N -> code (lit n) = n) -> (forall t, lit (code t) = t) ->
  forall F (f64 : list (tok C) -> option F) bad, se_is_eoi C bad = false ->
  let p := nm_number code lit f64 bad in
  forall IoE st pos b cs used (fin : ending (C:=C) IoE F) st' pos' b' eof eof', ready IoE p st eof -> session p st pos b eof cs used fin st' pos' b' eof' ->
  forall more, (eof' = true -> more = []) -> let w := (b ++ concat cs) ++ more in 2 * length w + 1 < fuel C ->
  match fin with
  | EndValue v => exists d, b ++ concat cs = d ++ b' /\ longest_decimal code w d /\ f64 d = Some v
  | EndParse e => not_at (dec_digit code) w \/ exists d, longest_decimal code w d /\ f64 d = None
  | EndIo _ _ => True
  end.
Proof.
  intros C EL L D code lit CL LC F f64 bad Hb p IoE st pos b cs used fin st' pos' b' eof eof' HR HS more Hm w Hf.
  destruct (C77_number_fails C L code lit CL LC F f64 bad (@Inp C w pos false) Hf eq_refl) as [R Q].
  pose proof (C77_number C L code lit CL LC F f64 bad (@Inp C w pos false) ltac:(cbn [rest]; lia) eq_refl) as X.
  pose proof (pieces_parse EL L D true true false true p (number_agrees code lit f64 bad) (chunk_number code lit f64 bad Hb) IoE st pos b cs used fin st' pos' b' eof eof' HR HS more Hm R) as W.
  destruct fin as [v|e|q e]; [| |exact I].
  - destruct W as [u [W1 W2]]. apply X in W2. destruct W2 as [d [[P1 _] [P2 P3]]]. exists u. split; [exact W1|]. cbn [rest] in *.
    assert (d = u) as -> by (unfold w in P1; rewrite W1, <- app_assoc in P1; apply app_inv_tail in P1; auto). auto.
  - apply Q. exact W.
Qed.
Print Assumptions C77_number_pieces.

(** Examples: "f64" gives the text itself, and rejects a text of more than eight characters. *)
Definition c77_f (w : list (tok BC)) : option (list N) := if length w <=? 8 then Some w else None.
Definition c77_p := nm_number (C:=BC) (fun n => n) (fun n => n) c77_f (se_unexpected BC (IStatic "parse")).
Definition c77_run (s : string) := match parse c77_p (bin (t8 s)) with Done (inl v, i) => Some (Some (v, rest i)) | Done (inr e, _) => Some None | _ => None end.
Example C77_ex_main : c77_run "123.45" = Some (Some (t8 "123.45", [])). Proof. reflexivity. Qed.
Example C77_ex_more : List.map c77_run ["7"; "7.x"; "7.5.5"; ".5"; "-1"; "123456789"]%string =
  [Some (Some (t8 "7", [])); Some (Some (t8 "7.", t8 "x")); Some (Some (t8 "7.5", t8 ".5")); Some None; Some None; Some None].
Proof. reflexivity. Qed.
Example C77_ex_longest : longest_decimal (fun n : N => n) (t8 "7.5.5") (t8 "7.5").
Proof.
  pose proof (C77_number BC BC_lawful (fun n => n) (fun n => n) (fun n _ => eq_refl) (fun n => eq_refl) _ c77_f (se_unexpected BC (IStatic "parse")) (bin (t8 "7.5.5")) ltac:(cbn; lia) eq_refl (t8 "7.5") (@Inp BC (t8 ".5") 3 false)) as [H _].
  destruct (H eq_refl) as [w [[K1 _] [K2 K3]]]. change (rest (bin (t8 "7.5.5"))) with (t8 "7.5" ++ t8 ".5") in K1. cbn [rest] in K1. apply app_inv_tail in K1. subst w. exact K2.
Qed.
(** "12", ".", "5x" in pieces. *)
Example C77_ex_pieces : se_is_eoi BC (se_unexpected BC (IStatic "parse")) = false /\
  exists st pos, session (IoE:=unit) c77_p (p_init c77_p) 0 (t8 "12") false [t8 "."; t8 "5x"] (t8 "12.5") (EndValue (t8 "12.5")) st pos (t8 "x") false.
Proof.
  split; [reflexivity|]. do 2 eexists.
  rd ""%string. rd ""%string. ok "12.5"%string.
Qed.

(** * examples/readme.rs *)
(** It reads words separated by single blanks and gives the last one; no word is fine, but what follows the words must not be a
    blank. *)
Theorem C77_readme : forall (C : Cfg) (code : tok C -> N) (alphabetic whitespace : N -> bool), (forall c, alphabetic c = true -> whitespace c = true -> False) ->
  let letter := fun t => alphabetic (code t) = true in let blank := fun t => whitespace (code t) = true in
  forall i, length (rest i) < fuel C -> ipart i = false ->
  (forall v i', parse (rm_word code alphabetic whitespace) i = Done (inl v, i') <-> exists w, advanced_by i w i' /\
    ((w = [] /\ v = None /\ not_at letter (rest i')) \/ exists l x, sentence letter blank w (l ++ [x]) /\ v = Some x /\ not_at letter (rest i') /\ not_at blank (rest i'))).
Proof.
  intros C code al wh Hd letter blank i Hf Hp v i'.
  rewrite (lang_parse (fuel C) (rm_word code al wh) _ _ (rm_agrees code al wh) (lang_rm code al wh Hd (fuel C) (le_n _)) i Hf Hp v i').
  assert (Y : forall q (l : list (tok C)), not_at q l <-> stops q l).
  { intros q l. unfold not_at. destruct l as [|t r]; cbn; [split; [auto|discriminate]|]. split; [intros K; exact (K t r eq_refl)|intros K t' r' Q; injection Q as <- <-; exact K]. }
  setoid_rewrite Y. reflexivity.
Qed.
Print Assumptions C77_readme.

(** It fails exactly if the words are followed by a blank with no letter after it; it always returns. *)
Theorem C77_readme_fails : forall (C : Cfg), lawful C -> forall (code : tok C -> N) (alphabetic whitespace : N -> bool), (forall c, alphabetic c = true -> whitespace c = true -> False) ->
  let letter := fun t => alphabetic (code t) = true in let blank := fun t => whitespace (code t) = true in
  forall i, 2 * length (rest i) + 1 < fuel C -> ipart i = false ->
  returns (parse (rm_word code alphabetic whitespace) i) /\
  ((exists e i', parse (rm_word code alphabetic whitespace) i = Done (inr e, i')) <->
   exists w l s r, rest i = w ++ s :: r /\ sentence letter blank w l /\ blank s /\ not_at letter r).
Proof.
  intros C L code al wh Hd letter blank i Hf Hp.
  assert (R : returns (parse (rm_word code al wh) i)) by (eapply C52_parse; [exact L|apply (sol_rm code al wh (Datatypes.S (length (rest i))))|split; [lia|exact Hf]]).
  split; [exact R|]. pose proof (C77_readme C code al wh Hd i ltac:(lia) Hp) as X. cbv zeta in X. fold letter blank in X.
  assert (Y : forall q (l : list (tok C)), not_at q l <-> stops q l).
  { intros q l. unfold not_at. destruct l as [|t r]; cbn; [split; [auto|discriminate]|]. split; [intros K; exact (K t r eq_refl)|intros K t' r' Q; injection Q as <- <-; exact K]. }
  split.
  - intros [e [j E]].
    assert (N : forall w v r, rest i = w ++ r -> ((w = [] /\ v = None /\ not_at letter r) \/ exists l x, sentence letter blank w (l ++ [x]) /\ v = Some x /\ not_at letter r /\ not_at blank r) -> False).
    { intros w v r K1 K2. assert (Q : parse (rm_word code al wh) i = Done (inl v, @Inp C r (pos_after (ipos i) w) (ipart i))) by (apply X; exists w; split; [apply advance_by; exact K1|exact K2]). congruence. }
    destruct (words_cover code al wh (Datatypes.S (length (rest i))) (rest i) (Nat.lt_succ_diag_r _)) as [K|[w [ws [r [K1 [K2 [K3 K4]]]]]]].
    + exfalso. apply (N [] None (rest i) eq_refl). left. rewrite Y. auto.
    + destruct K4 as [K4|[s [r' [-> [K4 K5]]]]]; [exfalso|exists w, ws, s, r'; rewrite Y; auto].
      destruct (exists_last (l:=ws)) as [l [x ->]]; [intros ->; inversion K2|]. apply (N w (Some x) r K1). right. exists l, x. rewrite !Y. auto.
  - intros [w [l [s [r [K1 [K2 [K3 K4]]]]]]]. destruct R as [x R]. destruct x as [[v|e] j]; [exfalso|eauto]. apply X in R. destruct R as [w' [[J1 _] J2]]. rewrite K1 in J1.
    assert (Sl : stops letter (s :: r)) by (cbn; intros K; exact (Hd _ K K3)).
    destruct J2 as [[-> [_ J2]]|[l' [x [J2 [_ [J3 J4]]]]]].
    + destruct (sentence_head code al wh Hd w l K2 (s :: r) Sl) as [a [u [Ea [[Na Fa] _]]]]. cbn in J1. rewrite Y, <- J1, Ea in J2. destruct a as [|y a]; [congruence|]. cbn in J2. inversion Fa; auto.
    + rewrite Y in K4, J3, J4. destruct (words_unique code al wh Hd w l K2 (s :: r) w' _ (rest j) J2 J1 Sl J3 J4) as [_ [_ Q]]; [intros s0 r1 Q _; injection Q as <- <-; exact K4|].
      rewrite <- Q in J4. cbn in J4. auto.
Qed.
Print Assumptions C77_readme_fails.

Definition c77_rm (s : string) := match parse (rm_word (C:=BC) (fun n => n) is_ascii_alphabetic is_ascii_whitespace) (bin (t8 s)) with Done (inl v, i) => Some (Some (v, rest i)) | Done (inr e, _) => Some None | _ => None end.
Example C77_ex_readme : c77_rm "Pick up that word!" = Some (Some (Some (t8 "word"), t8 "!")). Proof. reflexivity. Qed.
Example C77_ex_readme_more : List.map c77_rm [""; "!"; "a"; "a "; "a  b"; "a b?"]%string =
  [Some (Some (None, [])); Some (Some (None, t8 "!")); Some (Some (Some (t8 "a"), [])); Some None; Some None; Some (Some (Some (t8 "b"), t8 "?"))].
Proof. reflexivity. Qed.
Example C77_ex_apart : forall c, is_ascii_alphabetic c = true -> is_ascii_whitespace c = true -> False.
Proof.
  intros c. unfold is_ascii_alphabetic, is_ascii_whitespace, is_ascii_lowercase, is_ascii_uppercase, in_range. rewrite ?orb_true_iff, ?andb_true_iff, ?N.leb_le, ?N.eqb_eq. lia.
Qed.
