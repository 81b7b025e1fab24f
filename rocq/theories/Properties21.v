(** C71: what each parser contributes to an error report. *)
From Coq Require Import String List Bool Arith NArith ZArith Lia.
Import ListNotations.
From Verif Require Import Base Errors Parser Token Combinator Sequence Choice Repeat RangeP ByteP RegexP Spec ErrSpec ReportSpec ErrProofs ReportProofs Instances Properties1.
Unset Implicit Arguments.
Local Notation bt c := (@token BC c).
Local Notation inp := (@Inp BC).

(** * C71 *)
(** [add_error], [add_committed_expected_error] and [parser_count] of every parser of the library whose sequences are not
    directly nested. *)
Theorem C71_add_error : forall T fl d, tok_laws T -> forall S A (p : parser (cfg_easy T fl d) S A) s m n, asks p s m n -> p_count p = n /\
  forall t, extended (terr t) (said_at s (toff t)) (terr (p_adderr p t)) /\ toff (p_adderr p t) = left_at s (toff t) /\
    extended (terr t) (said_at m (toff t)) (terr (p_addcexp p t)) /\ toff (p_addcexp p t) = left_at m (toff t).
Proof. intros T fl d L S A p s m n. apply asks_reports; auto. Qed.
Print Assumptions C71_add_error.
(** The report of a failed [parse]: the error, the token found, and what the parser asks for.  [attempt] asked already. *)
Theorem C71_parse : forall T fl d, tok_laws T -> forall S A (p : parser (cfg_easy T fl d) S A) s m n, asks p s m n ->
  forall i t i', fresh p i = Done (PeekErr t, i') ->
  (outer_attempt p /\ parse p i = Done (inr (terr t), i')) \/
  exists e, parse p i = Done (inr e, i) /\ extended (terr t) (found i :: said_at s (toff t)) e.
Proof. intros T fl d L S A p s m n. apply asks_parse; auto. Qed.
Print Assumptions C71_parse.
Theorem C71_attempt : forall T fl d, tok_laws T -> forall S A (p : parser (cfg_easy T fl d) S A) s m n, asks p s m n ->
  forall i t i', fresh p i = Done (PeekErr t, i') ->
  bare p \/ exists e, fresh (attempt p) i = Done (PeekErr (Trk e (left_at s (toff t))), i) /\
    parse (attempt p) i = Done (inr e, i) /\ extended (terr t) (found i :: said_at s (toff t)) e.
Proof. intros T fl d L S A p s m n. apply asks_attempt_report; auto. Qed.
Print Assumptions C71_attempt.
(** [attempt(lazy(p))] does not ask: its report has neither the token found nor what [p] expected. *)
Theorem C71_attempt_lazy_refuted : ~ (forall (c x : N), x <> c ->
  exists e i', parse (attempt (lazy (bt c))) (bin [x]) = Done (inr e, i') /\ (said (elist e) (EUnexpected (IToken x)) \/ said (elist e) (EExpected (IToken c)))).
Proof.
  intros H. destruct (H 97 98)%N as [e [i' [K S]]]; [discriminate|]. vm_compute in K. injection K as <- _. cbn [elist] in S. destruct S as [[y [[] _]]|[y [[] _]]].
Qed.
Print Assumptions C71_attempt_lazy_refuted.
(** A sequence that committed: the report is the error of the failing part, the token found there, what the last committed
    part could have gone on with, and what the parts after it up to the failing one ask for. *)
Theorem C71_sequence : forall T fl d, tok_laws T -> forall SS B (t : tup (C:=cfg_easy T fl d) SS B) l s f i ib e, blamed t l s ->
  seq_prefix t i (length l) f ib e -> 1 <= f -> length l <= 254 -> (left_at s (toff e) <= 1)%N ->
  exists e', fails_with (fresh (tuple t)) i true e' /\
    extended (terr e) (next_token ib ++ snd (nth (f - 1) l ([], [])) ++ List.concat (List.map fst (skipn f l)) ++ said_at s (toff e)) e'.
Proof. intros T fl d L SS B t l s f i ib e H. apply (blamed_sequence L t l s); auto. Qed.
Print Assumptions C71_sequence.
(** A sequence that did not commit: what its parts up to the failing one ask for. *)
Theorem C71_unread : forall T fl d, tok_laws T -> forall SS B (t : tup (C:=cfg_easy T fl d) SS B) ws m k i ib e, asks_tup t ws m ->
  seq_prefix t i k 0 ib e -> toff e = 1%N -> k <= 254 ->
  exists e', parse (tuple t) i = Done (inr e', i) /\ extended (terr e) (found i :: List.concat (firstn (S k) ws)) e'.
Proof. intros T fl d L SS B t ws m k i ib e. apply unread_sequence; auto. Qed.
Print Assumptions C71_unread.
(** A failed choice: what all the alternatives ask for first. *)
Theorem C71_choice : forall T fl d, tok_laws T -> forall A SS (t : alts (C:=cfg_easy T fl d) A SS) w i e es, asks_alts t w -> alts_fail t i (e :: es) ->
  exists e', parse (choice t) i = Done (inr e', i) /\ extended (merged (C:=cfg_easy T fl d) e es) (found i :: w) e'.
Proof. intros T fl d L A SS t w i e es. apply failed_choice; auto. Qed.
Print Assumptions C71_choice.

(** The parsers defined by composition. *)
Section Derived.
Context {T : TokCfg} {fl : nat} {d : bool}.
Notation C := (cfg_easy T fl d).
Theorem C71_repetitions : forall S A (p : parser C S A) s m n, asks p s m n ->
  asks (skip_many p) s s 1 /\ asks (skip_many1 p) s s 1 /\ (forall k, asks (count k p) s nothing 1) /\
  (forall w k, s = One w -> asks (skip_count k p) (Seq [w; []] []) nothing 1 /\ forall k', asks (skip_count_min_max k k' p) (Seq [w; []] []) nothing 1) /\
  asks (skip_until p) (Seq [[]; []] []) nothing 1 /\ (forall S2 B (e : parser C S2 B), asks (repeat_skip_until p e) (Seq [[]; []] []) nothing 1).
Proof.
  intros S A p s m n H. repeat split; intros; subst; repeat (econstructor; eauto).
Qed.
Theorem C71_sequences : forall S1 A (p : parser C S1 A) S2 B (o : parser C S2 B) S3 D (c : parser C S3 D) w1 m1 w2 m2 w3 m3,
  asks o (One w1) m1 1 -> asks p (One w2) m2 1 -> asks c (One w3) m3 1 -> asks (between o c p) (Seq [w1; w2; w3] []) m3 1.
Proof. intros. repeat (econstructor; eauto). Qed.
Theorem C71_thens : forall S1 A (p : parser C S1 A) s m n, asks p s m n ->
  (forall S2 B (s0 : S2) (f : A -> parser C S2 B), asks (then_ref p s0 f) s nothing 1 /\ asks (then_partial p s0 f) s nothing 1) /\
  asks (recognize_range p) s nothing 1 /\ forall u, asks (length_prefix p u) s nothing 1.
Proof. intros. repeat split; intros; repeat (econstructor; eauto). Qed.
Theorem C71_literals : forall (w : list (t_tok T)) cmp text,
  asks (bytes_cmp (C:=C) w cmp) (One [EExpected (IRange w)]) nothing 1 /\ asks (bytes (C:=C) w) (One [EExpected (IRange w)]) nothing 1 /\
  asks (string_cmp (C:=C) text w cmp) (One [EExpected (IStatic text)]) nothing 1 /\ asks (string_p (C:=C) text w) (One [EExpected (IStatic text)]) nothing 1.
Proof.
  intros. repeat split.
  - exact (asks_parser_fn0 (asks_expected (IRange w) (asks_map (fun _ => w) (asks_tokens_cmp cmp w)))).
  - exact (asks_parser_fn0 (asks_parser_fn0 (asks_expected (IRange w) (asks_map (fun _ => w) (asks_tokens_cmp (t_eqb T) w))))).
  - exact (asks_expected (IStatic text) (asks_map (fun _ => text) (asks_tokens_cmp cmp w))).
  - exact (asks_expected (IStatic text) (asks_map (fun _ => text) (asks_tokens_cmp (t_eqb T) w))).
Qed.
Theorem C71_classes : forall code : t_tok T -> N,
  (forall x, In x [(b_digit (C:=C) code, "digit"); (b_space (C:=C) code, "space"); (b_newline (C:=C) code, "lf newline"); (b_tab (C:=C) code, "tab"); (b_upper (C:=C) code, "upper");
      (b_lower (C:=C) code, "lower"); (b_alpha_num (C:=C) code, "alpha_num"); (b_letter (C:=C) code, "letter"); (b_oct_digit (C:=C) code, "octal digit"); (b_hex_digit (C:=C) code, "hex_digit");
      (c_digit (C:=C) code, "digit"); (c_oct_digit (C:=C) code, "octal digit"); (c_hex_digit (C:=C) code, "hexadecimal digit")]%string ->
    asks (fst x) (One [EExpected (IStatic (snd x))]) nothing 1) /\
  asks (b_spaces (C:=C) code) (One [EExpected (IStatic "whitespaces")]) (One [EExpected (IStatic "space")]) 1 /\
  asks (b_crlf (C:=C) code) (Seq [[]; []] [EExpected (IStatic "crlf newline")]) nothing 2.
Proof.
  intros code. split; [|split].
  - intros x H. cbn [In] in H. repeat destruct H as [<-|H]; try contradiction; cbn [fst snd];
      first [exact (asks_expected _ (asks_satisfy _)) | exact (asks_parser_fn0 (asks_expected _ (asks_satisfy _)))].
  - exact (asks_expected (IStatic "whitespaces") (asks_parser_fn (asks_ignore (asks_many (asks_ignore (asks_expected (IStatic "space") (asks_satisfy (fun t => is_ascii_whitespace (code t))))))))).
  - exact (asks_expected (IStatic "crlf newline") (asks_no_partial (asks_with (asks_satisfy (fun t => N.eqb 13 (code t))) (asks_expected (IStatic "lf newline") (asks_satisfy (fun t => N.eqb 10 (code t))))))).
Qed.
Theorem C71_unnamed : forall (code : t_tok T -> N) k, asks (be_u (C:=C) code k) nothing nothing 1 /\ asks (le_u (C:=C) code k) nothing nothing 1 /\
  asks (be_i (C:=C) code k) nothing nothing 1 /\ asks (le_i (C:=C) code k) nothing nothing 1 /\
  forall as_bytes, (forall f, asks (take_until_byte_by (C:=C) as_bytes f) nothing nothing 1) /\ forall w, asks (take_until_bytes (C:=C) as_bytes w) nothing nothing 1.
Proof. intros. repeat split; intros; repeat econstructor. Qed.
End Derived.
Print Assumptions C71_repetitions.
Print Assumptions C71_sequences.
Print Assumptions C71_thens.
Print Assumptions C71_literals.
Print Assumptions C71_classes.
Print Assumptions C71_unnamed.

(** A sequence: a token, a separated list, something optional with a name, and a choice that fails. *)
Definition c71_t := TC (bt 97%N) (TC (sep_by (bt 98%N) (bt 44%N)) (TC (optional (expected (bt 99%N) (IStatic "see"))) (T1 (or_ (bt 100%N) (map (pair2 (bt 101%N) (bt 102%N)) fst))))).
Definition c71_l : list (list (easy_error N) * list (easy_error N)) :=
  [([EExpected (IToken 97%N)], []); ([EExpected (IToken 98%N)], [EExpected (IToken 44%N)]); ([EExpected (IStatic "see")], [])].
Example C71_ex : blamed c71_t c71_l (@Alt bytes_tok [EExpected (IToken 100%N); EExpected (IToken 101%N)] []) /\
  (exists ib e, seq_prefix c71_t (bin [97; 98; 120]%N) 3 2 ib e /\ toff e = 1%N) /\
  parse (tuple c71_t) (bin [97; 98; 120]%N) =
    Done (inr (MkErrs 2 [EUnexpected (IToken 120%N); EExpected (IToken 44%N); EExpected (IStatic "see"); EExpected (IToken 100%N); EExpected (IToken 101%N)]), inp [] 3 false).
Proof.
  split; [|split].
  - unfold c71_t, c71_l. apply (@blamed_later bytes_tok 100 true); [apply (@asks_token bytes_tok)|]. apply (@blamed_later bytes_tok 100 true); [exact (asks_sep_by (@asks_token bytes_tok 100 true 98%N) (@asks_token bytes_tok 100 true 44%N))|].
    apply (@blamed_later bytes_tok 100 true); [exact (asks_optional (asks_expected (IStatic "see") (@asks_token bytes_tok 100 true 99%N)))|].
    eapply (@blamed_last bytes_tok 100 true). exact (asks_or (@asks_token bytes_tok 100 true 100%N) (asks_map fst (asks_tuple (asks_TC (@asks_token bytes_tok 100 true 101%N) (asks_T1 (@asks_token bytes_tok 100 true 102%N)))))).
  - do 2 eexists. split.
    2: { instantiate (1 := Trk _ 1%N). reflexivity. }
    cbn [seq_prefix c71_t]. right. exists true. do 4 eexists. split; [vm_compute; reflexivity|]. split; [|split; [reflexivity|]].
    { right. exists true. do 4 eexists. split; [vm_compute; reflexivity|]. split; [|split; [reflexivity|]].
      { right. exists false. do 4 eexists. split; [vm_compute; reflexivity|]. split; [|split; [reflexivity|]].
        { split; [reflexivity|]. split; [reflexivity|]. split; [reflexivity|]. eexists. vm_compute. reflexivity. }
        reflexivity. }
      reflexivity. }
    reflexivity.
  - vm_compute. reflexivity.
Qed.
Example C71_alts_ex : @asks_alts bytes_tok 100 true _ _ (AC (many1 (bt 97%N)) (AC (many1 (b_digit (C:=BC) (fun t => t))) (AL (unexpected_any (IStatic "keyword"))))) [EExpected (IToken 97%N); EExpected (IStatic "digit"); EUnexpected (IStatic "keyword")].
Proof.
  exact (asks_AC (asks_many1 (@asks_token bytes_tok 100 true 97%N)) (asks_AC (asks_many1 (asks_expected (IStatic "digit") (@asks_satisfy bytes_tok 100 true _))) (asks_AL (@asks_unexpected_any bytes_tok 100 true _ (IStatic "keyword"))))).
Qed.
(** Three parts that all go through without reading, and a token found where a fourth is missing. *)
Example C71_unread_ex : let t := TC (optional (bt 97%N)) (TC (many (b_digit (C:=BC) (fun t => t))) (T1 (bt 98%N))) in
  @asks_tup bytes_tok 100 true _ _ t [[EExpected (IToken 97%N)]; [EExpected (IStatic "digit")]; [EExpected (IToken 98%N)]] nothing /\
  parse (tuple t) (bin [120]%N) = Done (inr (MkErrs 0 [EUnexpected (IToken 120%N); EExpected (IToken 97%N); EExpected (IStatic "digit"); EExpected (IToken 98%N)]), bin [120]%N).
Proof.
  split; [|vm_compute; reflexivity].
  exact (asks_TC (asks_optional (@asks_token bytes_tok 100 true 97%N)) (asks_TC (asks_many (asks_expected (IStatic "digit") (@asks_satisfy bytes_tok 100 true _))) (asks_T1 (@asks_token bytes_tok 100 true 98%N)))).
Qed.
