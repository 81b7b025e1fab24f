(** Properties C34-C38, C50: the stream layer. *)
From Coq Require Import String List Bool Arith NArith ZArith Lia.
Import ListNotations.
From Verif Require Import Base Errors Instances RangeSpec RefineProofs StreamM StreamSpec StreamProofs PosProofs BufferedM BufferedSpec BufferedProofs.
Unset Implicit Arguments.

(** "é\nab€" *)
Definition sample : list N := [233; 10; 97; 98; 8364]%N.
Lemma sample_text : text sample.
Proof. repeat constructor. Qed.

(** * C34 *)
(** After any history of calls on [position::Stream<&str, SourcePosition>] the stream holds a suffix of the text and the
    position is the line and column after the prefix in front of it. *)
Theorem C34_line_column : forall cs calls, text cs ->
  exists s p cps, do_calls str_ops source_positioner calls (encode_all cs, src_default) [] = Done ((s, p), cps) /\
    exists a b, cs = a ++ b /\ s = encode_all b /\ at_line_column a p.
Proof.
  intros cs calls Ht.
  assert (AG : forall (p : src_pos) r a, str_repr r a -> po_range source_positioner p r = stepped source_positioner p a).
  { intros p r a [Hr ->]. cbn [po_range source_positioner]. rewrite src_bytes_spec; auto. apply encode_all_length_ge. }
  destruct (history str_ops source_positioner str_repr str_repr _ str_ok AG cs src_default calls (encode_all cs, src_default) []) as [[s p] [cps [H1 [[a [b [H2 [[H3 H4] H5]]]] _]]]].
  - exists [], cs. split; [reflexivity|]. split; [split; auto|reflexivity].
  - constructor.
  - exists s, p, cps. split; auto. exists a, b. split; auto. split; auto. cbn [snd] in H5. rewrite H5. apply line_column_spec.
Qed.
Print Assumptions C34_line_column.
(** Line and column are functions of the text. *)
Theorem C34_determined : forall cs p p', at_line_column cs p -> at_line_column cs p' -> p = p'.
Proof.
  intros cs [l c] [l' c'] [H1 [x [H2 H3]]] [K1 [y [K2 K3]]]. rewrite (last_line_unique _ _ _ H2 K2) in H3. cbn in *. congruence.
Qed.
Print Assumptions C34_determined.
(** [position::Stream<&[T], IndexPositioner>] counts the consumed elements, from any starting position. *)
Theorem C34_index : forall debug T (l : list T) p0 calls,
  exists s p cps, do_calls (slice_ops debug T) (index_positioner (@length T)) calls (l, p0) [] = Done ((s, p), cps) /\
    exists a, l = a ++ s /\ p = p0 + length a.
Proof.
  intros debug T l p0 calls.
  assert (AG : forall (p : nat) (r a : list T), r = a -> po_range (index_positioner (T:=T) (@length T)) p r = stepped (index_positioner (@length T)) p a).
  { intros p r a ->. rewrite index_stepped. reflexivity. }
  destruct (history (slice_ops debug T) (index_positioner (@length T)) (fun s l => s = l) (fun r l => r = l) _ (slice_ok debug T) AG l p0 calls (l, p0) []) as [[s p] [cps [H1 [[a [b [H2 [H3 H5]]]] _]]]].
  - exists [], l. auto.
  - constructor.
  - exists s, p, cps. split; auto. cbn [fst snd] in H3, H5. subst b. exists a. split; auto. rewrite H5. apply index_stepped.
Qed.
Print Assumptions C34_index.
(** Bytes: [SourcePosition] over [&[u8]], which has no ranges ([uncons], [checkpoint] and [reset] only). *)
Definition byte_positioner : positioner src_pos N (list N) := MkPosr src_update (fun p r => fold_left src_update r p).
Theorem C34_bytes : forall debug (l : list N) calls,
  exists s p cps, do_calls (slice_ops debug N) byte_positioner calls (l, src_default) [] = Done ((s, p), cps) /\
    exists a, l = a ++ s /\ at_line_column a p.
Proof.
  intros debug l calls.
  destruct (history (slice_ops debug N) byte_positioner (fun s l => s = l) (fun r l => r = l) _ (slice_ok debug N) (fun p r a (H : r = a) => f_equal (fun x => fold_left src_update x p) H) l src_default calls (l, src_default) []) as [[s p] [cps [H1 [[a [b [H2 [H3 H5]]]] _]]]].
  - exists [], l. auto.
  - constructor.
  - exists s, p, cps. split; auto. cbn [fst snd] in H3, H5. subst b. exists a. split; auto. rewrite H5. apply line_column_spec.
Qed.
Print Assumptions C34_bytes.
(** A history over "é\nab€": token, checkpoint, range of two bytes, refused range (inside '€'), scan, reset, scan. *)
Example C34_ex :
  do_calls str_ops source_positioner [CUncons; CCheckpoint; CRange 2; CRange 2; CWhile1 (fun c => (c <? 99)%N); CReset 0; CWhile (fun c => (c <? 98)%N)]
    (encode_all sample, src_default) [] =
    Done ((encode_all [98; 8364]%N, SrcPos 2 2), [(encode_all [10; 97; 98; 8364]%N, SrcPos 1 2)]).
Proof. vm_compute. reflexivity. Qed.

(** * C35 *)
(** Reading [n] tokens one by one. *)
Fixpoint uncons_n {S T R P} (ops : stream_ops S T R) (posr : positioner P T R) (n : nat) (s : pstream (S:=S) (P:=P)) : outcome (list T * pstream (S:=S) (P:=P)) :=
  match n with
  | 0 => Done ([], s)
  | Datatypes.S n' => obind (ps_uncons ops posr s) (fun y => match y with
           | (inl t, s') => omap (fun z => (t :: fst z, snd z)) (uncons_n ops posr n' s')
           | (inr _, s') => Done ([], s')
           end)
  end.
Section C35.
Context {S T R P : Type} (ops : stream_ops S T R) (posr : positioner P T R) (repr : S -> list T -> Prop) (rrep : R -> list T -> Prop) (size : list T -> nat).
Hypothesis OK : ops_ok ops repr rrep size.
Lemma uncons_n_spec a b : forall s p, repr s (a ++ b) -> exists s', uncons_n ops posr (length a) (s, p) = Done (a, (s', stepped posr p a)) /\ repr s' b.
Proof.
  induction a as [|t a IH]; intros s p H; [cbn; eauto|]. cbn [length uncons_n].
  destruct (ps_uncons_spec ops posr _ _ _ OK s p _ H) as [[K _]|[t' [r [s' [K1 [-> K3]]]]]]; [discriminate|]. cbn in K1. injection K1 as <- <-. cbn [obind].
  destruct (IH s' (po_update posr p t) K3) as [s2 [-> K]]. cbn. eauto.
Qed.
End C35.

(** Over [&str] with [SourcePosition]: reading the characters of a prefix one by one, taking it as a range, scanning it
    with [uncons_while] or [uncons_while1] all end in the same stream at the same position. *)
Theorem C35_str : forall a b p f, text (a ++ b) -> Forall (fun c => f c = true) a ->
  match b with [] => True | c :: _ => f c = false end ->
  let s := encode_all (a ++ b) in
  exists p',
    uncons_n str_ops source_positioner (length a) (s, p) = Done (a, (encode_all b, p')) /\
    ps_range str_ops source_positioner (length (encode_all a)) (s, p) = Done (inl (encode_all a), (encode_all b, p')) /\
    ps_while str_ops source_positioner (stateless f) (s, p) tt = Done (inl (encode_all a), (encode_all b, p'), tt) /\
    (a <> [] -> ps_while1 str_ops source_positioner (stateless f) (s, p) tt = Done (inl (encode_all a), (encode_all b, p'), tt)).
Proof.
  intros a b p f Ht Ha Hb s. exists (fold_left src_update a p).
  assert (Hs : str_repr s (a ++ b)) by (split; auto).
  assert (Hsc : forall a', Forall (fun c => f c = true) a' -> scans (stateless f) tt (a' ++ b) a' b tt).
  { induction 1 as [|c a' Hc _ IH]; cbn [app]; [|econstructor; [unfold stateless; rewrite Hc; reflexivity|auto]].
    destruct b as [|c r]; [constructor|]. constructor. unfold stateless. rewrite Hb. reflexivity. }
  split; [|split; [|split]].
  - destruct (uncons_n_spec _ source_positioner _ _ _ str_ok a b s p Hs) as [s' [-> [_ ->]]]. reflexivity.
  - destruct (str_range_spec (length (encode_all a)) _ Ht) as [K _]. specialize (K a b eq_refl eq_refl). unfold ps_range. cbn [so_range str_ops fst snd]. fold s in K. rewrite K. cbn [omap].
    cbn [po_range source_positioner]. rewrite src_bytes_spec; [reflexivity|apply text_app in Ht; tauto|apply encode_all_length_ge].
  - destruct (ps_while_spec _ source_positioner _ _ _ str_ok _ s p _ _ _ _ _ Hs (Hsc a Ha)) as [r [s' [-> [[_ ->] [_ ->]]]]]. reflexivity.
  - intros Hne. destruct (ps_while1_spec _ source_positioner _ _ _ str_ok (stateless f) s p _ tt Hs) as [[K _]|[[t [r [x' [K1 [K2 _]]]]]|[t [r [a' [b' [x' [x2 [rg [s' [K1 [K2 [K3 [-> [[_ ->] [_ ->]]]]]]]]]]]]]]]].
    + destruct a; [congruence|discriminate].
    + destruct a; [congruence|]. cbn in K1. injection K1 as <- <-. inversion Ha; subst. unfold stateless in K2. congruence.
    + destruct a as [|c a]; [congruence|]. cbn in K1. injection K1 as <- <-. inversion Ha; subst. destruct x', x2.
      destruct (scans_det _ _ _ _ _ _ _ _ _ K3 (Hsc a H2)) as [-> [-> _]]. reflexivity.
Qed.
Print Assumptions C35_str.
Theorem C35_slice : forall debug T (a b : list T) p f, Forall (fun c => f c = true) a ->
  match b with [] => True | c :: _ => f c = false end ->
  let ix := index_positioner (@length T) in
  uncons_n (slice_ops debug T) ix (length a) (a ++ b, p) = Done (a, (b, p + length a)) /\
  ps_range (slice_ops debug T) ix (length a) (a ++ b, p) = Done (inl a, (b, p + length a)) /\
  ps_while (slice_ops debug T) ix (stateless f) (a ++ b, p) tt = Done (inl a, (b, p + length a), tt) /\
  (a <> [] -> ps_while1 (slice_ops debug T) ix (stateless f) (a ++ b, p) tt = Done (inl a, (b, p + length a), tt)).
Proof.
  intros debug T a b p f Ha Hb ix. set (s := a ++ b).
  assert (Hs : s = a ++ b) by reflexivity. clearbody s.
  assert (Hsc : forall a', Forall (fun c => f c = true) a' -> scans (stateless f) tt (a' ++ b) a' b tt).
  { induction 1 as [|c a' Hc _ IH]; cbn [app]; [|econstructor; [unfold stateless; rewrite Hc; reflexivity|auto]].
    destruct b as [|c r]; [constructor|]. constructor. unfold stateless. rewrite Hb. reflexivity. }
  split; [|split; [|split]].
  - destruct (uncons_n_spec _ ix _ _ _ (slice_ok debug T) a b s p Hs) as [s' [-> ->]]. unfold ix. rewrite index_stepped. reflexivity.
  - unfold ps_range. cbn [so_range slice_ops fst snd]. rewrite sl_range_spec. subst s. rewrite app_length, (proj2 (Nat.leb_le _ _)) by lia. rewrite firstn_app, firstn_all, skipn_app, skipn_all, Nat.sub_diag, firstn_O, app_nil_r. reflexivity.
  - subst s. destruct (ps_while_spec _ ix _ _ _ (slice_ok debug T) _ (a ++ b) p _ _ _ _ _ eq_refl (Hsc a Ha)) as [r [s' [-> [-> ->]]]]. unfold ix. rewrite index_stepped. reflexivity.
  - intros Hne. destruct (ps_while1_spec _ ix _ _ _ (slice_ok debug T) (stateless f) s p _ tt Hs) as [[K _]|[[t [r [x' [K1 [K2 _]]]]]|[t [r [a' [b' [x' [x2 [rg [s' [K1 [K2 [K3 [-> [-> ->]]]]]]]]]]]]]]].
    + destruct a; [congruence|discriminate].
    + destruct a; [congruence|]. cbn in K1. injection K1 as <- <-. inversion Ha; subst. unfold stateless in K2. congruence.
    + destruct a as [|c a]; [congruence|]. cbn in K1. injection K1 as <- <-. inversion Ha; subst. destruct x', x2.
      destruct (scans_det _ _ _ _ _ _ _ _ _ K3 (Hsc a H2)) as [-> [-> _]]. unfold ix. rewrite index_stepped. reflexivity.
Qed.
Print Assumptions C35_slice.
Example C35_ex : let s := encode_all sample in
  uncons_n str_ops source_positioner 3 (s, src_default) = Done ([233; 10; 97]%N, (encode_all [98; 8364]%N, SrcPos 2 2)) /\
  ps_range str_ops source_positioner 4 (s, src_default) = Done (inl [195; 169; 10; 97]%N, (encode_all [98; 8364]%N, SrcPos 2 2)).
Proof. vm_compute. split; reflexivity. Qed.
(** [IndexPositioner] over [&str]: as a range "é" advances the position by two, as a token by one. *)
Theorem C35_index_str_refuted :
  ~ (forall a b p, text (a ++ b) -> exists p',
      uncons_n str_ops (index_positioner (@length N)) (length a) (encode_all (a ++ b), p) = Done (a, (encode_all b, p')) /\
      ps_range str_ops (index_positioner (@length N)) (length (encode_all a)) (encode_all (a ++ b), p) = Done (inl (encode_all a), (encode_all b, p'))).
Proof.
  intros H. destruct (H [233%N] [97%N] 0) as [p' [H1 H2]]; [repeat constructor|]. vm_compute in H1, H2. congruence.
Qed.
Print Assumptions C35_index_str_refuted.

(** * C36 *)
(** The capacity a buffer requested with [lookahead] really has after the first token. *)
Definition effective (grow : nat -> nat) (cap : nat) : nat := if cap =? 0 then grow 0 else cap.
(** Every history of calls on a buffered stream gives the answers of a stream that remembers everything it ever read and
    refuses to go back more than the capacity; what it remembers is what reading the source once yields. *)
Theorem C36_history : forall {Src T P E} (pos : Src -> P) (unc : Src -> (T + E) * Src) grow cap src calls,
  let keep := effective grow cap in 0 < keep ->
  exists b, b_calls pos unc grow calls (b_new src cap) [] =
      Done (fst (fst (r_calls pos unc keep calls (MkR [] src 0) [])), b, snd (r_calls pos unc keep calls (MkR [] src 0) [])) /\
    biter b = rsrc (snd (fst (r_calls pos unc keep calls (MkR [] src 0) []))) /\
    reads pos unc src (rlog (snd (fst (r_calls pos unc keep calls (MkR [] src 0) [])))) (biter b).
Proof.
  intros Src T P E pos unc grow cap src calls keep Hk.
  destruct (sim_calls pos unc grow keep Hk src calls (b_new src cap) (MkR [] src 0) []) as [b [H1 H2]]; [apply rel_new; [exact Hk|reflexivity]|].
  exists b. split; [exact H1|]. destruct H2 as (K1 & _ & _ & _ & _ & _ & _ & _ & K9). rewrite K1. auto.
Qed.
Print Assumptions C36_history.
(** The reference replays: after a successful reset the tokens come out of the log. *)
Theorem C36_replay : forall {Src T P E} (pos : Src -> P) (unc : Src -> (T + E) * Src) keep (r : rstream (Src:=Src) (T:=T) (P:=P)) cp t p,
  nth_error (rlog r) cp = Some (t, p) ->
  (length (rlog r) <= cp + keep -> exists r', r_reset (E:=E) pos keep cp r = (inl tt, r') /\ r_position pos r' = p /\ exists r2, r_uncons pos unc r' = (inl t, r2) /\ rlog r2 = rlog r /\ rsrc r2 = rsrc r /\ roff r2 = cp + 1) /\
  (cp + keep < length (rlog r) -> r_reset pos keep cp r = (inr (r_position pos r, BTooFar (E:=E)), r)).
Proof.
  intros Src T P E pos unc keep r cp t p H. unfold r_reset. split; intros K.
  - rewrite (proj2 (Nat.ltb_ge _ _) K). eexists. split; [reflexivity|]. unfold r_position, r_uncons. cbn [rlog roff]. rewrite H. split; [reflexivity|]. eexists. split; [reflexivity|]. auto.
  - rewrite (proj2 (Nat.ltb_lt _ _) K). reflexivity.
Qed.
Print Assumptions C36_replay.
(** A list source with a look-ahead of two: three tokens, back two (fine), then three back (refused). *)
Definition list_uncons (s : nat * list nat) : (nat + unit) * (nat * list nat) :=
  match snd s with t :: r => (inl t, (fst s + 1, r)) | [] => (inr tt, s) end.
Example C36_ex :
  omap (fun y => fst (fst y)) (b_calls fst list_uncons (fun n => n + 4) [BCheckpoint; BUncons; BCheckpoint; BUncons; BUncons; BReset 0; BPosition; BUncons; BUncons; BUncons; BReset 1; BPosition] (b_new (0, [7; 8; 9]) 2) []) =
  Done [RDone; RToken (inl 7); RDone; RToken (inl 8); RToken (inl 9); RDone; RPosition 1; RToken (inl 8); RToken (inl 9); RToken (inr (BSource tt)); RFailed 3 BTooFar; RPosition 3].
Proof. vm_compute. reflexivity. Qed.

(** * C37 *)
(** Twelve characters of one to four bytes. *)
Definition long_text : list N := [97; 233; 8364; 128512; 98; 233; 8364; 128512; 99; 233; 8364; 128512]%N.
Theorem C37_uncons : forall c cs, text (c :: cs) -> str_uncons (encode_all (c :: cs)) = Done (inl c, encode_all cs).
Proof. intros c cs H. exact (str_uncons_spec _ H). Qed.
Print Assumptions C37_uncons.
(** [uncons_range]: the size of a prefix of characters splits there, any other size is refused and nothing is lost. *)
Theorem C37_range : forall n cs, text cs ->
  (forall a b, cs = a ++ b -> length (encode_all a) = n -> str_uncons_range n (encode_all cs) = Done (inl (encode_all a), encode_all b)) /\
  ((forall a b, cs = a ++ b -> length (encode_all a) <> n) ->
     str_uncons_range n (encode_all cs) = Done (inr (if length (encode_all cs) <? n then SeEoi else SeBoundary), encode_all cs)).
Proof.
  intros n cs Ht. destruct (str_range_spec n cs Ht) as [H1 [H2 H3]]. split; [exact H1|]. intros H. destruct (length (encode_all cs) <? n) eqn:Hn.
  - apply H3. apply Nat.ltb_lt. auto.
  - apply H2; [apply Nat.ltb_ge; auto|]. intros [a [b [K1 K2]]]. exact (H a b K1 K2).
Qed.
Print Assumptions C37_range.
(** [uncons_while]: the closure sees every character once up to the first it refuses, the split is in front of that one. *)
Theorem C37_while : forall X (f : fnmut X N) cs x a b x', text cs -> scans f x cs a b x' ->
  str_uncons_while f (encode_all cs) x = Done (inl (encode_all a), encode_all b, x').
Proof. exact @str_while_spec. Qed.
Print Assumptions C37_while.
Theorem C37_while1 : forall X (f : fnmut X N) x,
  str_uncons_while1 f [] x = Done (inr SeEoi, [], x) /\
  (forall c cs x', text (c :: cs) -> f x c = (false, x') -> str_uncons_while1 f (encode_all (c :: cs)) x = Done (inr SeUnexpected, encode_all (c :: cs), x')) /\
  (forall c cs a b x', text (c :: cs) -> scans f x (c :: cs) (c :: a) b x' ->
     str_uncons_while1 f (encode_all (c :: cs)) x = Done (inl (encode_all (c :: a)), encode_all b, x')).
Proof.
  intros X f x. split; [reflexivity|]. split.
  - intros c cs x' Ht Hf. destruct (str_while1_spec f (c :: cs) x Ht) as [[_ H]|[[c' [r [x2 [H1 [H2 H3]]]]]|[c' [r [a [b [x2 [x3 [H1 [H2 _]]]]]]]]]]; [discriminate| |]; injection H1 as <- <-; congruence.
  - intros c cs a b x' Ht Hs. inversion Hs as [| |? ? ? ? ? y ? Hf Hr]; subst.
    destruct (str_while1_spec f (c :: cs) x Ht) as [[_ H]|[[c' [r' [x2 [H1 [H2 H3]]]]]|[c' [r' [a' [b' [x2 [x3 [H1 [H2 [H3 H4]]]]]]]]]]]; [discriminate| |]; injection H1 as <- <-; [congruence|].
    assert (x2 = y) by congruence. subst x2. destruct (scans_det _ _ _ _ _ _ _ _ _ H3 Hr) as [-> [-> ->]]. exact H4.
Qed.
Print Assumptions C37_while1.
(** The character level streams the parsers of this development run on do what the byte level code does ([cp] gives
    the code point of a token). *)
Theorem C37_refines : forall C (cp : tok C -> N), (forall t, width C t = len_utf8 (cp t)) ->
  forall i : input C, text (map cp (rest i)) ->
  let enc l := encode_all (map cp l) in
  str_uncons (enc (rest i)) =
    Done (match fst (uncons i) with Some t => inl (cp t) | None => inr SeEoi end, enc (rest (snd (uncons i)))) /\
  (forall n, match uncons_range n i with
     | (inl r, i') => str_uncons_range n (enc (rest i)) = Done (inl (enc r), enc (rest i'))
     | (inr e, i') => i' = i /\ exists se, str_uncons_range n (enc (rest i)) = Done (inr se, enc (rest i)) /\
         e = match se with SeBoundary => se_boundary C | _ => se_eoi C end
     end) /\
  (forall f, let (r, i') := m_uncons_while (fun t => f (cp t)) i in
     str_uncons_while (stateless f) (enc (rest i)) tt = Done (inl (enc r), enc (rest i'), tt)) /\
  (forall f, match m_uncons_while1 (fun t => f (cp t)) i with
     | (Some r, i') => str_uncons_while1 (stateless f) (enc (rest i)) tt = Done (inl (enc r), enc (rest i'), tt)
     | (None, i') => i' = i /\ exists se, str_uncons_while1 (stateless f) (enc (rest i)) tt = Done (inr se, enc (rest i), tt)
     end) /\
  (forall before, distance i before = length (enc (rest before)) - length (enc (rest i))).
Proof.
  intros C cp W i Ht enc. repeat apply conj.
  - apply refine_uncons; auto.
  - intros n. apply (refine_range cp W); auto.
  - intros f. apply (refine_while cp); auto.
  - intros f. apply (refine_while1 cp); auto.
  - intros before. apply (refine_distance cp W).
Qed.
Print Assumptions C37_refines.
Example C37_refines_ex : (forall t, width (cfg_easy str_tok 100 true) t = len_utf8 t) /\
  uncons_range 3 (@Inp (cfg_easy str_tok 100 true) long_text 0 false) = (inl [97; 233]%N, @Inp (cfg_easy str_tok 100 true) (skipn 2 long_text) 3 false).
Proof. split; [reflexivity|]. match goal with |- _ = ?x => vm_cast_no_check (eq_refl x) end. Qed.
(** Every closure has exactly one such scan, and it only splits. *)
Theorem C37_scan_total : forall X T (f : fnmut X T) x l, exists a b x', scans f x l a b x' /\ l = a ++ b /\
  forall a2 b2 x2, scans f x l a2 b2 x2 -> a2 = a /\ b2 = b /\ x2 = x'.
Proof.
  intros X T f x l. destruct (scans_total f x l) as [a [b [x' H]]]. exists a, b, x'. split; auto. split; [eapply scans_app; eauto|].
  intros a2 b2 x2 K. exact (scans_det _ _ _ _ _ _ _ _ _ K H).
Qed.
Print Assumptions C37_scan_total.
(** A counting closure stopping in the second round of eight. *)
Example C37_ex :
  str_uncons_while (fun n c => (negb (c =? 99)%N, n + 1)) (encode_all long_text) 0 =
    Done (inl (encode_all [97; 233; 8364; 128512; 98; 233; 8364; 128512]%N), encode_all [99; 233; 8364; 128512]%N, 9) /\
  str_uncons_range 2 (encode_all long_text) = Done (inr SeBoundary, encode_all long_text) /\
  str_uncons_range 3 (encode_all long_text) = Done (inl [97; 195; 169]%N, encode_all (skipn 2 long_text)).
Proof. vm_compute. repeat split. Qed.

(** * C38 *)
(** The unrolled loop started behind zero or one already accepted elements: exactly the scan, never an element outside. *)
Theorem C38_unrolled : forall debug T X (f : fnmut X T) pre l x a b x', length pre <= 1 -> scans f x l a b x' ->
  slice_uncons_while debug f (length pre) (pre ++ l) x = Done (pre ++ a, b, x') /\
  slice_uncons_while_ref debug f (length pre) (pre ++ l) x = Done (pre ++ a, b, x').
Proof. intros. split; apply slice_uncons_while_spec; auto. Qed.
Print Assumptions C38_unrolled.
(** For a predicate without state: the longest accepted prefix. *)
Theorem C38_longest : forall debug T (f : T -> bool) l a b, l = a ++ b -> Forall (fun t => f t = true) a ->
  match b with [] => True | t :: _ => f t = false end ->
  sl_uncons_while debug (stateless f) l tt = Done (inl a, b, tt) /\
  sl_uncons_while1 debug (stateless f) l tt =
    Done (match l with [] => inr SeEoi | _ => match a with [] => inr SeUnexpected | _ => inl a end end, b, tt).
Proof.
  intros debug T f l a b -> Ha Hb.
  assert (Hsc : forall a', Forall (fun c => f c = true) a' -> scans (stateless f) tt (a' ++ b) a' b tt).
  { induction 1 as [|c a' Hc _ IH]; cbn [app]; [|econstructor; [unfold stateless; rewrite Hc; reflexivity|auto]].
    destruct b as [|c r]; [constructor|]. constructor. unfold stateless. rewrite Hb. reflexivity. }
  split.
  - unfold sl_uncons_while. pose proof (slice_uncons_while_spec debug (stateless f) [] (a ++ b) tt a b tt ltac:(cbn; lia) (Hsc a Ha)) as K. cbn [app length] in K. rewrite K. reflexivity.
  - unfold sl_uncons_while1. destruct a as [|t a]; cbn [app].
    + destruct b as [|t b]; [reflexivity|]. unfold stateless at 1. rewrite Hb. reflexivity.
    + inversion Ha; subst. unfold stateless at 1. rewrite H1. pose proof (slice_uncons_while_spec debug (stateless f) [t] (a ++ b) tt a b tt ltac:(cbn; lia) (Hsc a H2)) as K. cbn [app length] in K. rewrite K. reflexivity.
Qed.
Print Assumptions C38_longest.
(** The same for the streams over slices. *)
Theorem C38_refines : forall C, is_slice (C:=C) -> forall debug (i : input C),
  sl_uncons (rest i) = (match fst (uncons i) with Some t => inl t | None => inr SeEoi end, rest (snd (uncons i))) /\
  (forall n, match uncons_range n i with
     | (inl r, i') => sl_uncons_range n (rest i) = Done (inl r, rest i')
     | (inr e, i') => i' = i /\ e = se_eoi C /\ sl_uncons_range n (rest i) = Done (inr SeEoi, rest i)
     end) /\
  (forall f, let (r, i') := m_uncons_while f i in sl_uncons_while debug (stateless f) (rest i) tt = Done (inl r, rest i', tt)) /\
  (forall f, match m_uncons_while1 f i with
     | (Some r, i') => sl_uncons_while1 debug (stateless f) (rest i) tt = Done (inl r, rest i', tt)
     | (None, i') => i' = i /\ exists se, sl_uncons_while1 debug (stateless f) (rest i) tt = Done (inr se, rest i, tt)
     end) /\
  (forall before, length (rest i) <= length (rest before) -> sl_distance (rest i) (rest before) = Done (distance i before)).
Proof.
  intros C SL debug i. repeat apply conj.
  - apply refine_sl_uncons.
  - intros n. apply (refine_sl_range SL).
  - intros f. apply refine_sl_while.
  - intros f. apply refine_sl_while1.
  - intros before. apply (refine_sl_distance SL).
Qed.
Print Assumptions C38_refines.
Example C38_ex :
  sl_uncons_while1 true (fun n t => (t <? 20, n + 1)) (seq 1 30) 0 = Done (inl (seq 1 19), seq 20 11, 20) /\
  sl_uncons_while true (stateless (fun t => t <? 9)) (seq 1 8) tt = Done (inl (seq 1 8), [], tt).
Proof. vm_compute. split; reflexivity. Qed.

(** * C50 *)
(** No history makes a position stream over a slice or a string panic (or index outside, or loop); the counters stay
    below the length of the data plus two, so the [i32]s of [SourcePosition] do not overflow below [2^31 - 2]. *)
Theorem C50_slice : forall debug T (l : list T) p0 calls,
  exists r, do_calls (slice_ops debug T) (index_positioner (@length T)) calls (l, p0) [] = Done r.
Proof. intros debug T l p0 calls. destruct (C34_index debug T l p0 calls) as [s [p [cps [H _]]]]. eauto. Qed.
Print Assumptions C50_slice.
Theorem C50_str : forall cs calls, text cs ->
  exists s p cps, do_calls str_ops source_positioner calls (encode_all cs, src_default) [] = Done ((s, p), cps) /\
    (line p <= 1 + N.of_nat (length cs) /\ column p <= 1 + N.of_nat (length cs))%N.
Proof.
  intros cs calls Ht. destruct (C34_line_column cs calls Ht) as [s [p [cps [H [a [b [-> [_ [H1 [l [H2 H3]]]]]]]]]]].
  exists s, p, cps. split; auto. rewrite H1, H3, app_length. pose proof (count_occ_bound N.eq_dec 10%N a) as Hc. unfold newlines.
  assert (length l <= length a). { destruct H2 as [_ [->|[bf ->]]]; [lia|]. rewrite app_length. cbn [length]. lia. }
  split; lia.
Qed.
Print Assumptions C50_str.
(** [IndexPositioner] over [&str] does not panic either. *)
Theorem C50_index_str : forall cs p0 calls, text cs ->
  exists r, do_calls str_ops (index_positioner (@length N)) calls (encode_all cs, p0) [] = Done r.
Proof.
  intros cs p0 calls Ht.
  enough (G : forall calls s p cps, (exists l, str_repr s l) -> Forall (fun sp => exists l, str_repr (fst sp) l) cps ->
    exists r, do_calls str_ops (index_positioner (T:=N) (@length N)) calls (s, p) cps = Done r).
  { apply G; [exists cs; split; auto|constructor]. }
  clear. induction calls as [|c calls IH]; intros s p cps [l Hl] Hc; [cbn; eauto|]. cbn [do_calls].
  assert (K : exists sp1 cps1, do_call str_ops (index_positioner (T:=N) (@length N)) c (s, p) cps = Done (sp1, cps1) /\ (exists l, str_repr (fst sp1) l) /\ Forall (fun sp => exists l, str_repr (fst sp) l) cps1).
  { unfold do_call. destruct c as [|n|f|f| |k].
    - destruct (ps_uncons_spec _ (index_positioner (@length N)) _ _ _ str_ok s p l Hl) as [[-> ->]|[t [r [s' [-> [-> K]]]]]]; cbn [omap snd]; eexists _, _; (split; [reflexivity|]); split; auto; cbn [fst]; eauto.
    - destruct (ps_range_spec _ (index_positioner (@length N)) _ _ _ str_ok n s p l Hl) as [[a1 [b1 [r [s' [-> [K1 [-> [K2 K3]]]]]]]]|[_ [e ->]]]; cbn [omap snd]; eexists _, _; (split; [reflexivity|]); split; auto; cbn [fst]; eauto.
    - destruct (scans_total (stateless f) tt l) as [a1 [b1 [x' K]]]. destruct (ps_while_spec _ (index_positioner (@length N)) _ _ _ str_ok _ s p _ _ _ _ _ Hl K) as [r [s' [-> [K2 K3]]]]. cbn [omap]. eexists _, _; (split; [reflexivity|]); split; auto; cbn [fst]; eauto.
    - destruct (ps_while1_spec _ (index_positioner (@length N)) _ _ _ str_ok (stateless f) s p l tt Hl) as [[-> ->]|[[t [r [x' [-> [K1 ->]]]]]|[t [r [a1 [b1 [x' [x2 [rg [s' [-> [K1 [K2 [-> [K4 K5]]]]]]]]]]]]]]]; cbn [omap snd]; eexists _, _; (split; [reflexivity|]); split; auto; cbn [fst]; eauto.
    - eexists _, _; (split; [reflexivity|]); split; cbn [fst]; eauto.
    - eexists _, _; (split; [reflexivity|]); split; auto. unfold pstream. destruct (nth_error cps k) as [s'|] eqn:Hk; cbn [fst]; [|eauto]. rewrite Forall_forall in Hc. exact (Hc _ (nth_error_In _ _ Hk)). }
  destruct K as [[s1 p1] [cps1 [-> [K1 K2]]]]. cbn [obind fst snd]. apply IH; auto.
Qed.
Print Assumptions C50_index_str.
Theorem C50_buffered : forall {Src T P E} (pos : Src -> P) (unc : Src -> (T + E) * Src) grow cap src calls,
  0 < effective grow cap -> exists r, b_calls pos unc grow calls (b_new src cap) [] = Done r.
Proof. intros Src T P E pos unc grow cap src calls H. destruct (C36_history pos unc grow cap src calls H) as [b [K _]]. eauto. Qed.
Print Assumptions C50_buffered.
Example C50_ex :
  (exists r, do_calls (slice_ops true nat) (index_positioner (@length nat)) [CRange 99; CWhile1 (fun _ => true); CUncons; CReset 3] ([1; 2; 3], 0) [] = Done r) /\
  b_calls fst list_uncons (fun n => n + 4) [BCheckpoint; BUncons; BUncons; BReset 0; BUncons] (b_new (0, [7; 8; 9]) 1) [] =
    Done ([RDone; RToken (inl 7); RToken (inl 8); RFailed 2 BTooFar; RToken (inl 9)], MkB 3 (3, []) 3 [(9, 2)] 1, [0]).
Proof. split; [eexists|]; vm_compute; reflexivity. Qed.
