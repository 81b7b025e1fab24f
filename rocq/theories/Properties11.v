(** Properties C54 (stream wrappers), C55 (pointer positions), C56 (error texts), C57 (regex parsers). *)
From Coq Require Import String Ascii List Bool Arith NArith Lia.
Import ListNotations.
From Verif Require Import Base Parser Errors Token Combinator Sequence Choice Repeat RangeP ByteP Instances Spec LibSpec RangeSpec TidySpec TokenProofs RangeProofs
  ForwardProofs ErrSpec ErrProofs ErrProofs2 StreamM StreamSpec StreamProofs PosProofs DecodeM WrapM WrapSpec WrapProofs WrapProofs2 WrapProofs3 RegexP FmtM FmtSpec FmtProofs Properties1 Properties4 Properties6.
Unset Implicit Arguments.

(** * C54 *)
(** [easy::Stream] and [span::Stream] only convert errors (and positions): whatever a client does with the wrapped
    stream is what it would do with the inner one seeing converted answers; stream and checkpoints end up the same. *)
Theorem C54_easy : forall S T R P K SE PE A (I : strm S T R P K SE PE) SE2 PE2 (fs : SE -> SE2) (fe : PE -> PE2) (c : client T R P SE2 PE2 A) s ks,
  run_client (easy_strm I fs fe) c s ks = run_client I (translate (fun b => b) (fun p => p) fs fe c) s ks.
Proof. intros. apply run_conv. Qed.
Print Assumptions C54_easy.
Theorem C54_span : forall S T R P K SE PE A (I : strm S T R P K SE PE) SE2 PE2 (fs : SE -> SE2) (fe : PE -> PE2) (c : client T R (span P) SE2 PE2 A) s ks,
  run_client (span_strm I fs fe) c s ks = run_client I (translate (fun b => b) (fun p => MkSpan p p) fs fe c) s ks.
Proof. intros. apply run_conv. Qed.
Print Assumptions C54_span.
(** [PartialStream] and [CompleteStream] only answer [is_partial] themselves; [MaybePartialStream] is one or the other. *)
Theorem C54_partial_stream : forall S T R P K SE PE A (I : strm S T R P K SE PE) (c : client T R P SE PE A) s ks,
  run_client (partial_strm I) c s ks = run_client I (translate (fun _ => true) (fun p => p) (fun e => e) (fun e => e) c) s ks /\
  run_client (complete_strm I) c s ks = run_client I (translate (fun _ => false) (fun p => p) (fun e => e) (fun e => e) c) s ks.
Proof. intros. split; apply run_partial. Qed.
Print Assumptions C54_partial_stream.
Theorem C54_maybe : forall S T R P K SE PE A (I : strm S T R P K SE PE) b (c : client T R P SE PE A) s ks,
  run_client (maybe_strm I) c (s, b) ks =
  omap (fun y => match y with (a, s', ks') => (a, (s', b), ks') end) (run_client (if b then partial_strm I else complete_strm I) c s ks).
Proof. intros. destruct b; apply run_maybe. Qed.
Print Assumptions C54_maybe.
(** [state::Stream]: the user's state plays no part, and nothing a client of the stream does changes it. *)
Theorem C54_state : forall S T R P K SE PE A U (I : strm S T R P K SE PE) (u : U) (c : client T R P SE PE A) s ks,
  run_client (state_strm I U) c (s, u) ks = omap (fun y => match y with (a, s', ks') => (a, (s', u), ks') end) (run_client I c s ks).
Proof. intros. apply run_state. Qed.
Print Assumptions C54_state.
(** [position::Stream]: a client that does not ask for positions cannot tell whether it is there, whatever the
    positioner; for all stacks of the wrappers over slices and strings. *)
Inductive stack : forall S T R P K SE PE, strm S T R P K SE PE -> Prop :=
| st_slice : forall debug size T, stack _ _ _ _ _ _ _ (slice_strm debug size T)
| st_str : stack _ _ _ _ _ _ _ str_strm
| st_partial : forall S T R P K SE PE (I : strm S T R P K SE PE) b, stack _ _ _ _ _ _ _ I -> stack _ _ _ _ _ _ _ (set_partial I b)
| st_maybe : forall S T R P K SE PE (I : strm S T R P K SE PE), stack _ _ _ _ _ _ _ I -> stack _ _ _ _ _ _ _ (maybe_strm I)
| st_state : forall S T R P K SE PE (I : strm S T R P K SE PE) U, stack _ _ _ _ _ _ _ I -> stack _ _ _ _ _ _ _ (state_strm I U)
| st_easy : forall S T R P K SE PE (I : strm S T R P K SE PE) SE2 PE2 (fs : SE -> SE2) (fe : PE -> PE2), stack _ _ _ _ _ _ _ I -> stack _ _ _ _ _ _ _ (easy_strm I fs fe)
| st_span : forall S T R P K SE PE (I : strm S T R P K SE PE) SE2 PE2 (fs : SE -> SE2) (fe : PE -> PE2), stack _ _ _ _ _ _ _ I -> stack _ _ _ _ _ _ _ (span_strm I fs fe)
| st_pos : forall S T R P K SE PE (I : strm S T R P K SE PE) Q (posr : positioner Q T R), stack _ _ _ _ _ _ _ I -> stack _ _ _ _ _ _ _ (pos_strm I posr).
Lemma stack_natural : forall S T R P K SE PE (I : strm S T R P K SE PE), stack _ _ _ _ _ _ _ I -> natural I.
Proof.
  intros S T R P K SE PE I H. induction H.
  - apply natural_slice.
  - apply natural_str.
  - apply natural_partial; auto.
  - apply natural_maybe; auto.
  - apply natural_state; auto.
  - apply natural_conv; auto.
  - apply natural_conv; auto.
  - apply natural_pos; auto.
Qed.
Theorem C54_position : forall S T R P K SE PE A (I : strm S T R P K SE PE), stack _ _ _ _ _ _ _ I ->
  forall Q (posr : positioner Q T R) (fp : P -> Q) (c : client T R Q SE PE A), position_free c -> forall s q kqs,
  omap (fun y => match y with (a, (s', _), kqs') => (a, s', List.map fst kqs') end) (run_client (pos_strm I posr) c (s, q) kqs) =
  run_client I (translate (fun b => b) fp (fun e => e) (fun e => e) c) s (List.map fst kqs).
Proof. intros S T R P K SE PE A I HI Q posr fp c Hc s q kqs. apply run_pos_free; auto. apply stack_natural. auto. Qed.
Print Assumptions C54_position.
(** The order in which [position::Stream] and [easy::Stream] or [PartialStream] are put around a stream makes no
    difference to any client. *)
Theorem C54_order : forall S T R P K SE PE A (I : strm S T R P K SE PE) Q (posr : positioner Q T R) SE2 PE2 (fs : SE -> SE2) (fe : PE -> PE2) s ks,
  (forall c : client T R Q SE2 PE2 A, run_client (pos_strm (easy_strm I fs fe) posr) c s ks = run_client (easy_strm (pos_strm I posr) fs fe) c s ks) /\
  (forall c : client T R Q SE PE A, run_client (pos_strm (partial_strm I) posr) c s ks = run_client (partial_strm (pos_strm I posr)) c s ks).
Proof. intros. split; intros c; [apply run_pos_conv|apply run_pos_partial]. Qed.
Print Assumptions C54_order.
(** A client that takes "ab" by scanning, goes back and takes one character. *)
Definition abc_client {P SE PE} : client N (list N) P SE PE (list N + SE) :=
  Checkpoint (UnconsWhile (stateless (fun c => (c <? 99)%N)) tt (fun r _ => Reset 0 (fun _ => Uncons (fun _ => Return r)))).
Example C54_ex : stack _ _ _ _ _ _ _ (easy_strm (pos_strm (state_strm str_strm nat) source_positioner) Some Some) /\ position_free (P:=src_pos) (SE:=serr) (PE:=serr) abc_client /\
  run_client (easy_strm (pos_strm (state_strm str_strm nat) source_positioner) Some Some) abc_client (((1000%N, [97; 98; 99]%N), 7), src_default) [] =
  Done (inl [97; 98]%N, (((1001%N, [98; 99]%N), 7), SrcPos 1 2), [((1000%N, [97; 98; 99]%N), src_default)]).
Proof. split; [repeat constructor|]. split; [|reflexivity]. repeat constructor. Qed.

(** The positions themselves: whatever a client does with a [position::Stream], the position it sees is that of what is
    consumed at that moment, also after going back. *)
Theorem C34_client : forall base cs A (c : client N (list N) src_pos serr serr A) a s p ks, text cs ->
  run_client (pos_strm str_strm source_positioner) c ((base, encode_all cs), src_default) [] = Done (a, (s, p), ks) ->
  forall k, In k ((s, p) :: ks) -> exists before after, cs = before ++ after /\ snd (fst k) = encode_all after /\ at_line_column before (snd k).
Proof.
  intros base cs A c a s p ks Ht H k Hk.
  assert (AG : forall (p : src_pos) r a, str_repr r a -> po_range source_positioner p r = stepped source_positioner p a).
  { intros q r b [Hr ->]. cbn [po_range source_positioner]. rewrite src_bytes_spec; auto. apply encode_all_length_ge. }
  apply (run_followed 1 str_ops str_repr str_repr _ str_ok source_positioner AG _ _ cs src_default) in H.
  - destruct H as [H1 H2]. assert (K : followed str_repr source_positioner cs src_default k) by (destruct Hk as [<-|Hk]; [exact H1|rewrite Forall_forall in H2; auto]).
    destruct K as [b [r [K1 [[_ K2] K3]]]]. exists b, r. split; auto. split; auto. rewrite K3. apply line_column_spec.
  - exists [], cs. split; [reflexivity|]. split; [split; auto|reflexivity].
  - constructor.
Qed.
Print Assumptions C34_client.
Theorem C34_client_index : forall debug size T base (l : list T) p0 A (c : client T (list T) nat serr serr A) a s p ks,
  run_client (pos_strm (slice_strm debug size T) (index_positioner (@length T))) c ((base, l), p0) [] = Done (a, (s, p), ks) ->
  forall k, In k ((s, p) :: ks) -> exists before, l = before ++ snd (fst k) /\ snd k = p0 + length before.
Proof.
  intros debug size T base l p0 A c a s p ks H k Hk.
  assert (AG : forall (p : nat) (r a : list T), r = a -> po_range (index_positioner (T:=T) (@length T)) p r = stepped (index_positioner (@length T)) p a).
  { intros q r b ->. rewrite index_stepped. reflexivity. }
  apply (run_followed size (slice_ops debug T) (fun s l => s = l) (fun r l => r = l) _ (slice_ok debug T) (index_positioner (@length T)) AG _ _ l p0) in H.
  - destruct H as [H1 H2]. assert (K : followed (fun s l => s = l) (index_positioner (T:=T) (@length T)) l p0 k) by (destruct Hk as [<-|Hk]; [exact H1|rewrite Forall_forall in H2; auto]).
    destruct K as [b [r [K1 [K2 K3]]]]. subst r. exists b. split; auto. rewrite K3. apply index_stepped.
  - exists [], l. auto.
  - constructor.
Qed.
Print Assumptions C34_client_index.

(** * C55 *)
(** Whatever is done with a stream over a slice at address [base], the address it is at is that of the element
    following those consumed, and [translate_position] gives their size in bytes. *)
Definition at_slice {T} (size base : N) (l : list T) (s : N * list T) : Prop :=
  exists before, l = before ++ snd s /\ fst s = (base + size * N.of_nat (length before))%N.
Theorem C55_slice : forall debug size T base (l : list T) A (c : client T (list T) N serr serr A) a s ks,
  run_client (slice_strm debug size T) c (base, l) [] = Done (a, s, ks) ->
  Forall (at_slice size base l) (s :: ks) /\
  exists before, l = before ++ snd s /\ translate_position (fst s) base = Done (size * N.of_nat (length before))%N.
Proof.
  intros debug size T base l A c a s ks H.
  apply (slice_place debug size base l) in H; [|exists [], l; cbn; rewrite N.mul_0_r, N.add_0_r; auto|constructor].
  assert (G : forall s, place size (fun l => l) (fun _ => True) base l s -> at_slice size base l s).
  { intros s1 [b [r [H1 [_ ->]]]]. exists b. auto. }
  destruct H as [H1 H2]. split; [constructor; [auto|]; eapply Forall_impl; [|exact H2]; auto|].
  destruct (G _ H1) as [b [K1 K2]]. exists b. split; auto. unfold translate_position. rewrite K2. rewrite (proj2 (N.leb_le _ _)) by lia. f_equal. lia.
Qed.
Print Assumptions C55_slice.
(** The same for [&str], where the unit is the byte; the stream is always at a character. *)
Definition at_str (base : N) (l : list N) (s : N * list N) : Prop :=
  exists before after, l = before ++ after /\ s = ((base + N.of_nat (length (encode_all before)))%N, encode_all after).
Theorem C55_str : forall base l A (c : client N (list N) N serr serr A) a s ks, text l ->
  run_client str_strm c (base, encode_all l) [] = Done (a, s, ks) ->
  Forall (at_str base l) (s :: ks) /\
  exists before after, l = before ++ after /\ snd s = encode_all after /\ translate_position (fst s) base = Done (N.of_nat (length (encode_all before))).
Proof.
  intros base l A c a s ks Ht H.
  apply (str_place base l) in H; [|exists [], l; cbn [encode_all length List.map List.concat]; rewrite N.mul_0_r, N.add_0_r; auto|constructor].
  assert (G : forall s, place 1 encode_all text base l s -> at_str base l s).
  { intros s1 [b [r [H1 [_ ->]]]]. exists b, r. rewrite N.mul_1_l. auto. }
  destruct H as [H1 H2]. split; [constructor; [auto|]; eapply Forall_impl; [|exact H2]; auto|].
  destruct (G _ H1) as [b [r [K1 ->]]]. exists b, r. split; auto. split; auto. unfold translate_position. cbn [fst]. rewrite (proj2 (N.leb_le _ _)) by lia. f_equal. lia.
Qed.
Print Assumptions C55_str.
(** What the reading methods of a slice give: the longest accepted prefix, committed if [uncons_while1] read anything. *)
Theorem C55_reads_slice : forall debug size T (base : N) (f : T -> bool) a b, Forall (fun t => f t = true) a ->
  match b with [] => True | t :: _ => f t = false end ->
  let I := slice_strm debug size T in let s := (base, a ++ b) in let s' := ((base + size * N.of_nat (length a))%N, b) in
  w_while I (stateless f) s tt = Done (inl a, s', tt) /\
  (a <> [] -> w_while1 I (stateless f) s tt = Done (CommitOk a, s', tt)) /\
  (a = [] -> w_while1 I (stateless f) s tt = Done (PeekErr (Trk (match b with [] => SeEoi | _ => SeUnexpected end) 1), s, tt)) /\
  w_range I (length a) s = Done (inl a, s') /\
  (forall n, length (a ++ b) < n -> w_range I n s = Done (inr SeEoi, s)) /\
  w_partial I s = false /\ w_whole I s = a ++ b /\ w_reset I s' (w_checkpoint I s) = (inl tt, s).
Proof.
  intros debug size T base f a b Ha Hb I s s'.
  assert (M : ptr_move size s b = s'). { unfold ptr_move, s, s'. cbn [fst snd]. rewrite app_length. do 2 f_equal. f_equal. f_equal. lia. }
  assert (M0 : ptr_move size s (a ++ b) = s). { unfold ptr_move, s. cbn [fst snd]. rewrite Nat.sub_diag, N.mul_0_r, N.add_0_r. reflexivity. }
  destruct (C38_longest debug T f (a ++ b) a b eq_refl Ha Hb) as [H1 H2].
  split; [|split; [|split; [|split; [|split]]]].
  - cbn [w_while I slice_strm ptr_strm snd s]. rewrite H1. cbn [omap obind]. rewrite <- M. reflexivity.
  - intros Hn. cbn [w_while1 I slice_strm ptr_strm snd s]. rewrite H2. destruct a as [|t a]; [congruence|]. cbn [omap obind app one_to_pr]. rewrite <- M. reflexivity.
  - intros ->. cbn [w_while1 I slice_strm ptr_strm snd s]. rewrite H2. cbn [app] in *. destruct b as [|t b]; cbn [omap obind one_to_pr to_trk]; unfold s in *; rewrite M0; reflexivity.
  - cbn [w_range I slice_strm ptr_strm snd s]. rewrite sl_range_spec, app_length. rewrite (proj2 (Nat.leb_le _ _)) by lia. rewrite firstn_app, skipn_app, Nat.sub_diag, firstn_all, skipn_all. cbn [firstn skipn app omap obind fst snd].
    rewrite app_nil_r, <- M. reflexivity.
  - intros n Hn. cbn [w_range I slice_strm ptr_strm snd s]. rewrite sl_range_spec. rewrite (proj2 (Nat.leb_gt _ _)) by lia. cbn [omap obind fst snd]. unfold s in *. rewrite M0. reflexivity.
  - auto.
Qed.
Print Assumptions C55_reads_slice.
(** The same for [&str]; the lengths are in bytes, a range that would split a character is refused. *)
Theorem C55_reads_str : forall (base : N) (f : N -> bool) a b, text (a ++ b) -> Forall (fun t => f t = true) a ->
  match b with [] => True | t :: _ => f t = false end ->
  let I := str_strm in let s := (base, encode_all (a ++ b)) in let s' := ((base + N.of_nat (length (encode_all a)))%N, encode_all b) in
  w_while I (stateless f) s tt = Done (inl (encode_all a), s', tt) /\
  (a <> [] -> w_while1 I (stateless f) s tt = Done (CommitOk (encode_all a), s', tt)) /\
  (a = [] -> w_while1 I (stateless f) s tt = Done (PeekErr (Trk (match b with [] => SeEoi | _ => SeUnexpected end) 1), s, tt)) /\
  w_range I (length (encode_all a)) s = Done (inl (encode_all a), s') /\
  (forall n, (forall p q, a ++ b = p ++ q -> length (encode_all p) <> n) ->
     w_range I n s = Done (inr (if length (encode_all (a ++ b)) <? n then SeEoi else SeBoundary), s)) /\
  w_partial I s = false /\ w_whole I s = encode_all (a ++ b) /\ w_reset I s' (w_checkpoint I s) = (inl tt, s).
Proof.
  intros base f a b Ht Ha Hb I s s'.
  assert (M : ptr_move 1 s (encode_all b) = s'). { unfold ptr_move, s, s'. cbn [fst snd]. rewrite encode_all_app, app_length. do 2 f_equal. rewrite N.mul_1_l. f_equal. lia. }
  assert (M0 : ptr_move 1 s (encode_all (a ++ b)) = s). { unfold ptr_move, s. cbn [fst snd]. rewrite Nat.sub_diag, N.mul_0_r, N.add_0_r. reflexivity. }
  assert (Hsc : forall a', Forall (fun c => f c = true) a' -> scans (stateless f) tt (a' ++ b) a' b tt).
  { induction 1 as [|c a' Hc _ IH]; cbn [app]; [|econstructor; [unfold stateless; rewrite Hc; reflexivity|auto]].
    destruct b as [|c r]; [constructor|]. constructor. unfold stateless. rewrite Hb. reflexivity. }
  destruct (C37_while1 unit (stateless f) tt) as [W0 [W1 W2]]. destruct (C37_range (length (encode_all a)) (a ++ b) Ht) as [R1 _].
  split; [|split; [|split; [|split; [|split]]]].
  - cbn [w_while I str_strm ptr_strm snd s]. rewrite (C37_while unit _ _ _ _ _ _ Ht (Hsc a Ha)). cbn [omap obind]. rewrite <- M. reflexivity.
  - intros Hn. cbn [w_while1 I str_strm ptr_strm snd s]. destruct a as [|t a]; [congruence|]. cbn [app] in *. rewrite (W2 _ _ a b tt Ht (Hsc _ Ha)). cbn [omap obind one_to_pr]. rewrite <- M. reflexivity.
  - intros ->. cbn [w_while1 I str_strm ptr_strm snd s app] in *. destruct b as [|t b].
    + change (encode_all []) with (@nil N) in *. rewrite W0. cbn [omap obind one_to_pr to_trk]. unfold s in *. rewrite M0. reflexivity.
    + rewrite (W1 _ _ tt Ht) by (unfold stateless; rewrite Hb; reflexivity). cbn [omap obind one_to_pr to_trk]. unfold s in *. rewrite M0. reflexivity.
  - cbn [w_range I str_strm ptr_strm snd s]. rewrite (R1 a b eq_refl eq_refl). cbn [omap obind fst snd]. rewrite <- M. reflexivity.
  - intros n Hn. cbn [w_range I str_strm ptr_strm snd s]. rewrite (proj2 (C37_range n (a ++ b) Ht) Hn). cbn [omap obind fst snd]. unfold s in *. rewrite M0. reflexivity.
  - auto.
Qed.
Print Assumptions C55_reads_str.
(** [distance] to a checkpoint that is not ahead is what was consumed since, in elements or bytes. *)
Theorem C55_distance_slice : forall debug size T (k s : N * list T) between, snd k = between ++ snd s ->
  w_distance (slice_strm debug size T) s k = Done (length between).
Proof.
  intros debug size T k s between H. cbn [w_distance slice_strm ptr_strm]. unfold sl_distance. rewrite H, app_length.
  rewrite (proj2 (Nat.leb_le _ _)) by lia. f_equal. lia.
Qed.
Print Assumptions C55_distance_slice.
Theorem C55_distance_str : forall base l before between after k s, text l ->
  l = before ++ between ++ after -> at_str base l k -> snd k = encode_all (between ++ after) ->
  at_str base l s -> snd s = encode_all after ->
  w_distance str_strm s k = Done (length (encode_all between)).
Proof.
  intros base l before between after k s Ht Hl [b1 [r1 [H1 ->]]] Hk [b2 [r2 [H2 ->]]] Hs. cbn [w_distance str_strm ptr_strm fst snd] in *.
  assert (E1 : length (encode_all b1) = length (encode_all before)).
  { assert (length (encode_all l) = length (encode_all b1) + length (encode_all r1)) by (rewrite H1, encode_all_app, app_length; auto).
    assert (length (encode_all l) = length (encode_all before) + length (encode_all (between ++ after))) by (rewrite Hl at 1; rewrite encode_all_app, app_length; auto). rewrite Hk in *. lia. }
  assert (E2 : length (encode_all b2) = length (encode_all before) + length (encode_all between)).
  { assert (length (encode_all l) = length (encode_all b2) + length (encode_all r2)) by (rewrite H2, encode_all_app, app_length; auto).
    assert (length (encode_all l) = length (encode_all before) + (length (encode_all between) + length (encode_all after))) by (rewrite Hl at 1; rewrite !encode_all_app, !app_length; auto). rewrite Hs in *. lia. }
  rewrite E1, E2. rewrite (proj2 (N.leb_le _ _)) by lia. f_equal. lia.
Qed.
Print Assumptions C55_distance_str.
(** The documentation of [translate_position] promises "an indexed position".  For elements of more than one byte it is
    not the index, and for zero-sized elements the position never moves at all. *)
Theorem C55_index_refuted : exists (c : client nat (list nat) N serr serr unit) s,
  run_client (slice_strm true 4 nat) c (4096%N, [1; 2; 3]) [] = Done (tt, s, []) /\ snd s = [2; 3] /\ translate_position (fst s) 4096 = Done 4%N.
Proof. exists (Uncons (fun _ => Return tt)), (4100%N, [2; 3]). repeat split. Qed.
Print Assumptions C55_index_refuted.
Theorem C55_zero_sized : forall debug T base (l : list T) A (c : client T (list T) N serr serr A) a s ks,
  run_client (slice_strm debug 0 T) c (base, l) [] = Done (a, s, ks) -> fst s = base.
Proof. intros debug T base l A c a s ks H. destruct (C55_slice _ _ _ _ _ _ _ _ _ _ H) as [HF _]. inversion HF as [|? ? [b [_ K]] _]. lia. Qed.
Print Assumptions C55_zero_sized.
Example C55_ex : exists ks, run_client str_strm abc_client (1000%N, encode_all [97; 8364; 99]%N) [] = Done (inl [97]%N, (1001%N, encode_all [8364; 99]%N), ks) /\
  text [97; 8364; 99]%N /\ w_distance str_strm (1004%N, [99]%N) (1000%N, encode_all [97; 8364; 99]%N) = Done 4.
Proof. eexists. split; [reflexivity|]. split; [repeat constructor|reflexivity]. Qed.

(** * C56 *)
(** A report: a line for every unexpected item, one line enumerating what was expected, a line for every message. *)
Lemma report_lines : forall T R P (st : T -> string) (sr : R -> string) (sp : P -> string) (es : xerrors T R P),
  fmt_report st sr sp es =
  text_of (("Parse error at " ++ sp (xposition es))%string ::
    List.map (fmt_error st sr) (filter is_unexpected_x (xlist es)) ++
    (match expected_x (xlist es) with [] => [] | l => [("Expected " ++ english (List.map (fmt_info st sr) l))%string] end) ++
    List.map (fmt_error st sr) (filter is_message_x (xlist es))).
Proof.
  assert (TA : forall a b, text_of (a ++ b) = (text_of a ++ text_of b)%string).
  { induction a as [|x a IH]; intros b; [reflexivity|]. cbn [app text_of]. rewrite IH, app_assoc_s. reflexivity. }
  intros. unfold fmt_report, fmt_errors. rewrite !fmt_lines_text. cbn [text_of]. rewrite !TA, !app_assoc_s. apply (f_equal (append "Parse error at ")).
  apply (f_equal (append (sp (xposition es)))). change (newline ++ ?x)%string with (String (ascii_of_nat 10) x). f_equal. f_equal.
  destruct (expected_x (xlist es)) as [|x l] eqn:E; [reflexivity|]. rewrite fmt_expected_english by congruence.
  cbn [length Nat.eqb text_of]. rewrite !app_assoc_s. reflexivity.
Qed.
(** Nothing is lost: every error is on one of the lines. *)
Theorem C56_report : forall T R P (st : T -> string) (sr : R -> string) (sp : P -> string) (es : xerrors T R P),
  fmt_report st sr sp es =
  text_of (("Parse error at " ++ sp (xposition es))%string ::
    unexpected_lines st sr (xlist es) ++
    (match expected_items st sr (xlist es) with [] => [] | l => [("Expected " ++ english l)%string] end) ++
    message_lines st sr (xlist es)).
Proof.
  intros. rewrite report_lines. f_equal. f_equal. f_equal; [|f_equal].
  - induction (xlist es) as [|[[]|[]|[]|] l IH]; cbn; auto; rewrite IH; reflexivity.
  - assert (K : expected_items st sr (xlist es) = List.map (fmt_info st sr) (expected_x (xlist es))) by (induction (xlist es) as [|[[]|[]|[]|] l IH]; cbn; auto; rewrite IH; reflexivity).
    rewrite K. destruct (expected_x (xlist es)); reflexivity.
  - induction (xlist es) as [|[[]|[]|[]|] l IH]; cbn; auto; rewrite IH; reflexivity.
Qed.
Print Assumptions C56_report.
Theorem C56_complete : forall T R (es : list (xerror T R)) e, In e es ->
  In e (filter is_unexpected_x es) \/ (exists x, e = XExpected x /\ In x (expected_x es)) \/ In e (filter is_message_x es).
Proof.
  intros T R es e H. destruct e as [x|x|x|x].
  - left. apply filter_In. auto.
  - right. left. exists x. split; auto. induction es as [|y es IH]; [destruct H|]. destruct H as [->|H]; [left; reflexivity|]. destruct y; cbn; auto.
  - right. right. apply filter_In. auto.
  - right. right. apply filter_In. auto.
Qed.
Print Assumptions C56_complete.
(** [map_position], [map_token] and [map_range] are functorial, independent of each other, and showing a mapped error is
    showing the error with the function applied first. *)
Theorem C56_map_laws : forall T R P (es : xerrors T R P),
  map_token (fun t => t) es = es /\ map_range (fun r => r) es = es /\ map_position (fun p => p) es = es.
Proof.
  intros T R P [p l]. unfold map_token, map_range, map_position. cbn.
  assert (G : forall f : xerror T R -> xerror T R, (forall e, f e = e) -> List.map f l = l) by (intros f Hf; rewrite (map_ext _ (fun e => e) Hf); apply map_id).
  repeat split; f_equal; apply G; intros [[]|[]|[]|]; reflexivity.
Qed.
Print Assumptions C56_map_laws.
Theorem C56_map_compose : forall T R P U V S W Q O (es : xerrors T R P) (f : T -> U) (g : U -> V) (f2 : R -> S) (g2 : S -> W) (f3 : P -> Q) (g3 : Q -> O),
  map_token g (map_token f es) = map_token (fun t => g (f t)) es /\ map_range g2 (map_range f2 es) = map_range (fun t => g2 (f2 t)) es /\
  map_position g3 (map_position f3 es) = map_position (fun t => g3 (f3 t)) es /\ map_range f2 (map_token f es) = map_token f (map_range f2 es).
Proof.
  intros. destruct es as [p l]. unfold map_token, map_range, map_position. cbn. rewrite !map_map. repeat split; f_equal; apply map_ext; intros [[]|[]|[]|]; reflexivity.
Qed.
Print Assumptions C56_map_compose.
Theorem C56_map_shown : forall T R P U S Q (st : U -> string) (sr : S -> string) (sp : Q -> string) (f : T -> U) (g : R -> S) (h : P -> Q) (es : xerrors T R P),
  fmt_report st sr sp (map_position h (map_range g (map_token f es))) = fmt_report (fun t => st (f t)) (fun r => sr (g r)) (fun p => sp (h p)) es.
Proof.
  intros. rewrite !report_lines. destruct es as [p l]. cbn [xposition xlist map_position map_range map_token]. f_equal. f_equal.
  assert (F1 : forall b1 (b2 : xerror T R -> bool), (forall e, b1 (error_map_range g (error_map_token f e)) = b2 e) -> 
     List.map (fmt_error st sr) (filter b1 (List.map (error_map_range g) (List.map (error_map_token f) l))) = List.map (fmt_error (fun t => st (f t)) (fun r => sr (g r))) (filter b2 l)).
  { intros b1 b2 Hb. induction l as [|e l' IH]; [reflexivity|]. cbn [List.map filter]. rewrite Hb. destruct (b2 e); [|exact IH]. cbn [List.map]. rewrite IH. f_equal. destruct e as [[]|[]|[]|]; reflexivity. }
  assert (F2 : List.map (fmt_info st sr) (expected_x (List.map (error_map_range g) (List.map (error_map_token f) l))) = List.map (fmt_info (fun t => st (f t)) (fun r => sr (g r))) (expected_x l)).
  { clear F1. induction l as [|e l' IH]; [reflexivity|]. destruct e as [x|x|x|x]; cbn [List.map error_map_range error_map_token expected_x]; auto. rewrite IH. f_equal. destruct x; reflexivity. }
  f_equal; [|f_equal].
  - apply F1. intros []; reflexivity.
  - revert F2. generalize (expected_x (List.map (error_map_range g) (List.map (error_map_token f) l))) (expected_x l). intros [|a la] [|b lb] F2; try discriminate; [reflexivity|]. rewrite F2. reflexivity.
  - apply F1. intros []; reflexivity.
Qed.
Print Assumptions C56_map_shown.
(** What the user reads after a choice of tokens failed at a token. *)
Theorem C56_choice : forall T fl d, tok_laws T -> forall (st : t_tok T -> string) (sr : list (t_tok T) -> string) (sp : t_Pos T -> string)
  (l : list (t_tok T)) (t : t_tok T) ts x r pos part, ~ In x (t :: l) -> firsts [] (t :: l) ts ->
  let i := @Inp (cfg_easy T fl d) (x :: r) pos part in
  exists e, parse (choice (token_alts t l)) i = Done (inr e, i) /\
    fmt_report st sr sp (x_errors e) = text_of [("Parse error at " ++ sp pos)%string; ("Unexpected `" ++ st x ++ "`")%string; ("Expected " ++ english (List.map (fun t => ("`" ++ st t ++ "`")%string) ts))%string].
Proof.
  intros T fl d L st sr sp l t ts x r pos part Hx Hf i.
  eexists. split; [apply C41_choice_of_tokens; eauto; [discriminate|]; intros y r' Hy; cbn in Hy; injection Hy as <- _; auto|].
  rewrite report_lines. cbn [xposition xlist x_errors eposition elist found rest i List.map].
  assert (E1 : expected_x (List.map x_error (List.map (fun x0 => EExpected (IToken x0)) ts)) = List.map XToken ts).
  { clear Hf. induction ts as [|y ts IH]; [reflexivity|]. cbn. rewrite IH. reflexivity. }
  assert (F1 : forall b, (forall z : xinfo (t_tok T) (list (t_tok T)), b (XExpected z) = false) -> filter b (List.map x_error (List.map (fun x0 => EExpected (IToken x0)) ts)) = []).
  { intros b Hb. clear E1 Hf. induction ts as [|y ts IH]; [reflexivity|]. cbn. rewrite Hb. auto. }
  destruct ts as [|t0 ts]; [inversion Hf; subst; exfalso; auto|].
  unfold t_tok in *. cbn [filter x_error x_info is_unexpected_x is_message_x expected_x]. rewrite !F1 by reflexivity. cbn [tok cfg_easy] in E1 |- *. rewrite E1. cbn [List.map app fmt_error fmt_info]. rewrite map_map. reflexivity.
Qed.
Print Assumptions C56_choice.
(** The example in the documentation of [fmt_errors]. *)
Example C56_ex : fmt_report (fun c => c) (fun c => c) (fun p => p) (MkX "line: 2, column: 3"%string [XUnexpected (XToken ","); XExpected (XToken "."); XExpected (XToken "a"); XExpected (XStatic "digit")]%string) =
  ("Parse error at line: 2, column: 3" ++ newline ++ "Unexpected `,`" ++ newline ++ "Expected `.`, `a` or digit" ++ newline)%string.
Proof. reflexivity. Qed.

(** * C57 *)
(** [find]: the first match, wherever it starts; everything up to its end is consumed. *)
Theorem C57_find : forall C, lawful C -> forall r : regex C, honest_regex r -> forall i : input C,
  match rx_find r (rest i) with
  | [] => fails (fresh (find r)) i false
  | m :: _ => exists before i', advanced_by i (before ++ m_part m) i' /\ units (before ++ m_part m) = m_end m /\
      succeeds (fresh (find r)) i (negb (m_end m =? 0)) (m_part m) i'
  end.
Proof.
  intros C L r HR i. destruct (HR (rest i)) as [H _]. destruct (rx_find r (rest i)) as [|m ms] eqn:E.
  - eexists _, _, _. unfold find. rewrite fresh_lazy. unfold find_lazy. rewrite fold_find, E. cbn. split; [reflexivity|]. split; reflexivity.
  - inversion H as [|? ? ? before after H1 _ H3 _]; subst. exists before, (advance i (before ++ m_part m) after).
    rewrite app_assoc in H1. split; [repeat split; auto|]. split; auto.
    unfold succeeds, find. rewrite fresh_lazy. unfold find_lazy. rewrite fold_find, E. cbn [pulled firstn List.map reach last].
    apply take_end_ok; auto.
Qed.
Print Assumptions C57_find.
(** [find_many]: all the matches; consumes up to the end of the last one, and cannot fail. *)
Theorem C57_find_many : forall C, lawful C -> forall r : regex C, honest_regex r -> forall i : input C,
  exists l i', advanced_by i l i' /\ units l = reach (rx_find r (rest i)) /\
    succeeds (fresh (find_many r)) i (negb (units l =? 0)) (List.map (@m_part C) (rx_find r (rest i))) i'.
Proof.
  intros C L r HR i. destruct (HR (rest i)) as [H _]. destruct (matches_reach0 _ _ _ H) as [b [a [H1 H2]]].
  exists b, (advance i b a). split; [repeat split; auto|]. split; auto. unfold succeeds, find_many. rewrite fresh_lazy. unfold find_many_lazy. rewrite fold_find.
  cbn [pulled]. rewrite <- H2. apply take_end_ok; auto.
Qed.
Print Assumptions C57_find_many.
(** [captures]: the groups of the first match that took part in it. *)
Theorem C57_captures : forall C, lawful C -> forall r : regex C, honest_regex r -> forall i : input C,
  match rx_find r (rest i), rx_captures r (rest i) with
  | m :: _, g :: _ => exists parts before i', taking_part g parts /\ advanced_by i (before ++ m_part m) i' /\ units (before ++ m_part m) = m_end m /\
      succeeds (fresh (captures r)) i (negb (m_end m =? 0)) parts i'
  | [], [] => fails (fresh (captures r)) i false
  | _, _ => False
  end.
Proof.
  intros C L r HR i. destruct (HR (rest i)) as [H [_ HG]]. pose proof (fold_captures Firstly _ _ HG) as [vs [K1 K2]].
  inversion HG as [E1 E2|g m gs ms [more Hg] HG' E1 E2].
  - eexists _, _, _. unfold captures. rewrite fresh_lazy. unfold captures_lazy. rewrite K1. rewrite <- E1 in K2. cbn [pulled firstn] in K2. inversion K2; subst. cbn. split; [reflexivity|]. split; reflexivity.
  - rewrite <- E1 in K2. cbn [pulled firstn] in K2. inversion K2 as [|? parts ? vs' K3 K4]; subst vs. inversion K4; subst. rewrite <- E2 in H.
    inversion H as [|? ? ? before after H1 _ H3 _]; subst. exists parts, before, (advance i (before ++ m_part m) after).
    rewrite app_assoc in H1. split; auto. split; [repeat split; auto|]. split; auto. unfold succeeds, captures. rewrite fresh_lazy. unfold captures_lazy. rewrite K1. rewrite <- E2. cbn [pulled firstn List.map reach last obind].
    apply take_end_ok; auto.
Qed.
Print Assumptions C57_captures.
(** [captures_many]: those of all matches. *)
Theorem C57_captures_many : forall C, lawful C -> forall r : regex C, honest_regex r -> forall i : input C,
  exists l i' vs, advanced_by i l i' /\ units l = reach (rx_find r (rest i)) /\ Forall2 taking_part (rx_captures r (rest i)) vs /\
    succeeds (fresh (captures_many r)) i (negb (units l =? 0)) vs i'.
Proof.
  intros C L r HR i. destruct (HR (rest i)) as [H [_ HG]]. pose proof (fold_captures All _ _ HG) as [vs [K1 K2]]. destruct (matches_reach0 _ _ _ H) as [b [a [H1 H2]]].
  exists b, (advance i b a), vs. split; [repeat split; auto|]. split; auto. split; auto. unfold succeeds, captures_many. rewrite fresh_lazy. unfold captures_many_lazy. rewrite K1.
  cbn [pulled obind fst snd]. rewrite <- H2. apply take_end_ok; auto.
Qed.
Print Assumptions C57_captures_many.
(** [match_]: a test for a match anywhere; nothing is consumed and the whole rest is the value. *)
Theorem C57_match : forall C (r : regex C), honest_regex r -> forall i : input C,
  (rx_find r (rest i) <> [] -> succeeds (fresh (match_ r)) i false (rest i) i) /\ (rx_find r (rest i) = [] -> fails (fresh (match_ r)) i false).
Proof.
  intros C r HR i. destruct (HR (rest i)) as [_ [H _]]. unfold match_, fails, fails_with, succeeds. rewrite fresh_lazy. destruct (rx_is_match r (rest i)).
  - split; [reflexivity|]. intros K. apply (proj1 H) in K; auto. contradiction.
  - split; [intros K; apply H in K; discriminate|]. intros _. eexists _, _, _. split; [reflexivity|split; reflexivity].
Qed.
Print Assumptions C57_match.
Theorem C57_forward : forall C (r : regex C), forward (match_ r) /\ forward (find r) /\ forward (find_many r) /\ forward (captures r) /\ forward (captures_many r).
Proof.
  intros C r. split; [apply (fwd_match r)|]. split; [apply (fwd_find r)|]. split; [apply (fwd_find_many r)|]. split; [apply (fwd_captures r)|apply (fwd_captures_many r)].
Qed.
Print Assumptions C57_forward.
(** What is reported: the token found and the expression. *)
Theorem C57_error : forall T fl d (r : regex (cfg_easy T fl d)) (i : input (cfg_easy T fl d)), honest_regex r -> rx_find r (rest i) = [] ->
  let e := MkErrs (ipos i) [found i; EExpected (IFormat ("/" ++ rx_str r ++ "/"))] in
  parse (match_ r) i = Done (inr e, i) /\ parse (find r) i = Done (inr e, i) /\ parse (captures r) i = Done (inr e, i).
Proof.
  intros T fl d r i HR Hn e.
  destruct (HR (rest i)) as [_ [Hm HG]]. rewrite Hn in HG. inversion HG as [E1|].
  assert (Hm' : rx_is_match r (rest i) = false) by (destruct (rx_is_match r (rest i)); auto; exfalso; apply (proj1 Hm); auto).
  destruct i as [l pos part]. cbn [rest ipos] in *.
  split; [|split]; (rewrite (parse_peek _ _ (to_trk (MkErrs pos [])) (Inp l pos part)); [|reflexivity|]);
    [|unfold match_; rewrite fresh_lazy; cbn [rest ipos]; rewrite Hm'; reflexivity
     | |unfold find; rewrite fresh_lazy; unfold find_lazy; cbn [rest ipos]; rewrite Hn; reflexivity
     | |unfold captures; rewrite fresh_lazy; unfold captures_lazy; cbn [rest ipos]; rewrite <- E1; reflexivity];
    destruct l; reflexivity.
Qed.
Print Assumptions C57_error.
(** [^\[0-9\]+] as the engine would answer. *)
Definition digits_rx : regex BC :=
  let f h := match span_while is_ascii_digit h with ([], _) => [] | (a, _) => [@MkMatch BC (length a) a] end in
  @MkRegex BC (fun h => match f h with [] => false | _ => true end) f (fun h => List.map (fun m => [Some m; None]) (f h)) "^[0-9]+".
Lemma digits_honest : honest_regex digits_rx.
Proof.
  intros h. cbn [digits_rx rx_find rx_is_match rx_captures]. destruct (span_while is_ascii_digit h) as [[|x a] b] eqn:E.
  - split; [constructor|]. split; [split; [discriminate|congruence]|constructor].
  - assert (G : forall h a b, span_while is_ascii_digit h = (a, b) -> h = a ++ b).
    { clear. induction h as [|y h IH]; intros a b E; cbn in E; [injection E as <- <-; auto|]. destruct (is_ascii_digit y); [|injection E as <- <-; auto].
      destruct (span_while is_ascii_digit h) as [a1 b1]. injection E as <- <-. cbn. f_equal. auto. }
    apply G in E. assert (U : forall l : list N, length l = units (C:=BC) l) by (induction l as [|y l IH]; [reflexivity|]; cbn; f_equal; exact IH).
    split; [|split; [split; [congruence|reflexivity]|]].
    + apply (@mi_cons BC h 0 (@MkMatch BC (length (x :: a)) (x :: a)) [] [] b); auto; [apply U|constructor].
    + constructor; [exists [None]; reflexivity|constructor].
Qed.
(** The engine sees only the data that has arrived: cutting the input into chunks changes the answer, the parsers do not
    wait even where the match ends with the chunk. *)
Theorem C57_chunks_refuted : honest_regex digits_rx /\
  (exists i', parse (find digits_rx) (@Inp BC [49; 50; 51; 33]%N 0 false) = Done (inl [49; 50; 51]%N, i')) /\
  (exists i' st, parse_with_state (find digits_rx) (@Inp BC [49; 50]%N 0 true) tt = Done (inl [49; 50]%N, i', st)).
Proof. split; [apply digits_honest|]. split; repeat eexists. Qed.
Print Assumptions C57_chunks_refuted.
Example C57_ex : honest_regex digits_rx /\ parse (captures digits_rx) (bin [49; 50; 33]%N) = Done (inl [[49; 50]]%N, @Inp BC [33]%N 2 false).
Proof. split; [apply digits_honest|reflexivity]. Qed.

(** * C44, for the error type of [read::Stream] *)
Lemma re_fold : forall l a, fold_left re_add l a = if existsb re_is_eoi (a :: l) then REEndOfInput else last l a.
Proof.
  induction l as [|b l IH]; intros a; [destruct a; reflexivity|]. cbn [fold_left]. rewrite IH. destruct a; cbn [re_add existsb re_is_eoi orb];
    [destruct b| |destruct b]; cbn [existsb re_is_eoi orb]; try reflexivity; (destruct (existsb re_is_eoi l); [reflexivity|]); destruct l as [|x l]; try reflexivity; rewrite ?last_step; reflexivity.
Qed.
(** Adding errors never forgets that the input ended, and otherwise keeps the last: an I/O error is forgotten. *)
Theorem C44_read_error : forall l a, fold_left re_add l a = REEndOfInput <-> a = REEndOfInput \/ In REEndOfInput l.
Proof.
  intros l a. rewrite re_fold. cbn [existsb]. split.
  - destruct a; auto; cbn [re_is_eoi orb]; (destruct (existsb re_is_eoi l) eqn:E; [intros _; right; apply existsb_exists in E; destruct E as [[] [H1 H2]]; try discriminate; auto|]);
      intros H; right; clear E; revert H; (destruct l as [|y l]; [discriminate|]); intros <-; revert y; (induction l as [|z l IH]; intros y; [left; reflexivity|]; right; apply IH).
  - intros [->|H]; [reflexivity|]. replace (existsb re_is_eoi l) with true; [destruct (re_is_eoi a); reflexivity|]. symmetry. apply existsb_exists. eauto.
Qed.
Print Assumptions C44_read_error.
Theorem C44_read_error_last : forall l a, ~ In REEndOfInput (a :: l) -> fold_left re_add l a = last l a.
Proof.
  intros l a H. rewrite re_fold. destruct (existsb re_is_eoi (a :: l)) eqn:E; auto. apply existsb_exists in E. destruct E as [[] [Hx Hs]]; try discriminate. contradiction.
Qed.
Print Assumptions C44_read_error_last.
Example C44_read_ex : fold_left re_add [REIo; REEndOfInput; REUnexpected] REUnexpected = REEndOfInput /\ fold_left re_add [REUnexpected] REIo = REUnexpected.
Proof. split; reflexivity. Qed.
