(** Properties C21-C24, C47: ranges, searches, numbers, classes. *)
From Coq Require Import String List Bool Arith NArith ZArith Lia.
Import ListNotations.
From Verif Require Import Base Errors Instances Parser Token Combinator Sequence Choice Repeat RangeP ByteP Spec SeqSpec LibSpec RangeSpec
  AgreeSpec RepeatSpec ForwardProofs CombProofs CombProofs2 RepeatProofs RangeProofs RangeProofs2 ByteProofs LawsProofs Properties1 Properties3.
Unset Implicit Arguments.

Local Notation inp := (@Inp BC).
(** [&str] streams: characters of one to four units. *)
Definition SC : Cfg := cfg_easy str_tok 100 true.
Lemma SC_lawful : lawful SC.
Proof. apply lawful_easy. apply str_lawful. Qed.
Definition sin (l : list N) : input SC := @Inp SC l 0 false.

Local Ltac sc := unfold succeeds; match goal with |- _ = ?x => vm_cast_no_check (eq_refl x) end.

(** * C21 *)
Theorem C21_take : forall C, lawful C -> forall n,
  (forall (i : input C) c l i', succeeds (fresh (take n)) i c l i' <-> advanced_by i l i' /\ units l = n /\ c = negb (n =? 0)) /\
  (forall (i : input C) c e, fails_with (fresh (take n)) i c e <->
     (forall l r, rest i = l ++ r -> units l <> n) /\ c = ipart i /\
     e = e_from C (ipos i) (if units (rest i) <? n then se_eoi C else se_boundary C)).
Proof. exact (fun C L n => take_spec L n). Qed.
Print Assumptions C21_take.
(** On slices: the first [n] elements, or failure if there are fewer. *)
Theorem C21_take_slice : forall C, lawful C -> is_slice (C:=C) -> forall n,
  (forall (i : input C) c l i', succeeds (fresh (take n)) i c l i' <-> l = firstn n (rest i) /\ n <= length (rest i) /\ advanced_by i l i' /\ c = negb (n =? 0)) /\
  (forall (i : input C) c, fails (fresh (take n)) i c <-> length (rest i) < n /\ c = ipart i).
Proof.
  intros C L SL n. destruct (take_spec L n) as [H1 H2]. split.
  - intros i c l i'. rewrite H1. rewrite (slice_units SL). split.
    + intros [K1 [K2 K3]]. pose proof K1 as [K _]. rewrite K, firstn_app, app_length. split; [|split; [lia|auto]].
      rewrite <- K2, Nat.sub_diag, firstn_all, firstn_O, app_nil_r. reflexivity.
    + intros [K1 [K2 [K3 K4]]]. split; auto. split; auto. rewrite K1. apply firstn_length_le. auto.
  - intros i c. unfold fails. split.
    + intros [e H]. apply H2 in H. destruct H as [H [-> _]]. split; auto. destruct (Nat.lt_ge_cases (length (rest i)) n) as [K|K]; auto. exfalso.
      apply (H (firstn n (rest i)) (skipn n (rest i))); [symmetry; apply firstn_skipn|]. rewrite (slice_units SL). apply firstn_length_le. auto.
    + intros [K ->]. eexists. apply H2. split; [|split; reflexivity]. intros l r Hr. rewrite (slice_units SL). rewrite Hr, app_length in K. lia.
Qed.
Print Assumptions C21_take_slice.
Theorem C21_range : forall C, lawful C -> forall r,
  (forall (i : input C) c l i', succeeds (fresh (range r)) i c l i' <-> c = true /\ l = r /\ advanced_by i r i') /\
  (forall (i : input C) c, fails (fresh (range r)) i c <->
     (forall s, rest i <> r ++ s) /\
     c = if ipart i then forallb (fun k => negb (units (firstn k (rest i)) =? units r)) (seq 0 (S (length (rest i)))) else false).
Proof. exact (fun C L r => range_spec L r). Qed.
Print Assumptions C21_range.
Theorem C21_take_while : forall C, lawful C -> forall f : tok C -> bool,
  (forall (i : input C) c l i', succeeds (fresh (take_while f)) i c l i' <->
     advanced_by i l i' /\ longest_prefix f (rest i) l (rest i') /\ c = consumed_some l /\ (ipart i = true -> rest i' <> [])) /\
  (forall (i : input C) c e, fails_with (fresh (take_while f)) i c e <->
     ipart i = true /\ Forall (fun t => f t = true) (rest i) /\ c = true /\ e = e_from C (pos_after (ipos i) (rest i)) (se_eoi C)).
Proof. exact (fun C L f => take_while_spec L f). Qed.
Print Assumptions C21_take_while.
Theorem C21_take_while1 : forall C, lawful C -> forall f : tok C -> bool,
  (forall (i : input C) c l i', succeeds (fresh (take_while1 f)) i c l i' <->
     advanced_by i l i' /\ longest_prefix f (rest i) l (rest i') /\ l <> [] /\ c = true /\ (ipart i = true -> rest i' <> [])) /\
  (forall (i : input C) c, fails (fresh (take_while1 f)) i c <->
     if c then ipart i = true /\ Forall (fun t => f t = true) (rest i)
     else (ipart i = false /\ rest i = []) \/ exists t r, rest i = t :: r /\ f t = false).
Proof. exact (fun C L f => take_while1_spec L f). Qed.
Print Assumptions C21_take_while1.
(** [range("")] reports commitment without consuming anything. *)
Example C21_empty_range : succeeds (fresh (range (C:=BC) [])) (bin [1]%N) true [] (bin [1]%N).
Proof. reflexivity. Qed.
Example C21_ex : succeeds (fresh (take (C:=BC) 2)) (bin [1; 2; 3]%N) true [1; 2]%N (inp [3]%N 2 false) /\
  fails (fresh (take (C:=BC) 4)) (bin [1; 2; 3]%N) false /\
  succeeds (fresh (take (C:=SC) 3)) (sin [233; 97; 98]%N) true [233; 97]%N (@Inp SC [98]%N 3 false) /\
  fails_with (fresh (take (C:=SC) 1)) (sin [233; 97; 98]%N) false (MkErrs 0 [EUnexpected (IStatic "unexpected slice on character boundary"%string)]) /\
  succeeds (fresh (take_while1 (C:=BC) (fun t => (t <? 3)%N))) (bin [1; 2; 3]%N) true [1; 2]%N (inp [3]%N 2 false) /\
  succeeds (fresh (range (C:=BC) [1; 2]%N)) (bin [1; 2; 3]%N) true [1; 2]%N (inp [3]%N 2 false).
Proof. split; [sc|split; [failtac|split; [sc|split; [|split; sc]]]].
  exists (PeekErr (to_trk (MkErrs 0 [EUnexpected (IStatic "unexpected slice on character boundary"%string)]))), (sin [233; 97; 98]%N).
  split; [sc|split; reflexivity].
Qed.

(** * C22 *)
Theorem C22_take_until_range : forall C, lawful C -> forall r : list (tok C),
  (forall i c l i', succeeds (fresh (take_until_range r)) i c l i' <->
     advanced_by i l i' /\ (exists a, first_occurrence r (rest i) l a) /\ c = consumed_some l) /\
  (forall i c, fails (fresh (take_until_range r)) i c <-> ~ occurs r (rest i) /\ c = ipart i) /\
  (forall i, fresh (take_until_range r) i <> Panic /\ fresh (take_until_range r) i <> OOF).
Proof. exact (fun C L r => take_until_range_spec L r). Qed.
Print Assumptions C22_take_until_range.
(** A search over a slice of bytes ([code] reads a token as a byte); a search which finds nothing fails committed unless
    the (complete) input is empty. *)
Definition until_set {C} (code : tok C -> N) (p : parser C nat (list (tok C))) (is : N -> Prop) : Prop :=
  (forall i c l i', succeeds (fresh p) i c l i' <->
     advanced_by i l i' /\ (Forall (fun t => ~ is (code t)) l /\ exists t r, rest i' = t :: r /\ is (code t)) /\ c = consumed_some l) /\
  (forall i c, fails (fresh p) i c <-> Forall (fun t => ~ is (code t)) (rest i) /\ c = ipart i || consumed_some (rest i)) /\
  (forall i r i', fresh p i = Done (r, i') -> is_ok r = false -> i' = i).
Lemma until_set_by : forall C, lawful C -> is_slice (C:=C) -> forall (code : tok C -> N) (f : N -> bool) (is : N -> Prop), (forall b, f b = true <-> is b) ->
  until_set code (take_until_byte_by (List.map code) f) is.
Proof.
  intros C L SL code f is Hf. set (p := take_until_byte_by (List.map code) f).
  assert (HF : forall l : list (tok C), Forall (fun t => ~ is (code t)) l <-> Forall (fun t => f (code t) = false) l).
  { intros l. rewrite !Forall_forall. split; intros H x Hx; specialize (H x Hx); rewrite <- Hf in *; destruct (f (code x)); congruence. }
  destruct (take_fn_spec L SL _ _ (byte_searches code f)) as [H1 [H2 H3]]. split; [|split].
  - intros i c l i'. etransitivity; [apply H1|]. rewrite HF. setoid_rewrite <- Hf. reflexivity.
  - intros i c. rewrite HF. change (fails (fresh p) i c) with (fails (fresh (take_fn (fun haystack : list (tok C) => match find_index f (List.map code haystack) with Some i => Found i | None => NotFound (length (List.map code haystack)) end))) i c).
    rewrite H2. split; intros [K ->]; split; auto.
    + destruct (find_index f (List.map code (rest i))) as [k|] eqn:Hk.
      * exfalso. destruct (proj1 (byte_searches code f) (rest i)) as [[b [a [L1 [L2 _]]]]|[_ [n L2]]]; [eapply K; eauto|]. cbv beta in L2. rewrite Hk in L2. discriminate.
      * apply find_index_none in Hk. apply (proj1 (Forall_map code (fun x => f x = false) (rest i))) in Hk. exact Hk.
    + intros b a Hr [_ [t [r [-> Ht]]]]. rewrite Hr in K. apply Forall_app in K. destruct K as [_ K]. inversion K; congruence.
  - exact H3.
Qed.
Theorem C22_take_until_byte : forall C, lawful C -> is_slice (C:=C) -> forall (code : tok C -> N) x y z,
  until_set code (take_until_byte (List.map code) x) (fun b => b = x) /\
  until_set code (take_until_byte2 (List.map code) x y) (fun b => b = x \/ b = y) /\
  until_set code (take_until_byte3 (List.map code) x y z) (fun b => b = x \/ b = y \/ b = z).
Proof.
  intros C L SL code x y z.
  split; [|split]; apply until_set_by; auto; intros b; rewrite ?orb_true_iff, !N.eqb_eq; intuition congruence.
Qed.
Print Assumptions C22_take_until_byte.
Theorem C22_take_until_bytes : forall C, lawful C -> is_slice (C:=C) -> forall (code : tok C -> N) (needle : list N),
  let p := take_until_bytes (List.map code) needle in
  (forall i c l i', succeeds (fresh p) i c l i' <->
     advanced_by i l i' /\ (exists a, first_occurrence needle (List.map code (rest i)) (List.map code l) a) /\ c = consumed_some l) /\
  (forall i c, fails (fresh p) i c <-> ~ occurs needle (List.map code (rest i)) /\ c = ipart i || consumed_some (rest i)) /\
  (forall i r i', fresh p i = Done (r, i') -> is_ok r = false -> i' = i).
Proof.
  intros C L SL code needle p. destruct (take_fn_spec L SL _ _ (bytes_searches code needle)) as [H1 [H2 H3]]. split; [|split].
  - intros i c l i'. etransitivity; [apply H1|]. split.
    + intros [K1 [K2 K3]]. split; auto. split; auto. destruct K1 as [-> _]. exact K2.
    + intros [K1 [K2 K3]]. split; auto. split; auto. destruct K1 as [<- _]. exact K2.
  - intros i c. etransitivity; [apply H2|]. split; intros [K ->]; split; auto.
    + destruct (memslice N.eqb needle (List.map code (rest i))) as [k|] eqn:Hf; [|apply memslice_none; auto]. exfalso.
      destruct (proj1 (bytes_searches code needle) (rest i)) as [[b [a [L1 [L2 _]]]]|[_ [n L2]]]; [eapply K; eauto|]. cbv beta in L2. rewrite Hf in L2. discriminate.
    + intros b a Hr [a' [Ka _]]. apply K. rewrite Hr. exists (List.map code b), a'. exact Ka.
  - exact H3.
Qed.
Print Assumptions C22_take_until_bytes.
Example C22_ex_slice : lawful BC /\ is_slice (C:=BC).
Proof. split; [exact BC_lawful|]. intros t. reflexivity. Qed.
Example C22_ex : succeeds (fresh (take_until_range (C:=BC) [1; 2]%N)) (bin [1; 1; 2; 1; 2]%N) true [1]%N (inp [1; 2; 1; 2]%N 1 false) /\
  succeeds (fresh (take_until_bytes (C:=BC) (List.map (fun x => x)) [1; 2]%N)) (bin [1; 1; 2; 1; 2]%N) true [1]%N (inp [1; 2; 1; 2]%N 1 false) /\
  succeeds (fresh (take_until_byte2 (C:=BC) (List.map (fun x => x)) 2 3)%N) (bin [1; 1; 3; 2]%N) true [1; 1]%N (inp [3; 2]%N 2 false) /\
  fails (fresh (take_until_range (C:=BC) [1; 2]%N)) (bin [1; 1]%N) false /\
  fails (fresh (take_until_bytes (C:=BC) (List.map (fun x => x)) [1; 2]%N)) (bin [1; 1]%N) true.
Proof. repeat split; failtac. Qed.

(** * C23 *)
Theorem C23_numbers : forall C (code : tok C -> N) A k (decode : list N -> A),
  (forall (i : input C) c v i', succeeds (fresh (num_parser code k decode)) i c v i' <->
     exists l, length l = k /\ advanced_by i l i' /\ v = decode (List.map code l) /\ c = true) /\
  (forall (i : input C) c e, fails_with (fresh (num_parser code k decode)) i c e <->
     length (rest i) < k /\ c = ipart i /\ e = e_from C (pos_after (ipos i) (rest i)) (se_eoi C)) /\
  (forall (i : input C) r i', fresh (num_parser code k decode) i = Done (r, i') -> is_ok r = false -> i' = i).
Proof. exact (fun C code A k decode => num_parser_spec code k decode). Qed.
Print Assumptions C23_numbers.
(** Unsigned numbers: the value is below [256 ^ k] and its digits in base 256 are the bytes read. *)
Theorem C23_unsigned : forall C (code : tok C -> N) k (i : input C) c v i', (forall t, (code t < 256)%N) ->
  (succeeds (fresh (be_u code k)) i c v i' <->
   c = true /\ (v < 256 ^ N.of_nat k)%N /\ exists l, advanced_by i l i' /\ List.map code l = be_digits k v) /\
  (succeeds (fresh (le_u code k)) i c v i' <->
   c = true /\ (v < 256 ^ N.of_nat k)%N /\ exists l, advanced_by i l i' /\ List.map code l = rev (be_digits k v)).
Proof.
  intros C code k i c v i' Hc.
  assert (Hok : forall l, bytes_ok (List.map code l)) by (intros l; apply Forall_map; apply Forall_forall; auto).
  split; (etransitivity; [apply num_parser_spec|]); split.
  - intros [l [H1 [H2 [-> ->]]]]. split; auto. subst k. rewrite <- (map_length code). split; [apply be_value_bound; auto|]. exists l. split; auto.
    symmetry. apply be_digits_value. auto.
  - intros [-> [Hv [l [H1 H2]]]]. exists l. split; [rewrite <- (map_length code), H2; apply be_digits_length|]. split; auto. split; auto. rewrite H2. symmetry. apply be_value_digits. auto.
  - intros [l [H1 [H2 [-> ->]]]]. split; auto. subst k. rewrite <- (map_length code). split; [apply le_value_bound; auto|]. exists l. split; auto.
    symmetry. apply le_digits_value. auto.
  - intros [-> [Hv [l [H1 H2]]]]. exists l. split; [rewrite <- (map_length code), H2, rev_length; apply be_digits_length|]. split; auto. split; auto. rewrite H2. symmetry. apply le_value_digits. auto.
Qed.
Print Assumptions C23_unsigned.
(** Signed numbers: the unsigned value modulo [2 ^ (8 k)] in the signed range. *)
Theorem C23_signed : forall C (code : tok C -> N) k (i : input C) c z i', (forall t, (code t < 256)%N) ->
  (succeeds (fresh (be_i code k)) i c z i' <->
   (- 2 ^ (8 * Z.of_nat k) <= 2 * z < 2 ^ (8 * Z.of_nat k))%Z /\
   exists v, succeeds (fresh (be_u code k)) i c v i' /\ (z mod 2 ^ (8 * Z.of_nat k) = Z.of_N v)%Z) /\
  (succeeds (fresh (le_i code k)) i c z i' <->
   (- 2 ^ (8 * Z.of_nat k) <= 2 * z < 2 ^ (8 * Z.of_nat k))%Z /\
   exists v, succeeds (fresh (le_u code k)) i c v i' /\ (z mod 2 ^ (8 * Z.of_nat k) = Z.of_N v)%Z).
Proof.
  intros C code k i c z i' Hc.
  assert (Hok : forall l, bytes_ok (List.map code l)) by (intros l; apply Forall_map; apply Forall_forall; auto).
  assert (Hz : forall v z, (v < 256 ^ N.of_nat k)%N -> (- 2 ^ (8 * Z.of_nat k) <= 2 * z < 2 ^ (8 * Z.of_nat k))%Z -> (z mod 2 ^ (8 * Z.of_nat k) = Z.of_N v)%Z -> z = signed_value k v).
  { intros v z0 Hv H1 H2. destruct (signed_value_spec k v Hv) as [K1 K2]. set (m := (2 ^ (8 * Z.of_nat k))%Z) in *. assert (Hm : (m > 0)%Z) by (unfold m; apply Z.lt_gt, Z.pow_pos_nonneg; lia).
    rewrite <- K2 in H2. generalize dependent (signed_value k v). clear - H1 Hm. intros s H2 K1 K2.
    pose proof (Z.div_mod z0 m ltac:(lia)) as E1. pose proof (Z.div_mod s m ltac:(lia)) as E2. rewrite H2 in E1.
    set (r := (s mod m)%Z) in *. set (q0 := (z0 / m)%Z) in *. set (q1 := (s / m)%Z) in *. clearbody r q0 q1.
    assert (Hq : q0 = q1); [|congruence]. assert (Hd : (z0 - s = m * (q0 - q1))%Z) by (rewrite E1, E2; ring).
    destruct (Z.lt_trichotomy (q0 - q1) 0) as [K|[K|K]]; [|lia|]; exfalso.
    - assert (m * (q0 - q1) <= m * -1)%Z by (apply Z.mul_le_mono_nonneg_l; lia). lia.
    - assert (m * 1 <= m * (q0 - q1))%Z by (apply Z.mul_le_mono_nonneg_l; lia). lia. }
  split; split.
  - intros H. apply (proj1 (num_parser_spec code k _)) in H. destruct H as [l [H1 [H2 [-> ->]]]]. subst k. rewrite <- (map_length code).
    destruct (signed_value_spec (length (List.map code l)) (be_value (List.map code l)) (be_value_bound _ (Hok l))) as [K1 K2]. split; auto.
    eexists. split; [|exact K2]. apply num_parser_spec. exists l. rewrite map_length. auto.
  - intros [H1 [v [H2 H3]]]. apply (proj1 (num_parser_spec code k _)) in H2. destruct H2 as [l [K1 [K2 [-> ->]]]]. apply num_parser_spec. exists l. split; auto. split; auto. split; auto.
    apply Hz; auto. rewrite <- K1, <- (map_length code). apply be_value_bound. auto.
  - intros H. apply (proj1 (num_parser_spec code k _)) in H. destruct H as [l [H1 [H2 [-> ->]]]]. subst k. rewrite <- (map_length code).
    destruct (signed_value_spec (length (List.map code l)) (le_value (List.map code l)) (le_value_bound _ (Hok l))) as [K1 K2]. split; auto.
    eexists. split; [|exact K2]. apply num_parser_spec. exists l. rewrite map_length. auto.
  - intros [H1 [v [H2 H3]]]. apply (proj1 (num_parser_spec code k _)) in H2. destruct H2 as [l [K1 [K2 [-> ->]]]]. apply num_parser_spec. exists l. split; auto. split; auto. split; auto.
    apply Hz; auto. rewrite <- K1, <- (map_length code). apply le_value_bound. auto.
Qed.
Print Assumptions C23_signed.
Example C23_ex : succeeds (fresh (be_u (C:=BC) (fun x => x) 4)) (bin [1; 2; 3; 4; 9]%N) true 16909060%N (inp [9]%N 4 false) /\
  succeeds (fresh (le_u (C:=BC) (fun x => x) 2)) (bin [1; 2; 9]%N) true 513%N (inp [9]%N 2 false) /\
  succeeds (fresh (be_i (C:=BC) (fun x => x) 2)) (bin [255; 254]%N) true (-2)%Z (inp [] 2 false) /\
  succeeds (fresh (le_i (C:=BC) (fun x => x) 2)) (bin [0; 128]%N) true (-32768)%Z (inp [] 2 false) /\
  fails (fresh (be_u (C:=BC) (fun x => x) 4)) (bin [1; 2; 3]%N) false.
Proof. repeat split; failtac. Qed.

(** * C24 *)
Local Ltac cls := apply class_ok; [vm_compute; reflexivity| |vm_compute; reflexivity]; intros ? ?;
  unfold is_ascii_hexdigit, is_ascii_alphanumeric, is_ascii_alphabetic, is_ascii_digit, is_ascii_uppercase, is_ascii_lowercase, is_ascii_whitespace, char_is_digit, char_to_digit;
  repeat rewrite in_range_false by lia; auto; repeat (rewrite (proj2 (N.eqb_neq _ _)) by lia); auto.
Definition digits : list N := chars "0123456789".
Definition uppers : list N := chars "ABCDEFGHIJKLMNOPQRSTUVWXYZ".
Definition lowers : list N := chars "abcdefghijklmnopqrstuvwxyz".
Definition accepts {C} (code : tok C -> N) (p : parser C unit (tok C)) (set : list N) : Prop :=
  (forall i c v i', succeeds (fresh p) i c v i' <-> c = true /\ advanced_by i [v] i' /\ In (code v) set) /\
  (forall i, ipart i = false -> (forall t r, rest i = t :: r -> ~ In (code t) set) -> fails (fresh p) i false).
Lemma class_accepts {C} (code : tok C -> N) f name set : (forall b, f b = true <-> In b set) -> accepts code (byte_class code f name) set.
Proof.
  intros H. split.
  - intros i c v i'. rewrite byte_class_succeeds, H. tauto.
  - intros i Hp Hn. destruct (byte_class_single code f name true i tt) as [_ [H2 [H3 _]]]. unfold fails, fails_with, fresh. change (p_init (byte_class code f name)) with tt. destruct (rest i) as [|t r] eqn:Hr.
    + rewrite (H3 eq_refl Hp). do 3 eexists. split; [reflexivity|split; reflexivity].
    + destruct (H2 t r eq_refl) as [j K]; [intros v [_ K]; apply H in K; eapply Hn; eauto|]. rewrite K. do 3 eexists. split; [reflexivity|split; reflexivity].
Qed.
Theorem C24_classes : forall C (code : tok C -> N),
  accepts code (b_digit code) digits /\ accepts code (b_space code) [32; 9; 10; 12; 13]%N /\ accepts code (b_newline code) [10]%N /\
  accepts code (b_tab code) [9]%N /\ accepts code (b_upper code) uppers /\ accepts code (b_lower code) lowers /\
  accepts code (b_letter code) (uppers ++ lowers) /\ accepts code (b_alpha_num code) (uppers ++ lowers ++ digits) /\
  accepts code (b_oct_digit code) (chars "01234567") /\ accepts code (b_hex_digit code) (digits ++ chars "ABCDEFabcdef").
Proof. intros C code. repeat (apply conj; [apply class_accepts; cls|]). apply class_accepts; cls. Qed.
Print Assumptions C24_classes.
Theorem C24_char_classes : forall C (code : tok C -> N),
  accepts code (byte_class code (char_is_digit 10) "digit") digits /\ accepts code (c_oct_digit code) (chars "01234567") /\
  accepts code (c_hex_digit code) (digits ++ chars "ABCDEFabcdef").
Proof. intros C code. repeat (apply conj; [apply class_accepts; cls|]). apply class_accepts; cls. Qed.
Print Assumptions C24_char_classes.
Theorem C24_crlf : forall C (code : tok C -> N) i c v i', succeeds (fresh (b_crlf code)) i c v i' <->
  exists t, advanced_by i [t; v] i' /\ code t = 13%N /\ code v = 10%N /\ c = true.
Proof. exact (fun C code => crlf_spec code). Qed.
Print Assumptions C24_crlf.
Theorem C24_inclusions : forall b,
  (In b [10]%N \/ In b [9]%N -> is_ascii_whitespace b = true) /\ (In b digits -> is_ascii_hexdigit b = true) /\
  (In b (chars "01234567") -> In b digits) /\ (In b uppers \/ In b lowers <-> is_ascii_alphabetic b = true) /\ (is_ascii_hexdigit b = true -> is_ascii_alphanumeric b = true).
Proof.
  intros b. assert (Hw : is_ascii_whitespace b = true <-> In b [32; 9; 10; 12; 13]%N) by cls.
  assert (Hh : is_ascii_hexdigit b = true <-> In b (digits ++ chars "ABCDEFabcdef")) by cls.
  assert (Ha : is_ascii_alphabetic b = true <-> In b (uppers ++ lowers)) by cls.
  assert (Hn : is_ascii_alphanumeric b = true <-> In b (uppers ++ lowers ++ digits)) by cls.
  rewrite Hw, Hh, Ha, Hn. split; [cbn; tauto|]. split; [intros; apply in_or_app; auto|]. split; [intros H; repeat (destruct H as [<-|H]; [cbn; tauto|]); destruct H|].
  split; [rewrite in_app_iff; tauto|]. intros H. rewrite !in_app_iff in *. destruct H as [H|H]; [auto|]. cbn [chars In Ascii.N_of_ascii] in H.
  repeat (destruct H as [<-|H]; [vm_compute; tauto|]). destruct H.
Qed.
Print Assumptions C24_inclusions.
Example C24_ex : succeeds (fresh (b_hex_digit (C:=BC) (fun x => x))) (bin [70; 71]%N) true 70%N (inp [71]%N 1 false) /\
  fails (fresh (b_hex_digit (C:=BC) (fun x => x))) (bin [71]%N) false /\
  succeeds (fresh (b_crlf (C:=BC) (fun x => x))) (bin [13; 10; 7]%N) true 10%N (inp [7]%N 2 false).
Proof. repeat split; failtac. Qed.

(** * C47 *)
Theorem C47_length_prefix : forall C, lawful C -> forall S A (len : parser C S A) (to_usize : A -> nat + SErr C),
  (forall i c l i', succeeds (fresh (length_prefix len to_usize)) i c l i' <->
     exists c1 a i1, succeeds (fresh len) i c1 a i1 /\ to_usize a = inl (units l) /\ advanced_by i1 l i' /\ c = c1 || negb (units l =? 0)) /\
  (forall i c, fails (fresh (length_prefix len to_usize)) i c <->
     fails (fresh len) i c \/
     (exists c1 a i1 se, succeeds (fresh len) i c1 a i1 /\ to_usize a = inr se /\ c = c1 || (ipart i1 && negb (consumed_some (rest i1)))) \/
     (exists c1 a i1 n, succeeds (fresh len) i c1 a i1 /\ to_usize a = inl n /\ (forall l r, rest i1 = l ++ r -> units l <> n) /\ c = c1 || ipart i1)).
Proof. exact (fun C L S A len f => length_prefix_spec L len f). Qed.
Print Assumptions C47_length_prefix.
Definition c47_p := length_prefix (C:=BC) (be_u (C:=BC) (fun x => x) 2) (fun n => if (n <? 1000)%N then inl (N.to_nat n) else inr (EMessage (IStatic "too long"%string))).
Example C47_ex : succeeds (fresh c47_p) (bin [0; 2; 7; 8; 9]%N) true [7; 8]%N (inp [9]%N 4 false) /\
  fails (fresh c47_p) (bin [0; 3; 7; 8]%N) true /\ fails (fresh c47_p) (bin [200; 0; 7; 8]%N) true /\ fails (fresh c47_p) (bin [200]%N) false.
Proof. repeat split; failtac. Qed.
