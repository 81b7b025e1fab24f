(** Proofs about slices, strings and positions. *)
From Coq Require Import String List Bool Arith NArith ZArith Lia ZifyN.
Import ListNotations.
From Verif Require Import Base StreamM StreamSpec.
Unset Implicit Arguments.

(** * Slices *)
Section Slice.
Context {T X : Type}.
Variable debug : bool.
Variable f : fnmut X T.

Lemma scans_total x l : exists a b x', scans f x l a b x'.
Proof.
  revert x. induction l as [|t l IH]; intros x; [repeat econstructor|].
  destruct (f x t) as [[|] x'] eqn:Hf; [|repeat econstructor; eauto].
  destruct (IH x') as [a [b [x2 H]]]. exists (t :: a), b, x2. econstructor; eauto.
Qed.
Lemma scans_det x l a b x' a2 b2 x2 : scans f x l a b x' -> scans f x l a2 b2 x2 -> a = a2 /\ b = b2 /\ x' = x2.
Proof.
  intros H. revert a2 b2 x2. induction H; intros a2 b2 xx H2; inversion H2; subst; auto; try congruence.
  - split; auto. split; auto. congruence.
  - rewrite H in H5. injection H5 as <-. destruct (IHscans _ _ _ H9) as [-> [-> ->]]. auto.
Qed.
Lemma scans_app x l a b x' : scans f x l a b x' -> l = a ++ b.
Proof. induction 1; cbn; congruence. Qed.

Lemma nth_here (pre : list T) t r : nth_error (pre ++ t :: r) (length pre) = Some t.
Proof. rewrite nth_error_app2, Nat.sub_diag by lia. reflexivity. Qed.

(** [checks] from the index after [pre], with [n] elements available. *)
Lemma checks_spec n : forall pre l x, n <= length l ->
  exists found a x', checks f n (pre ++ l) (length pre) x = Done (found, length pre + length a, x') /\
    (if (found : bool) then exists b, scans f x l a b x'
     else length a = n /\ exists r, l = a ++ r /\ forall c d y, scans f x' r c d y -> scans f x l (a ++ c) d y).
Proof.
  induction n as [|n IH]; intros pre l x Hn.
  - exists false, [], x. cbn. rewrite Nat.add_0_r. split; auto. split; auto. exists l. auto.
  - destruct l as [|t l]; [cbn in Hn; lia|]. cbn [checks]. unfold check. rewrite nth_here. destruct (f x t) as [[|] x1] eqn:Hf; cbn [obind].
    + destruct (IH (pre ++ [t]) l x1) as [found [a [x' [H1 H2]]]]; [cbn in Hn; lia|].
      rewrite <- app_assoc, app_length in H1. cbn [app length] in H1. rewrite Nat.add_1_r in H1. rewrite H1.
      exists found, (t :: a), x'. cbn [length]. rewrite Nat.add_succ_r. split; auto. destruct found.
      * destruct H2 as [b H2]. exists b. econstructor; eauto.
      * destruct H2 as [H2 [r [-> H3]]]. split; [congruence|]. exists r. split; auto. intros c d y H. cbn. econstructor; eauto.
    + exists true, [], x1. cbn. rewrite Nat.add_0_r. split; auto. exists (t :: l). constructor. auto.
Qed.
Lemma tail_loop_spec fl : forall pre l x a b x', length l < fl -> scans f x l a b x' ->
  tail_loop f fl (pre ++ l) (length pre) x = Done (length pre + length a, x').
Proof.
  induction fl as [|fl IH]; intros pre l x a b x' Hl H; [lia|]. cbn [tail_loop]. inversion H; subst.
  - rewrite app_nil_r, (proj2 (nth_error_None pre (length pre))) by lia. cbn. rewrite Nat.add_0_r. reflexivity.
  - rewrite nth_here, H0. cbn. rewrite Nat.add_0_r. reflexivity.
  - rewrite nth_here, H0. cbn in Hl. specialize (IH (pre ++ [t]) r x'0 a0 b x' ltac:(lia) H1).
    rewrite <- app_assoc, app_length in IH. cbn [app length] in IH. rewrite Nat.add_1_r in IH. rewrite IH. cbn [length]. rewrite Nat.add_succ_r. reflexivity.
Qed.
Lemma while8_spec fl : forall pre l x a b x', length l < fl -> scans f x l a b x' ->
  exists found k x1, while8 f fl (pre ++ l) (length pre) x = Done (found, length pre + k, x1) /\
    (if (found : bool) then k = length a /\ x1 = x'
     else exists a0 a1 r, a = a0 ++ a1 /\ l = a0 ++ r /\ k = length a0 /\ scans f x1 r a1 b x').
Proof.
  induction fl as [|fl IH]; intros pre l x a b x' Hl H; [lia|]. cbn [while8]. rewrite app_length.
  rewrite (proj2 (Nat.ltb_ge _ _)) by lia. replace (length pre + length l - length pre) with (length l) by lia.
  destruct (8 <=? length l) eqn:H8.
  - apply Nat.leb_le in H8. destruct (checks_spec 8 pre l x H8) as [found [a0 [x1 [H1 H2]]]]. rewrite H1. cbn [obind]. destruct found.
    + destruct H2 as [b0 H2]. exists true, (length a0), x1. split; auto. destruct (scans_det _ _ _ _ _ _ _ _ H H2) as [-> [_ ->]]. auto.
    + destruct H2 as [H2 [r [-> H3]]]. destruct (scans_total x1 r) as [c [d [y Hc]]]. destruct (scans_det _ _ _ _ _ _ _ _ H (H3 _ _ _ Hc)) as [-> [-> ->]].
      destruct (IH (pre ++ a0) r x1 c d y) as [found [k [x2 [K1 K2]]]]; auto; [rewrite app_length in Hl; lia|].
      rewrite <- app_assoc, app_length in K1. rewrite K1. exists found, (length a0 + k), x2. rewrite Nat.add_assoc. split; auto. destruct found.
      * destruct K2 as [-> ->]. rewrite app_length. auto.
      * destruct K2 as [a1 [a2 [r2 [-> [-> [-> K2]]]]]]. exists (a0 ++ a1), a2, r2. rewrite !app_assoc, app_length. auto.
  - exists false, 0, x. rewrite Nat.add_0_r. split; auto. exists [], a, l. auto.
Qed.
Lemma split_at_app (a b : list T) : split_at (a ++ b) (length a) = Done (a, b).
Proof. unfold split_at. rewrite app_length, (proj2 (Nat.leb_le _ _)) by lia. rewrite firstn_app, firstn_all, skipn_app, skipn_all, Nat.sub_diag, firstn_O, app_nil_r. reflexivity. Qed.

Lemma slice_uncons_while_spec pre l x a b x' : length pre <= 1 -> scans f x l a b x' ->
  slice_uncons_while debug f (length pre) (pre ++ l) x = Done (pre ++ a, b, x').
Proof.
  intros _ H. unfold slice_uncons_while. rewrite app_length. rewrite (proj2 (Nat.ltb_ge _ _)), andb_false_r by lia.
  destruct (while8_spec (S (length pre + length l)) pre l x a b x') as [found [k [x1 [H1 H2]]]]; auto; [lia|]. rewrite H1. cbn [obind].
  pose proof (scans_app _ _ _ _ _ H) as Hl. destruct found.
  - destruct H2 as [-> ->]. cbn [obind]. rewrite Hl, app_assoc. rewrite <- app_length. rewrite split_at_app. reflexivity.
  - destruct H2 as [a0 [a1 [r [-> [Hr [-> H2]]]]]]. pose proof (tail_loop_spec (S (length pre + length l)) (pre ++ a0) r x1 a1 b x') as H3.
    rewrite <- app_assoc, app_length in H3. rewrite Hr at 2. rewrite H3; auto; [|rewrite Hr, app_length; lia]. cbn [obind].
    rewrite Hl, !app_assoc. rewrite <- !app_length. rewrite split_at_app. reflexivity.
Qed.
End Slice.

Lemma sl_range_spec {T} n (l : list T) :
  sl_uncons_range n l = Done (if n <=? length l then (inl (firstn n l), skipn n l) else (inr SeEoi, l)).
Proof. unfold sl_uncons_range, split_at. destruct (n <=? length l); reflexivity. Qed.

(** * UTF-8 *)
Lemma encode_length c : length (encode c) = len_utf8 c.
Proof. unfold encode, len_utf8. destruct (c <? 128)%N; auto. destruct (c <? 2048)%N; auto. destruct (c <? 65536)%N; auto. Qed.
Lemma len_utf8_pos c : 0 < len_utf8 c.
Proof. unfold len_utf8. destruct (c <? 128)%N; [lia|]. destruct (c <? 2048)%N; [lia|]. destruct (c <? 65536)%N; lia. Qed.
Definition lead (b : N) : Prop := (b < 128 \/ 194 <= b <= 244)%N.
Definition cont (b : N) : Prop := (128 <= b <= 191)%N.
Ltac Zify.zify_post_hook ::= Z.to_euclidean_division_equations.
Lemma is_char_bound c : is_char c = true -> (c < 1114112)%N.
Proof. unfold is_char. rewrite orb_true_iff, andb_true_iff, !N.ltb_lt, N.leb_le. lia. Qed.
Lemma encode_shape c : is_char c = true -> exists b bs, encode c = b :: bs /\ lead b /\ Forall cont bs.
Proof.
  intros H. apply is_char_bound in H. unfold encode, lead, cont.
  destruct (N.ltb_spec c 128); [exists c, []; split; auto; split; auto; lia|].
  destruct (N.ltb_spec c 2048); [eexists _, _; split; [reflexivity|]; split; [lia|repeat (apply Forall_cons; [cbv beta; lia|]); apply Forall_nil]|].
  destruct (N.ltb_spec c 65536); eexists _, _; (split; [reflexivity|]; split; [lia|repeat (apply Forall_cons; [cbv beta; lia|]); apply Forall_nil]).
Qed.
Lemma chars_next_encode c r : is_char c = true -> chars_next (encode c ++ r) = Done (Some c, r).
Proof.
  intros H. apply is_char_bound in H. unfold encode.
  destruct (N.ltb_spec c 128); [cbn [app chars_next]; rewrite (proj2 (N.ltb_lt _ _)) by lia; reflexivity|].
  destruct (N.ltb_spec c 2048).
  { cbn [app chars_next]. rewrite (proj2 (N.ltb_ge (192 + c / 64) 128)) by lia. rewrite (proj2 (N.ltb_lt (192 + c / 64) 224)) by lia. do 3 f_equal. lia. }
  destruct (N.ltb_spec c 65536).
  { cbn [app chars_next]. rewrite (proj2 (N.ltb_ge (224 + c / 4096) 128)) by lia. rewrite (proj2 (N.ltb_ge (224 + c / 4096) 224)) by lia.
    rewrite (proj2 (N.ltb_lt (224 + c / 4096) 240)) by lia. do 3 f_equal. lia. }
  cbn [app chars_next]. rewrite (proj2 (N.ltb_ge (240 + c / 262144) 128)) by lia. rewrite (proj2 (N.ltb_ge (240 + c / 262144) 224)) by lia.
  rewrite (proj2 (N.ltb_ge (240 + c / 262144) 240)) by lia. do 3 f_equal.
  assert (E1 : ((240 + c / 262144) mod 32 mod 8 = c / 262144)%N) by lia. rewrite E1.
  assert (E2 : ((128 + c / 4096 mod 64) mod 64 = c / 4096 mod 64)%N) by lia. rewrite E2.
  assert (E3 : ((128 + c / 64 mod 64) mod 64 = c / 64 mod 64)%N) by lia. rewrite E3.
  assert (E4 : ((128 + c mod 64) mod 64 = c mod 64)%N) by lia. rewrite E4.
  lia.
Qed.
Ltac Zify.zify_post_hook ::= idtac.
Lemma encode_all_cons c r : encode_all (c :: r) = encode c ++ encode_all r.
Proof. reflexivity. Qed.
Lemma encode_all_app a b : encode_all (a ++ b) = encode_all a ++ encode_all b.
Proof. unfold encode_all. rewrite map_app, concat_app. reflexivity. Qed.
Lemma text_app a b : text (a ++ b) <-> text a /\ text b.
Proof. apply Forall_app. Qed.
Lemma chars_next_text cs : text cs ->
  chars_next (encode_all cs) = Done (match cs with [] => (None, []) | c :: r => (Some c, encode_all r) end).
Proof. intros H. destruct cs as [|c r]; [reflexivity|]. inversion H; subst. rewrite encode_all_cons. apply chars_next_encode. auto. Qed.
Lemma encode_all_length_ge cs : length cs <= length (encode_all cs).
Proof. induction cs as [|c cs IH]; [reflexivity|]. rewrite encode_all_cons, app_length, encode_length. pose proof (len_utf8_pos c). cbn [length]. lia. Qed.

(** A byte offset is at a character iff both boundary tests say so. *)
Definition at_char (cs : list N) (n : nat) : Prop := exists a b, cs = a ++ b /\ length (encode_all a) = n.
Lemma at_char_cons c cs n : at_char (c :: cs) n <-> n = 0 \/ (len_utf8 c <= n /\ at_char cs (n - len_utf8 c)).
Proof.
  split.
  - intros [[|x a] [b [H1 H2]]]; [left; auto|right]. injection H1 as <- ->. rewrite encode_all_cons, app_length, encode_length in H2. split; [lia|].
    exists a, b. split; auto. lia.
  - intros [->|[H [a [b [-> H2]]]]]; [exists [], (c :: cs); auto|]. exists (c :: a), b. split; auto. rewrite encode_all_cons, app_length, encode_length. lia.
Qed.
Lemma boundary_iff cs : text cs -> forall n, n <= length (encode_all cs) ->
  (is_char_boundary (encode_all cs) n = true <-> at_char cs n) /\ (std_boundary (encode_all cs) n = true <-> at_char cs n).
Proof.
  induction cs as [|c cs IH]; intros Ht n Hn.
  - cbn in Hn. replace n with 0 by lia. split; (split; [intros _; exists [], []; auto|reflexivity]).
  - rewrite at_char_cons. inversion Ht; subst. rewrite encode_all_cons in *. rewrite app_length, encode_length in Hn.
    destruct (Nat.lt_ge_cases n (len_utf8 c)) as [Hc|Hc].
    + assert (Hlen : length (encode c ++ encode_all cs) = len_utf8 c + length (encode_all cs)) by (rewrite app_length, encode_length; auto).
      destruct (encode_shape c H1) as [b [bs [Hb [Hl Hcont]]]]. unfold is_char_boundary, std_boundary. rewrite Hlen, (proj2 (Nat.eqb_neq n (len_utf8 c + length (encode_all cs)))) by lia.
      rewrite nth_error_app1 by (rewrite encode_length; auto). rewrite Hb. destruct n as [|n].
      * cbn [nth_error Nat.eqb orb]. split; (split; [auto|]); auto. intros _. destruct Hl as [Hl|Hl]; [rewrite (proj2 (N.leb_gt 128 b)) by lia|rewrite (proj2 (N.leb_gt b 192)), andb_false_r by lia]; reflexivity.
      * cbn [nth_error Nat.eqb orb]. assert (Hn' : n < length bs) by (rewrite <- encode_length, Hb in Hc; cbn in Hc; lia).
        apply nth_error_Some in Hn'. destruct (nth_error bs n) as [y|] eqn:Hy; [|congruence]. apply nth_error_In in Hy. rewrite Forall_forall in Hcont. specialize (Hcont y Hy). unfold cont in Hcont.
        rewrite (proj2 (N.leb_le 128 y)), (proj2 (N.leb_le y 192)), (proj2 (N.ltb_ge y 128)), (proj2 (N.leb_gt 192 y)) by lia. cbn. split; (split; [discriminate|]); (intros [K|[K _]]; [discriminate|lia]).
    + destruct (IH H2 (n - len_utf8 c) ltac:(lia)) as [IH1 IH2]. pose proof (len_utf8_pos c) as Hp.
      assert (E1 : is_char_boundary (encode c ++ encode_all cs) n = is_char_boundary (encode_all cs) (n - len_utf8 c)).
      { unfold is_char_boundary. rewrite app_length, encode_length. rewrite nth_error_app2 by (rewrite encode_length; auto). rewrite encode_length.
        replace (n - len_utf8 c =? length (encode_all cs)) with (n =? len_utf8 c + length (encode_all cs)); [reflexivity|].
        destruct (Nat.eqb_spec n (len_utf8 c + length (encode_all cs))), (Nat.eqb_spec (n - len_utf8 c) (length (encode_all cs))); auto; lia. }
      assert (E2 : std_boundary (encode c ++ encode_all cs) n = true <-> std_boundary (encode_all cs) (n - len_utf8 c) = true).
      { unfold std_boundary. rewrite app_length, encode_length. rewrite nth_error_app2 by (rewrite encode_length; auto). rewrite encode_length.
        rewrite (proj2 (Nat.eqb_neq n 0)) by lia. cbn [orb]. destruct (Nat.eqb_spec (n - len_utf8 c) 0) as [E|E]; cbn [orb].
        - rewrite E. replace n with (len_utf8 c) by lia. split; auto. intros _. destruct cs as [|d cs]; [cbn; rewrite Nat.add_0_r; apply Nat.eqb_refl|].
          rewrite encode_all_cons. inversion H2; subst. destruct (encode_shape d H3) as [b [bs [Hb [Hl _]]]]. rewrite Hb. cbn [app nth_error].
          destruct Hl as [Hl|Hl]; [rewrite (proj2 (N.ltb_lt b 128)) by lia|rewrite (proj2 (N.leb_le 192 b)), orb_true_r by lia]; reflexivity.
        - destruct (nth_error (encode_all cs) (n - len_utf8 c)); [reflexivity|]. rewrite !Nat.eqb_eq. lia. }
      rewrite E1, E2, IH1, IH2. split; (split; [intros; right; auto|intros [->|[_ ?]]; [lia|auto]]).
Qed.
Lemma split_at_char cs a b : text cs -> cs = a ++ b -> str_split_at (encode_all cs) (length (encode_all a)) = Done (encode_all a, encode_all b).
Proof.
  intros Ht ->. unfold str_split_at. assert (Hn : length (encode_all a) <= length (encode_all (a ++ b))) by (rewrite encode_all_app, app_length; lia).
  rewrite (proj2 (proj2 (boundary_iff _ Ht _ Hn))) by (exists a, b; auto).
  rewrite encode_all_app, firstn_app, firstn_all, skipn_app, skipn_all, Nat.sub_diag, firstn_O, app_nil_r. reflexivity.
Qed.

Lemma str_uncons_spec cs : text cs ->
  str_uncons (encode_all cs) = Done (match cs with [] => (inr SeEoi, []) | c :: r => (inl c, encode_all r) end).
Proof. intros H. unfold str_uncons. rewrite (chars_next_text _ H). destruct cs; reflexivity. Qed.

Lemma str_range_spec n cs : text cs ->
  (forall a b, cs = a ++ b -> length (encode_all a) = n -> str_uncons_range n (encode_all cs) = Done (inl (encode_all a), encode_all b)) /\
  (n <= length (encode_all cs) -> ~ at_char cs n -> str_uncons_range n (encode_all cs) = Done (inr SeBoundary, encode_all cs)) /\
  (length (encode_all cs) < n -> str_uncons_range n (encode_all cs) = Done (inr SeEoi, encode_all cs)).
Proof.
  intros Ht. unfold str_uncons_range. split; [|split].
  - intros a b H1 H2. assert (Hn : n <= length (encode_all cs)) by (rewrite H1, encode_all_app, app_length; lia).
    rewrite (proj2 (Nat.leb_le _ _) Hn). rewrite (proj2 (proj1 (boundary_iff _ Ht n Hn))) by (exists a, b; auto). rewrite <- H2, (split_at_char cs a b Ht H1). reflexivity.
  - intros Hn H. rewrite (proj2 (Nat.leb_le _ _) Hn). destruct (is_char_boundary (encode_all cs) n) eqn:Hb; [|reflexivity]. apply (boundary_iff _ Ht n Hn) in Hb. contradiction.
  - intros H. rewrite (proj2 (Nat.leb_gt _ _) H). reflexivity.
Qed.

Section StrWhile.
Context {X : Type}.
Variable f : fnmut X N.
Lemma test_nexts_spec n : forall cs x, text cs ->
  exists o rs x', test_nexts f n (encode_all cs) x = Done (o, encode_all rs, x') /\
    match o with
    | Some k => (exists a, scans f x cs a [] x' /\ rs = [] /\ k = 0) \/ (exists a c, scans f x cs a (c :: rs) x' /\ k = len_utf8 c)
    | None => exists a, cs = a ++ rs /\ length a = n /\ forall c d y, scans f x' rs c d y -> scans f x cs (a ++ c) d y
    end.
Proof.
  induction n as [|n IH]; intros cs x Ht.
  - exists None, cs, x. split; auto. exists []. auto.
  - cbn [test_nexts]. unfold test_next. rewrite (chars_next_text _ Ht). destruct cs as [|c cs]; cbn [omap obind].
    + exists (Some 0), [], x. split; auto. left. exists []. split; auto. constructor.
    + inversion Ht; subst. destruct (f x c) as [[|] x1] eqn:Hf; cbn [obind].
      * destruct (IH cs x1 H2) as [o [rs [x' [K1 K2]]]]. rewrite K1. exists o, rs, x'. split; auto. destruct o as [k|].
        -- destruct K2 as [[a [K2 [-> ->]]]|[a [d [K2 ->]]]]; [left; exists (c :: a)|right; exists (c :: a), d]; split; auto; econstructor; eauto.
        -- destruct K2 as [a [-> [K2 K3]]]. exists (c :: a). split; auto. split; [cbn; congruence|]. intros c' d y K. cbn. econstructor; eauto.
      * exists (Some (len_utf8 c)), cs, x1. split; auto. right. exists [], c. split; auto. constructor. auto.
Qed.
Lemma str_loop_spec fl : forall cs x a b x', length cs < fl -> text cs -> scans f x cs a b x' ->
  exists k rs, str_loop f fl (encode_all cs) x = Done (k, encode_all rs, x') /\
    length (encode_all b) = k + length (encode_all rs).
Proof.
  induction fl as [|fl IH]; intros cs x a b x' Hl Ht H; [lia|]. cbn [str_loop].
  destruct (test_nexts_spec 8 cs x Ht) as [o [rs [x1 [K1 K2]]]]. rewrite K1. cbn [obind]. destruct o as [k|].
  - destruct K2 as [[a0 [K2 [-> ->]]]|[a0 [d [K2 ->]]]]; destruct (scans_det _ _ _ _ _ _ _ _ _ H K2) as [-> [-> ->]].
    + exists 0, []. split; auto.
    + exists (len_utf8 d), rs. split; auto. rewrite encode_all_cons, app_length, encode_length. auto.
  - destruct K2 as [a0 [-> [K2 K3]]]. destruct (scans_total f x1 rs) as [c [d [y Hc]]]. destruct (scans_det _ _ _ _ _ _ _ _ _ H (K3 _ _ _ Hc)) as [-> [-> ->]].
    eapply IH; eauto; [rewrite app_length in Hl; lia|]. apply text_app in Ht. tauto.
Qed.
Lemma str_scan_spec pre cs x a b x' : text (pre ++ cs) -> scans f x cs a b x' ->
  str_scan f (encode_all (pre ++ cs)) (encode_all cs) x = Done (encode_all (pre ++ a), encode_all b, x').
Proof.
  intros Ht H. unfold str_scan. pose proof (proj1 (text_app _ _) Ht) as [_ Ht2].
  destruct (str_loop_spec (S (length (encode_all cs))) cs x a b x') as [k [rs [H1 H2]]]; auto; [pose proof (encode_all_length_ge cs); lia|].
  rewrite H1. cbn [obind]. pose proof (scans_app _ _ _ _ _ _ H) as ->. rewrite (app_assoc pre a b) in *. rewrite encode_all_app, app_length.
  rewrite (proj2 (Nat.ltb_ge _ _)) by lia. replace (length (encode_all (pre ++ a)) + length (encode_all b) - length (encode_all rs) - k) with (length (encode_all (pre ++ a))) by lia.
  rewrite <- encode_all_app. rewrite (split_at_char _ (pre ++ a) b Ht eq_refl). reflexivity.
Qed.
Lemma str_while_spec cs x a b x' : text cs -> scans f x cs a b x' ->
  str_uncons_while f (encode_all cs) x = Done (inl (encode_all a), encode_all b, x').
Proof. intros Ht H. unfold str_uncons_while. pose proof (str_scan_spec [] cs x a b x' Ht H) as K. cbn [app] in K. rewrite K. reflexivity. Qed.
Lemma str_while1_spec cs x : text cs ->
  str_uncons_while1 f (encode_all cs) x = Done (inr SeEoi, encode_all cs, x) /\ cs = [] \/
  (exists c r x', cs = c :: r /\ f x c = (false, x') /\ str_uncons_while1 f (encode_all cs) x = Done (inr SeUnexpected, encode_all cs, x')) \/
  (exists c r a b x' x2, cs = c :: r /\ f x c = (true, x') /\ scans f x' r a b x2 /\
     str_uncons_while1 f (encode_all cs) x = Done (inl (encode_all (c :: a)), encode_all b, x2)).
Proof.
  intros Ht. unfold str_uncons_while1. rewrite (chars_next_text _ Ht). destruct cs as [|c r]; cbn [obind]; [left; auto|]. right.
  destruct (f x c) as [[|] x'] eqn:Hf; [right|left; exists c, r, x'; auto].
  destruct (scans_total f x' r) as [a [b [x2 H]]]. exists c, r, a, b, x', x2. split; auto. split; auto. split; auto.
  pose proof (str_scan_spec [c] r x' a b x2 Ht H) as K. cbn [app] in K. rewrite K. reflexivity.
Qed.
End StrWhile.
