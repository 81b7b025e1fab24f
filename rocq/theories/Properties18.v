(** C67: the MP4 parser of benches/mp4.rs. *)
From Coq Require Import String List Bool Arith NArith Lia.
Import ListNotations.
From Verif Require Import AgreeSpec CombProofs RepeatProofs Base Parser Errors Token Combinator Sequence Choice Repeat RangeP ByteP TotalSpec Mp4M Mp4Spec Spec RangeSpec RangeProofs LawsProofs Mp4Proofs Instances Properties1 Properties8.
Unset Implicit Arguments.

(** [len < 2^64 - 4]: no slice in Rust is longer than [isize::MAX]. *)
Theorem C67_exact : forall (C : Cfg), lawful C -> is_slice (C:=C) -> forall (code : tok C -> N) (lit : N -> tok C),
  (forall n, (n < 256)%N -> code (lit n) = n) -> (forall t, lit (code t) = t) ->
  forall utf8 utf8_error p0 i, 2 * length (rest i) + 1 < fuel C -> ipart i = false -> (N.of_nat (length (rest i)) < 2 ^ 64 - 4)%N ->
  forall bs i', parse_mp4 code lit utf8 utf8_error p0 i = Done (inl bs, i') <->
    exists ws, advanced_by i (concat ws) i' /\ Forall2 (box_text code utf8) ws bs /\ length (rest i') < 4.
Proof.
  intros C L HS code lit CL LC utf8 ue p0 i Hf Hp Hl bs i'. split.
  - intros H. destruct (file_cover _ code utf8 _ (rest i) (le_n _)) as [ws [bs0 [r [Hr [K1 K2]]]]]. destruct K2 as [K2|[K2|K2]].
    + pose proof (run_ok L HS code lit CL LC utf8 ue p0 i Hf Hp ws bs0 r Hr K1 K2) as R. assert (Q := eq_trans (eq_sym H) R). injection Q as -> ->.
      exists ws. split; [apply advance_by; exact Hr|]. split; [exact K1|exact K2].
    + exfalso. destruct (dbg C) eqn:Ed.
      * rewrite (run_panics L HS code lit CL LC utf8 ue p0 i Hf ws bs0 r Hr K1 K2 Ed) in H. discriminate.
      * destruct (run_fails L HS code lit CL LC utf8 ue p0 i Hf ws bs0 r Hr K1) as [e [j R]]; [right; auto|]. rewrite R in H. discriminate.
    + exfalso. destruct (run_fails L HS code lit CL LC utf8 ue p0 i Hf ws bs0 r Hr K1 (or_introl K2)) as [e [j R]]. rewrite R in H. discriminate.
  - intros [ws [H1 [H2 H3]]]. rewrite (run_ok L HS code lit CL LC utf8 ue p0 i Hf Hp ws bs (rest i') (proj1 H1) H2 H3). do 2 f_equal.
    apply (advanced_by_eq i (concat ws)); [apply advance_by, (proj1 H1)|exact H1].
Qed.
Print Assumptions C67_exact.

Theorem C67_error : forall (C : Cfg), lawful C -> is_slice (C:=C) -> forall (code : tok C -> N) (lit : N -> tok C),
  (forall n, (n < 256)%N -> code (lit n) = n) -> (forall t, lit (code t) = t) ->
  forall utf8 utf8_error p0 i, 2 * length (rest i) + 1 < fuel C -> ipart i = false -> (N.of_nat (length (rest i)) < 2 ^ 64 - 4)%N ->
  (exists e i', parse_mp4 code lit utf8 utf8_error p0 i = Done (inr e, i')) <->
  exists r, boxes_then code utf8 (rest i) r /\ (bad_box code utf8 r \/ small_box code r /\ dbg C = false).
Proof.
  intros C L HS code lit CL LC utf8 ue p0 i Hf Hp Hl. split.
  - intros [e [j H]]. destruct (file_cover _ code utf8 _ (rest i) (le_n _)) as [ws [bs0 [r [Hr [K1 K2]]]]]. destruct K2 as [K2|[K2|K2]].
    + rewrite (run_ok L HS code lit CL LC utf8 ue p0 i Hf Hp ws bs0 r Hr K1 K2) in H. discriminate.
    + destruct (dbg C) eqn:Ed; [rewrite (run_panics L HS code lit CL LC utf8 ue p0 i Hf ws bs0 r Hr K1 K2 Ed) in H; discriminate|].
      exists r. split; [exists ws, bs0; auto|auto].
    + exists r. split; [exists ws, bs0; auto|auto].
  - intros [r [[ws [bs [Hr K1]]] K2]]. apply (run_fails L HS code lit CL LC utf8 ue p0 i Hf ws bs r Hr K1). tauto.
Qed.
Print Assumptions C67_error.

(** The error of a file that goes on, behind boxes, with a box whose data are refused: it is the error that the parser of a box gives for these data
    alone, unchanged, with its positions counted from [p0] and not from the beginning of the file. *)
Theorem C67_error_kept : forall (C : Cfg), lawful C -> is_slice (C:=C) -> forall (code : tok C -> N) (lit : N -> tok C),
  (forall n, (n < 256)%N -> code (lit n) = n) -> (forall t, lit (code t) = t) ->
  forall utf8 utf8_error p0 i, 2 * length (rest i) + 1 < fuel C ->
  forall ws bs s d x e j, rest i = concat ws ++ s ++ d ++ x -> Forall2 (box_text code utf8) ws bs -> size_of code s (N.of_nat (4 + length d)) ->
  parse (box_parser lit utf8 utf8_error) (@Inp C d p0 false) = Done (inr e, j) ->
  exists i', parse_mp4 code lit utf8 utf8_error p0 i = Done (inr e, i').
Proof.
  intros C L HS code lit CL LC utf8 ue p0 i Hf ws bs s d x e j Hr H Hz He.
  destruct (file_reps L HS code lit CL LC utf8 ue p0 ws bs H i (s ++ d ++ x) Hr Hf) as [c [R1 R2]].
  assert (F : fails_with (fresh (many (data_interpreter code lit utf8 ue p0))) i true e).
  { apply (many_fails _ (hf_item code lit utf8 ue p0)). split; [reflexivity|]. exists c, bs. eexists. split; [exact R1|]. split.
    - apply (proj2 (flat_map_spec _ _)). right. exists d. eexists. split; [apply (box_ok L HS code (advance i (concat ws) (s ++ d ++ x)) s d x _ eq_refl Hz eq_refl)|]. unfold interpret. rewrite He. reflexivity.
    - rewrite Hr, app_length in Hf. lia. }
  destruct F as [r [j1 [F1 [F2 F3]]]]. pose proof (many_agrees code lit utf8 ue p0 i) as K. rewrite F1 in K. unfold parse_mp4, parse.
  destruct (p_stream (many (data_interpreter code lit utf8 ue p0)) i) as [[r2 j2]| |]; try contradiction.
  destruct K as [_ [_ K]]. rewrite (K F3). exists j2. destruct r; cbn in F2, F3; try discriminate. injection F2 as ->. reflexivity.
Qed.
Print Assumptions C67_error_kept.

(** It panics exactly on files in which boxes are followed by a size below four, if arithmetic is checked; it always returns otherwise. *)
Theorem C67_panic : forall (C : Cfg), lawful C -> is_slice (C:=C) -> forall (code : tok C -> N) (lit : N -> tok C),
  (forall n, (n < 256)%N -> code (lit n) = n) -> (forall t, lit (code t) = t) ->
  forall utf8 utf8_error p0 i, 2 * length (rest i) + 1 < fuel C -> ipart i = false -> (N.of_nat (length (rest i)) < 2 ^ 64 - 4)%N ->
  (parse_mp4 code lit utf8 utf8_error p0 i = Panic <-> dbg C = true /\ exists r, boxes_then code utf8 (rest i) r /\ small_box code r) /\
  (parse_mp4 code lit utf8 utf8_error p0 i = Panic \/ returns (parse_mp4 code lit utf8 utf8_error p0 i)).
Proof.
  intros C L HS code lit CL LC utf8 ue p0 i Hf Hp Hl.
  assert (P : forall ws bs r, rest i = concat ws ++ r -> Forall2 (box_text code utf8) ws bs -> small_box code r -> dbg C = true -> parse_mp4 code lit utf8 ue p0 i = Panic)
    by (intros ws bs r Hr K1 K2; exact (run_panics L HS code lit CL LC utf8 ue p0 i Hf ws bs r Hr K1 K2)).
  destruct (file_cover _ code utf8 _ (rest i) (le_n _)) as [ws [bs0 [r [Hr [K1 K2]]]]].
  assert (Q : (dbg C = true /\ small_box code r /\ parse_mp4 code lit utf8 ue p0 i = Panic) \/ exists x, parse_mp4 code lit utf8 ue p0 i = Done x).
  { destruct K2 as [K2|[K2|K2]].
    - rewrite (run_ok L HS code lit CL LC utf8 ue p0 i Hf Hp ws bs0 r Hr K1 K2). eauto.
    - destruct (dbg C) eqn:Ed; [left; split; [reflexivity|]; split; [exact K2|]; apply (P ws bs0 r); auto|]. right.
      destruct (run_fails L HS code lit CL LC utf8 ue p0 i Hf ws bs0 r Hr K1) as [e [j R]]; [right; auto|]. eauto.
    - right. destruct (run_fails L HS code lit CL LC utf8 ue p0 i Hf ws bs0 r Hr K1 (or_introl K2)) as [e [j R]]. eauto. }
  split; [split|destruct Q as [[_ [_ Q]]|Q]; auto].
  - intros H. destruct Q as [[Q1 [Q2 _]]|[x Q]]; [|rewrite Q in H; discriminate]. split; [exact Q1|]. exists r. split; [exists ws, bs0; auto|exact Q2].
  - intros [Hd [r1 [[ws1 [bs1 [Hr1 K3]]] K4]]]. apply (P ws1 bs1 r1); auto.
Qed.
Print Assumptions C67_panic.

(** Every file is in exactly one way boxes and something that is no box: the boxes are determined by the bytes. *)
Theorem C67_unambiguous : forall (C : Cfg), lawful C -> is_slice (C:=C) -> forall (code : tok C -> N) (lit : N -> tok C),
  (forall n, (n < 256)%N -> code (lit n) = n) -> (forall t, lit (code t) = t) ->
  forall utf8 (p0 : Pos C) ws ws' bs bs' r r', let l := concat ws ++ r in 2 * length l + 1 < fuel C -> l = concat ws' ++ r' ->
  Forall2 (box_text code utf8) ws bs -> Forall2 (box_text code utf8) ws' bs' -> length r < 4 -> length r' < 4 -> bs = bs' /\ r = r'.
Proof.
  intros C L HS code lit CL LC utf8 p0 ws ws' bs bs' r r' l Hf Hl H1 H2 H3 H4.
  pose proof (run_ok L HS code lit CL LC utf8 (fun _ => se_eoi C) p0 (@Inp C l p0 false) Hf eq_refl ws bs r eq_refl H1 H3) as R1.
  pose proof (run_ok L HS code lit CL LC utf8 (fun _ => se_eoi C) p0 (@Inp C l p0 false) Hf eq_refl ws' bs' r' Hl H2 H4) as R2.
  assert (Q := eq_trans (eq_sym R1) R2). injection Q as -> Q. auto.
Qed.
Print Assumptions C67_unambiguous.

(** * Examples *)
Definition ascii7 (l : list N) : bool := forallb (fun b => (b <? 128)%N) l.
Definition mrun (d : bool) (l : list N) :=
  match parse_mp4 (C:=cfg_easy bytes_tok 200 d) (fun n => n) (fun n => n) ascii7 (fun _ => se_eoi (cfg_easy bytes_tok 200 d)) 0 (@Inp (cfg_easy bytes_tok 200 d) l 0 false) with
  | Done (inl v, i) => Done (Some (v, rest i)) | Done (inr _, _) => Done None | Panic => Panic | OOF => OOF end.
Definition ftyp_ex : list N := ([0; 0; 0; 25] ++ t8 "ftypmp42" ++ [0; 0; 0; 1] ++ t8 "isomavc1" ++ [7])%N.
(** A file type box with a byte too many, an empty box, a box of no known type; then the beginning of a size, which is ignored. *)
Example C67_ex : mrun true (ftyp_ex ++ [0; 0; 0; 4] ++ [0; 0; 0; 9] ++ t8 "uuid!" ++ [0; 0; 0])%N =
  Done (Some ([Ftyp (t8 "mp42") [0; 0; 0; 1]%N [t8 "isom"; t8 "avc1"]; Unknown; Unknown], [0; 0; 0]%N)).
Proof. vm_compute. reflexivity. Qed.
Example C67_ex_text : box_text (fun n => n) ascii7 ftyp_ex (Ftyp (t8 "mp42") [0; 0; 0; 1]%N [t8 "isom"; t8 "avc1"]).
Proof.
  exists [0; 0; 0; 25]%N. eexists _, 25%N. split; [reflexivity|]. split; [exists 0%N, 0%N, 0%N, 25%N; split; reflexivity|]. split; [reflexivity|].
  exists (t8 "ftyp"), [7%N]. split; [reflexivity|]. split; [reflexivity|]. split; [split; reflexivity|]. split; [reflexivity|]. split; [|cbn; lia].
  repeat constructor.
Qed.
Example C67_ex_bad : mrun true ([0; 0; 0; 5] ++ [7] ++ [0; 0; 0; 12] ++ t8 "ftypmp42")%N = Done None.
Proof. vm_compute. reflexivity. Qed.
Example C67_ex_utf8 : mrun true ([0; 0; 0; 16] ++ t8 "ftyp" ++ [255; 255; 255; 255; 0; 0; 0; 0])%N = Done None.
Proof. vm_compute. reflexivity. Qed.
Example C67_ex_long : mrun true ([0; 0; 0; 9] ++ t8 "moov")%N = Done None.
Proof. vm_compute. reflexivity. Qed.
(** Without overflow checks a size below four is an error. *)
Definition RC := cfg_easy bytes_tok 100 false.
Example C67_ex_release : exists e i', parse_mp4 (C:=RC) (fun n => n) (fun n => n) ascii7 (fun _ => se_eoi RC) 0 (@Inp RC [0; 0; 0; 3]%N 0 false) = Done (inr e, i').
Proof.
  apply (C67_error RC); try (intros; reflexivity); [apply lawful_easy, bytes_lawful|intros t; reflexivity|vm_compute; repeat constructor|].
  exists [0; 0; 0; 3]%N. split; [exists [], []; split; [reflexivity|constructor]|]. right. split; [|reflexivity].
  exists [0; 0; 0; 3]%N, [], 3%N. split; [reflexivity|]. split; [exists 0%N, 0%N, 0%N, 3%N; split; reflexivity|reflexivity].
Qed.
(** Behind an empty box, a file type box that ends after its first brand: the error of the box alone, behind the eight bytes of its data
    although these end behind byte 16 of the file. *)
Example C67_ex_kept : let d := t8 "ftypmp42" in
  exists e i', parse (box_parser (C:=RC) (fun n => n) ascii7 (fun _ => se_eoi RC)) (@Inp RC d 0 false) = Done (inr e, i') /\ eposition e = 8 /\
  exists j, parse_mp4 (C:=RC) (fun n => n) (fun n => n) ascii7 (fun _ => se_eoi RC) 0 (@Inp RC ([0; 0; 0; 4] ++ [0; 0; 0; 12] ++ d)%N 0 false) = Done (inr e, j).
Proof.
  cbn zeta. do 2 eexists. split; [vm_compute; reflexivity|]. split; [reflexivity|].
  eapply (C67_error_kept RC) with (ws := [[0; 0; 0; 4]%N]) (s := [0; 0; 0; 12]%N) (d := t8 "ftypmp42") (x := []) (bs := [Unknown]);
    try (intros; reflexivity); [apply lawful_easy, bytes_lawful|intros t; reflexivity|vm_compute; repeat constructor| | ].
  - constructor; [|constructor]. exists [0; 0; 0; 4]%N, [], 4%N. split; [reflexivity|]. split; [exists 0%N, 0%N, 0%N, 4%N; split; reflexivity|]. split; [reflexivity|].
    intros s Hs [u [r [Hd Hu]]]. destruct u; [|discriminate Hd]. repeat (destruct Hs as [<-|Hs]; [discriminate Hu|]). exact Hs.
  - exists 0%N, 0%N, 0%N, 12%N. split; reflexivity.
Qed.
(** No file makes the parser panic: refuted (the standard gives the sizes 0 and 1 a meaning). *)
Theorem C67_no_panic_refuted : ~ (forall i : input BC, 2 * length (rest i) + 1 < fuel BC -> ipart i = false ->
  parse_mp4 (C:=BC) (fun n => n) (fun n => n) ascii7 (fun _ => se_eoi BC) 0 i <> Panic).
Proof. intros H. apply (H (bin ([0; 0; 0; 8] ++ t8 "free" ++ [0; 0; 0; 1] ++ t8 "mdat"))%N); vm_compute; repeat constructor. Qed.
Print Assumptions C67_no_panic_refuted.
(** What is accepted was read to the end: refuted. *)
Theorem C67_complete_refuted : ~ (forall (i i' : input BC) bs, 2 * length (rest i) + 1 < fuel BC -> ipart i = false ->
  parse_mp4 (C:=BC) (fun n => n) (fun n => n) ascii7 (fun _ => se_eoi BC) 0 i = Done (inl bs, i') -> rest i' = []).
Proof. intros H. specialize (H (bin [0; 0; 0]%N) (bin [0; 0; 0]%N) []). discriminate H; vm_compute; repeat constructor. Qed.
Print Assumptions C67_complete_refuted.
