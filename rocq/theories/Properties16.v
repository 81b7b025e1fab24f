(** C65: the INI parser of examples/ini.rs. *)
From Coq Require Import String List Bool Arith NArith Lia.
Import ListNotations.
From Verif Require Import Base Parser Errors Token Combinator Sequence Choice Repeat RangeP ByteP TotalSpec JsonM JsonSpec IniM IniSpec Spec AgreeSpec AgreeProofs LangProofs IniProofs Instances Properties1 Properties8 Properties10.
Unset Implicit Arguments.

(** What it reads, exactly, with which entries and how far; it never fails without having read something. *)
Theorem C65_exact : forall (C : Cfg), lawful C -> forall (code : tok C -> N) (lit : N -> tok C),
  (forall n, (n < 256)%N -> code (lit n) = n) -> (forall t, lit (code t) = t) ->
  forall i, length (rest i) < fuel C -> ipart i = false ->
  (forall v i', parse (ini code lit) i = Done (inl v, i') <-> exists w, advanced_by i w i' /\ ini_text code w (rest i') v) /\
  ~ fails (fresh (ini code lit)) i false.
Proof.
  intros C L code lit CL LC i Hi Hp. pose proof (lang_ini L code lit CL LC (fuel C) (Nat.le_refl _)) as H. split; [|intros K; apply (H i Hi Hp) in K; exact K].
  apply (lang_parse (fuel C) _ _ _ (default_stream_agrees (ini code lit) eq_refl) H i Hi Hp).
Qed.
Print Assumptions C65_exact.

(** A file written from keys, values and section names without the special characters is read back to the end, in the order written. *)
Theorem C65_written : forall (C : Cfg), lawful C -> forall (code : tok C -> N) (lit : N -> tok C),
  (forall n, (n < 256)%N -> code (lit n) = n) -> (forall t, lit (code t) = t) ->
  forall i v, length (rest i) < fuel C -> ipart i = false -> rest i = write_ini lit v -> writable code v ->
  exists i', parse (ini code lit) i = Done (inl v, i') /\ rest i' = [].
Proof.
  intros C L code lit CL LC i v Hi Hp Hr Hv. exists (@Inp C [] (pos_after (ipos i) (write_ini lit v)) (ipart i)). split; [|reflexivity].
  apply (C65_exact C L code lit CL LC i Hi Hp). exists (write_ini lit v). split; [split; [cbn; rewrite app_nil_r; exact Hr|split; reflexivity]|]. apply written_ini; auto.
Qed.
Print Assumptions C65_written.

(** It stops before the end of the text only at an [=] (a property without key); nothing reports that: the rest is ignored. *)
Theorem C65_left : forall (C : Cfg), lawful C -> forall (code : tok C -> N) (lit : N -> tok C),
  (forall n, (n < 256)%N -> code (lit n) = n) -> (forall t, lit (code t) = t) ->
  forall i v i', length (rest i) < fuel C -> ipart i = false -> parse (ini code lit) i = Done (inl v, i') ->
  match rest i' with [] => True | t :: _ => is_char code 61 t end.
Proof.
  intros C L code lit CL LC i v i' Hi Hp H. apply (C65_exact C L code lit CL LC i Hi Hp) in H. destruct H as [w [_ H]]. eapply ini_left; eauto.
Qed.
Print Assumptions C65_left.

Theorem C65_total : forall (C : Cfg), lawful C -> forall (code : tok C -> N) (lit : N -> tok C) i,
  2 * length (rest i) + 1 < fuel C -> returns (parse (ini code lit) i).
Proof. intros C L code lit i H. eapply C52_parse; [exact L|apply (sol_ini code lit (Datatypes.S (length (rest i))))|split; [lia|exact H]]. Qed.
Print Assumptions C65_total.

(** * Examples *)
Definition IP := ini (C:=BC) (fun n => n) (fun n => n).
Definition irun (s : string) := match parse IP (bin (t8 s)) with Done (inl v, i) => Some (v, rest i) | _ => None end.
Definition ent (k v : string) : list N * list N := (t8 k, t8 v).
(** The test [ini_ok] (lines 93-118). *)
Example C65_ex_ok : irun "
language=rust

[section]
name=combine; Comment
type=LL(1)

" = Some (IniV [ent "language" "rust"] [(t8 "section", [ent "name" "combine"; ent "type" "LL(1)"])], []).
Proof. vm_compute. reflexivity. Qed.
(** [ini_error]. *)
Example C65_ex_error : irun "[error" = None /\ irun "key" = None /\ irun "a=
" = None.
Proof. repeat split; vm_compute; reflexivity. Qed.
Example C65_ex_written : let v := IniV [ent "a" " 1"; ent "b c" "2=3"] [(t8 "s", [ent "d" "[x]"]); ([], [])] in
  writable (fun n => n) v /\ irun "a= 1
b c=2=3
[s]
d=[x]
[]
" = Some (v, []).
Proof.
  cbv zeta. split; [|vm_compute; reflexivity]. unfold writable, writable_property, in_key, in_value, is_char. cbn [i_global i_sections].
  repeat (first [apply Forall_nil | apply Forall_cons | split]); cbv; try discriminate; try (intros K; repeat (destruct K as [K|K]; [discriminate|]); exact K); exact I.
Qed.
(** A line without key ends the file. *)
Theorem C65_eof_refuted : ~ (forall (i : input BC) v i', parse IP i = Done (inl v, i') -> rest i' = []).
Proof.
  intros H. specialize (H (bin (t8 "a=1
=2
[s]
")) (IniV [ent "a" "1"] []) (@Inp BC (t8 "=2
[s]
") 4 false)). vm_compute in H. specialize (H eq_refl). discriminate.
Qed.
Print Assumptions C65_eof_refuted.
(** Keys run over line ends: a line without [=] becomes part of the next key. *)
Example C65_ex_key : irun "a
b=1" = Some (IniV [(t8 "a
b", t8 "1")] [], []).
Proof. vm_compute. reflexivity. Qed.
