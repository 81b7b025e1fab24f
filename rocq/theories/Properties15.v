(** C64: the date parser of examples/date.rs. *)
From Coq Require Import String List Bool Arith NArith ZArith Lia.
Import ListNotations.
From Verif Require Import Base Parser Errors Token Combinator Sequence Choice Repeat RangeP ByteP TotalSpec JsonM JsonSpec DateM DateSpec Spec AgreeSpec AgreeProofs LangProofs DateProofs Instances Properties1 Properties8 Properties10.
Unset Implicit Arguments.

(** What it reads, exactly, with which value and how far. *)
Theorem C64_exact : forall (C : Cfg), lawful C -> forall (code : tok C -> N) (lit : N -> tok C),
  (forall n, (n < 256)%N -> code (lit n) = n) -> (forall t, lit (code t) = t) ->
  forall i, length (rest i) < fuel C -> ipart i = false ->
  (forall v i', parse (date_time code lit) i = Done (inl v, i') <-> exists w, advanced_by i w i' /\ date_time_text code w (rest i') v) /\
  (fails (fresh (date_time code lit)) i false <-> stops (fun t => is_char code 45 t \/ decimal code t) (rest i)).
Proof.
  intros C L code lit CL LC i Hi Hp. pose proof (lang_date_time L code lit CL LC (fuel C) (Nat.le_refl _)) as H. split; [|apply (H i Hi Hp)].
  apply (lang_parse (fuel C) _ _ _ (default_stream_agrees (date_time code lit) eq_refl) H i Hi Hp).
Qed.
Print Assumptions C64_exact.

(** It panics exactly on texts that begin like a date without a year or with a year of 2^31 or more ([unwrap] on line 115, which
    "Its ok to just unwrap since we only parsed digits"); on all others it returns. *)
Theorem C64_panic : forall (C : Cfg), lawful C -> forall (code : tok C -> N) (lit : N -> tok C),
  (forall n, (n < 256)%N -> code (lit n) = n) -> (forall t, lit (code t) = t) ->
  forall i, 2 * length (rest i) + 1 < fuel C -> ipart i = false ->
  (parse (date_time code lit) i = Panic <-> exists w r y m d, rest i = w ++ r /\ date_form code w y m d /\ ~ year_ok code y) /\
  (parse (date_time code lit) i = Panic \/ returns (parse (date_time code lit) i)).
Proof.
  intros C L code lit CL LC i Hf Hp. destruct (date_time_panics L code lit CL LC i ltac:(lia) Hp Hf) as [H1 H2].
  pose proof (default_stream_agrees (date_time code lit) eq_refl i) as A. rewrite <- H1. clear H1. unfold parse, returns. revert A H2.
  destruct (fresh (date_time code lit) i) as [[r j]| |], (p_stream (date_time code lit) i) as [[r2 j2]| |]; cbn; intros A H2; try tauto.
  - split; [split; discriminate|eauto].
  - destruct H2 as [|[x H2]]; discriminate.
Qed.
Print Assumptions C64_panic.

(** * Examples *)
Definition DP := date_time (C:=BC) (fun n => n) (fun n => n).
Definition drun (s : string) := match parse DP (bin (t8 s)) with Done (inl v, i) => Some (v, rest i) | _ => None end.
(** The tests of the example (lines 158-194). *)
Example C64_ex_tests :
  drun "2015-08-02T18:54:42+02" = Some (DateTimeV (DateV 2015 8 2) (TimeV 18 54 42 120), []) /\
  drun "50015-12-30T08:54:42Z" = Some (DateTimeV (DateV 50015 12 30) (TimeV 8 54 42 0), []).
Proof. split; vm_compute; reflexivity. Qed.
Example C64_ex_zones :
  drun "2015-08-02T18:54:42+0012." = Some (DateTimeV (DateV 2015 8 2) (TimeV 18 54 42 12), t8 ".") /\
  drun "2015-08-02T18:54:42-06:30" = Some (DateTimeV (DateV 2015 8 2) (TimeV 18 54 42 (-390)), []) /\
  drun "2015-08-02T18:54:42-01" = Some (DateTimeV (DateV 2015 8 2) (TimeV 18 54 42 (-60)), []) /\
  drun "2015-08-02T18:54:42+02:" = None /\ drun "2015-08-02T18:54:42+023" = None /\ drun "2015-08-02T18:54:42" = None.
Proof. repeat split; vm_compute; reflexivity. Qed.
(** Nothing checks that months, days, hours, minutes and seconds exist. *)
Example C64_ex_ranges : drun "0-13-99T24:60:99+99:99" = Some (DateTimeV (DateV 0 13 99) (TimeV 24 60 99 6039), []).
Proof. vm_compute. reflexivity. Qed.
Lemma c64_two a b : decimal (fun n : N => n) a -> decimal (fun n : N => n) b -> two (fun n : N => n) [a; b].
Proof. intros. split; auto. Qed.
(** Panics: no year; a year of 2^31; not: 2^31 - 1. *)
Example C64_ex_panics :
  parse DP (bin (t8 "-01-02")) = Panic /\ parse DP (bin (t8 "2147483648-01-02")) = Panic /\
  drun "2147483647-01-02T00:00:00Z" = Some (DateTimeV (DateV 2147483647 1 2) (TimeV 0 0 0 0), []) /\
  exists w r y m d, t8 "-01-02" = w ++ r /\ date_form (fun n => n) w y m d /\ ~ year_ok (fun n => n) y.
Proof.
  split; [vm_compute; reflexivity|]. split; [vm_compute; reflexivity|]. split; [vm_compute; reflexivity|].
  exists (t8 "-01-02"), [], [], (t8 "01"), (t8 "02"). split; [reflexivity|]. split; [|intros [K _]; congruence].
  exists 45%N, 45%N. split; [reflexivity|]. split; [constructor|]. split; [reflexivity|].
  split; [apply c64_two; vm_compute; split; discriminate|]. split; [reflexivity|apply c64_two; vm_compute; split; discriminate].
Qed.
(** The comment on line 112 is wrong. *)
Theorem C64_unwrap_refuted : ~ (forall i : input BC, 2 * length (rest i) + 1 < fuel BC -> ipart i = false -> returns (parse DP i)).
Proof. intros H. destruct (H (bin (t8 "-01-02"))) as [x K]; [vm_compute; repeat constructor|reflexivity|]. vm_compute in K. discriminate. Qed.
Print Assumptions C64_unwrap_refuted.
