(** Property C80: the decoders of tests/async.rs. *)
From Coq Require Import String List Bool Arith NArith Lia.
Import ListNotations.
From Verif Require Import Base Errors Instances Parser Token Combinator Sequence Choice Repeat RangeP ByteP DecodeM.
From Verif Require Import Spec LibSpec RangeSpec ChunkSpec TotalSpec SteadySpec FramedM FramedSpec AgreeSpec LawsProofs LawsProofs2 ChunkProofs7 SearchProofs FramedProofs FramedProofs2 FramedProofs3 Properties1 Properties4.
Unset Implicit Arguments.

(** What is asked of the stream: errors that never forget the end of the input, and tokens of one byte. *)
Definition decoder_stream (C : Cfg) : Prop := eoi_laws C /\ lawful C /\ pos_distinct C /\ is_slice (C:=C) /\ set_keeps C.
Theorem C80_streams : forall fl d, decoder_stream (cfg_easy bytes_tok fl d).
Proof. intros fl d. split; [apply eoi_laws_easy|]. split; [apply lawful_easy, bytes_lawful|]. split; [apply distinct_bytes|]. split; [intros t; reflexivity|apply easy_set_keeps]. Qed.
Print Assumptions C80_streams.

(** A text made of messages, read in any pieces by a parser of the class of C74: the messages come out, all of them and in
    order, and at the end the decoder stops without an error. *)
Theorem C80_decoder : forall C, decoder_stream C -> forall S A (p : parser C S A) x a n h, (forall z, steady z x a n h (fun _ : unit => p)) ->
  forall pos cs vs m, frames p pos (concat cs) vs -> 2 * length (concat cs) + 1 < fuel C -> length vs + length cs + 1 < m ->
  run_decoder m p pos cs = Done (inl vs).
Proof.
  intros C [EL [L [D [SL SK]]]] S A p x a n h Hst pos cs vs m HF Hf Hm.
  apply (run_decoder_gives (Datatypes.S (length (concat cs))) EL SL L D x a n h p (Hst _)); auto.
  - exact (proj1 (steady_keeps EL SK (Datatypes.S (length (concat cs)))) _ _ _ _ _ _ _ _ (Hst _) tt).
  - split; cbn [rest]; lia.
Qed.
Print Assumptions C80_decoder.
(** End of input stays reported whatever such a parser adds to the error. *)
Theorem C80_end_kept : forall C, eoi_laws C -> set_keeps C -> forall z S A (p : parser C S A) x a n h, steady z x a n h (fun _ : unit => p) -> keeps_eoi p.
Proof. intros C EL SK z S A p x a n h H. exact (proj1 (steady_keeps EL SK z) _ _ _ _ _ _ _ _ H tt). Qed.
Print Assumptions C80_end_kept.

(** The parsers of the tests: a list of messages [ms], written with [enc] and cut anywhere, is given back. *)
Definition gives_back {C S A X} (p : parser C S A) (ok : X -> Prop) (enc : X -> list (tok C)) (out : X -> A) : Prop :=
  forall pos cs ms m, Forall ok ms -> concat cs = concat (List.map enc ms) -> 2 * length (concat cs) + 1 < fuel C -> length ms + length cs + 1 < m ->
  run_decoder m p pos cs = Done (inl (List.map out ms)).
Section Tests.
Context {C : Cfg} (DS : decoder_stream C) (code : tok C -> N) (lit : N -> tok C) (CL : forall n, (n < 256)%N -> code (lit n) = n).
Theorem C80_basic : gives_back (basic_parser code lit) (number_text code) (with_crlf lit) (fun w => w).
Proof. destruct DS as [EL [L [D [SL SK]]]]. unfold gives_back. eapply (decodes EL L D SL SK); [apply (basic_steady SL)|intros; apply (basic_eats L code lit CL); auto|apply basic_stops]. Unshelve. all: exact CL. Qed.
Theorem C80_choice : gives_back (choice_parser code lit) (fun w => number_text code w \/ word_text code w) (with_crlf lit) (fun w => w).
Proof. destruct DS as [EL [L [D [SL SK]]]]. unfold gives_back. eapply (decodes EL L D SL SK); [apply (choice_steady SL)|intros; apply (choice_eats L code lit CL); auto|apply choice_stops]. Unshelve. all: exact CL. Qed.
Theorem C80_recognize : gives_back (recognize_parser code lit) (decimal_text code lit) (with_crlf lit) (fun w => w).
Proof. destruct DS as [EL [L [D [SL SK]]]]. unfold gives_back. eapply (decodes EL L D SL SK); [apply (recognize_steady SL)|intros; apply (recognize_eats L D code lit CL); auto|apply (recognize_stops L D)]. Unshelve. all: exact CL. Qed.
Theorem C80_recognize_range : gives_back (recognize_range_parser code lit) (decimal_text code lit) (with_crlf lit) (fun w => w).
Proof. destruct DS as [EL [L [D [SL SK]]]]. unfold gives_back. eapply (decodes EL L D SL SK); [apply (recognize_range_steady SL)|intros; apply (recognize_range_eats L code lit CL); auto|apply (recognize_range_stops L)]. Unshelve. all: exact CL. Qed.
Theorem C80_take_while : gives_back (take_while_parser code lit) (line_text code) (with_crlf lit) (fun w => w).
Proof. destruct DS as [EL [L [D [SL SK]]]]. unfold gives_back. eapply (decodes EL L D SL SK); [apply (take_while_steady SL)|intros; apply (take_while_eats L code lit CL); auto|apply (take_while_stops L)]. Unshelve. all: exact CL. Qed.
Theorem C80_take_while1 : gives_back (take_while1_parser code lit) (fun w => w <> [] /\ line_text code w) (with_crlf lit) (fun w => w).
Proof. destruct DS as [EL [L [D [SL SK]]]]. unfold gives_back. eapply (decodes EL L D SL SK); [apply (take_while1_steady SL)|intros; apply (take_while1_eats L code lit CL); auto|apply (take_while1_stops L)]. Unshelve. all: exact CL. Qed.
Theorem C80_until_colons : gives_back (until_colons_parser lit) (before_colons lit) (with_colons lit) (fun w => w).
Proof. destruct DS as [EL [L [D [SL SK]]]]. unfold gives_back. eapply (decodes EL L D SL SK); [apply (colons_steady SL)|intros; apply (colons_eats L lit); auto|apply (colons_stops L)]. Unshelve. all: exact CL. Qed.
Theorem C80_take_fn : forall B find (number : list (tok C) -> B), finds_crlf lit find ->
  gives_back (take_fn_parser find number) (fun w => no_crlf lit (w ++ [lit 13%N])) (with_crlf lit) number.
Proof. destruct DS as [EL [L [D [SL SK]]]]. intros B find number F. unfold gives_back. eapply (decodes EL L D SL SK); [apply (take_fn_steady SL lit find F)|intros; apply (take_fn_eats L SL lit find F); auto|apply (take_fn_stops L SL lit find F)]. Unshelve. all: exact CL. Qed.
Theorem C80_underscore : gives_back (underscore_parser lit) (fun _ => True) (underscores lit) (fun _ => []).
Proof. destruct DS as [EL [L [D [SL SK]]]]. unfold gives_back. eapply (decodes EL L D SL SK); [apply underscore_steady|intros; apply (underscore_eats L code lit CL); auto|apply (underscore_stops L)]. Unshelve. all: exact CL. Qed.
End Tests.
Print Assumptions C80_basic.
Print Assumptions C80_choice.
Print Assumptions C80_recognize.
Print Assumptions C80_recognize_range.
Print Assumptions C80_take_while.
Print Assumptions C80_take_while1.
Print Assumptions C80_until_colons.
Print Assumptions C80_take_fn.
Print Assumptions C80_underscore.

(** With an error type that keeps one error only, naming what was expected replaces the end of the input: a decoder whose
    parser begins with [digit()] gives the last message and then fails where the text just ends. *)
Definition UBC : Cfg := cfg_unexpected bytes_tok 100 true.
Theorem C80_end_refuted :
  frames (basic_parser (C:=UBC) (fun n => n) (fun n => n)) 0 [49; 13; 10]%N [[49%N]] /\
  run_decoder 20 (basic_parser (C:=UBC) (fun n => n) (fun n => n)) 0 [[49; 13; 10]%N] = Done (inr UUnexpected) /\ ~ set_keeps UBC.
Proof.
  split; [|split].
  - apply (@frames_msg UBC _ _ _ 0 [49; 13; 10]%N [] true [49%N] []); [vm_compute; reflexivity|]. constructor. do 3 eexists. split; [vm_compute; reflexivity|]. split; reflexivity.
  - vm_compute. reflexivity.
  - intros K. specialize (K (to_trk UEoi) UUnexpected (fun t => t) eq_refl (fun u H => H)). discriminate K.
Qed.
Print Assumptions C80_end_refuted.

(** tests/async.rs:232-250: two numbers, cut in five ways. *)
Definition c80_text : list N := [49; 50; 51; 13; 10; 52; 53; 54; 13; 10]%N.
Example C80_ex_text : Forall (number_text (C:=BC) (fun n => n)) [[49; 50; 51]; [52; 53; 54]]%N /\
  c80_text = concat (List.map (with_crlf (C:=BC) (fun n => n)) [[49; 50; 51]; [52; 53; 54]]%N).
Proof. split; [|reflexivity]. repeat constructor; try discriminate. Qed.
Definition c80_cuts : list (list (list N)) :=
  [[c80_text]; List.map (fun b => [b]) c80_text; [[49; 50]; [51; 13]; []; [10; 52; 53; 54; 13]; [10]]%N; []; [[]; c80_text]].
Example C80_ex_cuts : List.map (fun cs => run_decoder (C:=BC) 20 (basic_parser (C:=BC) (fun n => n) (fun n => n)) 0 cs) c80_cuts =
  [Done (inl [[49; 50; 51]; [52; 53; 54]]); Done (inl [[49; 50; 51]; [52; 53; 54]]); Done (inl [[49; 50; 51]; [52; 53; 54]]); Done (inl []); Done (inl [[49; 50; 51]; [52; 53; 54]])]%N.
Proof. vm_compute. reflexivity. Qed.
Example C80_ex_theorem : forall cs, concat cs = c80_text -> length cs < 10 ->
  run_decoder (C:=BC) 20 (basic_parser (C:=BC) (fun n => n) (fun n => n)) 0 cs = Done (inl [[49; 50; 51]; [52; 53; 54]]%N).
Proof.
  intros cs Hc Hl. refine (C80_basic (C80_streams 100 true) (fun n => n) (fun n => n) (fun n _ => eq_refl) 0 cs [[49; 50; 51]; [52; 53; 54]]%N 20 (proj1 C80_ex_text) _ _ _).
  - exact (eq_trans Hc (proj2 C80_ex_text)).
  - assert (Q : length (concat cs) = 10) by (rewrite Hc; reflexivity). change (2 * length (concat cs) + 1 < 100). lia.
  - cbn. lia.
Qed.
(** Decimals, lines, and texts in front of ["::"] that hold single colons; a number cut before its line end is no message. *)
Example C80_ex_others :
  decimal_text (C:=BC) (fun n => n) (fun n => n) [49; 46; 50]%N /\ line_text (C:=BC) (fun n => n) [10; 97]%N /\ before_colons (C:=BC) (fun n => n) [97; 58; 98]%N /\
  run_decoder (C:=BC) 20 (recognize_parser (C:=BC) (fun n => n) (fun n => n)) 0 [[49; 46]; [50; 13]; [10]]%N = Done (inl [[49; 46; 50]%N]) /\
  run_decoder (C:=BC) 20 (until_colons_parser (C:=BC) (fun n => n)) 0 [[97; 58]; [98; 58]; [58; 58]; [58]]%N = Done (inl [[97; 58; 98]; []]%N) /\
  run_decoder (C:=BC) 20 (underscore_parser (C:=BC) (fun n => n)) 0 [[95]; [95; 46]; [95]; [46]]%N = Done (inl [[]; []]) /\
  match run_decoder (C:=BC) 20 (basic_parser (C:=BC) (fun n => n) (fun n => n)) 0 [[49]; [50; 13]]%N with Done (inr e) => eposition e | _ => 99 end = 2.
Proof.
  split; [|split; [|split; [|split; [|split; [|split]]]]].
  - exists [49%N], [46; 50]%N. split; [split; [discriminate|]|split; [reflexivity|right; exists [50%N]; split; [reflexivity|]]]; repeat constructor; discriminate.
  - repeat constructor; discriminate.
  - intros b a K. repeat (destruct b as [|? b]; cbn in K; try discriminate K; injection K; intros; subst; try discriminate).
  - vm_compute. reflexivity.
  - vm_compute. reflexivity.
  - vm_compute. reflexivity.
  - vm_compute. reflexivity.
Qed.
(** A search as [take_fn] wants it. *)
Fixpoint c80_find (l : list N) : option nat :=
  match l with
  | [] => None
  | x :: l' => if (x =? 13)%N && (match l' with y :: _ => (y =? 10)%N | [] => false end) then Some 0 else option_map Datatypes.S (c80_find l')
  end.
Lemma c80_find_ok : forall l : list N, match c80_find l with
  | Some n => exists b a : list N, l = b ++ [13; 10]%N ++ a /\ length b = n /\ forall b' a' : list N, b ++ [13%N] <> b' ++ [13; 10]%N ++ a'
  | None => forall b a : list N, l <> b ++ [13; 10]%N ++ a
  end.
Proof.
  intros l. induction l as [|x l IH]; [intros b a K; destruct b; discriminate|]. cbn [c80_find].
  destruct ((x =? 13)%N && (match l with y :: _ => (y =? 10)%N | [] => false end)) eqn:Q.
  - apply andb_true_iff in Q. destruct Q as [Q1 Q2]. apply N.eqb_eq in Q1. destruct l as [|y l]; [discriminate|]. apply N.eqb_eq in Q2. subst.
    exists [], l. split; [reflexivity|]. split; [reflexivity|]. intros b a K. do 2 (destruct b as [|? b]; cbn in K; try discriminate).
  - assert (Hx : forall m a, x :: m = [13; 10]%N ++ a -> exists m', m = 10%N :: m' /\ x = 13%N) by (intros m a K; injection K as -> ->; eauto).
    destruct (c80_find l) as [n|]; cbv beta iota delta [option_map].
    + destruct IH as [b [a [-> [<- H]]]]. exists (x :: b), a. split; [reflexivity|]. split; [reflexivity|]. intros b' a' K. destruct b' as [|? b'].
      * destruct (Hx _ _ K) as [m' [K1 ->]]. cbn in Q. destruct b as [|y b]; cbn in K1; [discriminate|]. injection K1 as -> _. discriminate.
      * injection K as _ K. exact (H b' a' K).
    + intros b' a' K. destruct b' as [|? b'].
      * destruct (Hx _ _ K) as [m' [-> ->]]. discriminate.
      * injection K as _ K. exact (IH b' a' K).
Qed.
Example C80_ex_find : finds_crlf (C:=BC) (fun n => n) c80_find /\
  run_decoder (C:=BC) 20 (take_fn_parser (C:=BC) c80_find (fun w => length w)) 0 [[49; 13; 50]; [13]; [10; 13; 10]]%N = Done (inl [3; 0]).
Proof.
  split; [exact c80_find_ok|vm_compute; reflexivity].
Qed.
