(** C66: the HTTP request parser of benches/http.rs. *)
From Coq Require Import String List Bool Arith NArith Lia.
Import ListNotations.
From Verif Require Import Base Parser Errors Token Combinator Sequence Choice Repeat RangeP ByteP TotalSpec JsonM JsonSpec HttpM HttpSpec Spec AgreeSpec AgreeProofs LawsProofs LangProofs HttpProofs Instances Properties1 Properties8 Properties10.
Unset Implicit Arguments.

(** What it reads, exactly, and how far; it fails without having read anything exactly if there is no method. *)
Theorem C66_exact : forall (C : Cfg), lawful C -> forall (code : tok C -> N) (lit : N -> tok C),
  (forall n, (n < 256)%N -> code (lit n) = n) -> (forall t, lit (code t) = t) ->
  forall i, length (rest i) < fuel C -> ipart i = false ->
  (forall v i', parse_http_request code lit i = Done (inl v, i') <-> exists w, advanced_by i w i' /\ request_text code w v) /\
  (fails (fresh (http_request code lit)) i false <-> stops (token_char code) (rest i)).
Proof.
  intros C L code lit CL LC i Hi Hp. pose proof (lang_request L code lit CL LC (fuel C) (Nat.le_refl _)) as H. split; [|apply (H i Hi Hp)].
  apply (lang_parse (fuel C) _ _ _ (default_stream_agrees (http_request code lit) eq_refl) H i Hi Hp).
Qed.
Print Assumptions C66_exact.

Theorem C66_total : forall (C : Cfg), lawful C -> forall (code : tok C -> N) (lit : N -> tok C) i,
  2 * length (rest i) + 1 < fuel C -> returns (parse_http_request code lit i).
Proof. intros C L code lit i H. eapply C52_parse; [exact L|apply (sol_request code lit (Datatypes.S (length (rest i))))|split; [lia|exact H]]. Qed.
Print Assumptions C66_total.

(** The benchmark's loop ends exactly if the buffer is a series of requests, otherwise it panics. *)
Theorem C66_series : forall (C : Cfg), lawful C -> forall (code : tok C -> N) (lit : N -> tok C),
  (forall n, (n < 256)%N -> code (lit n) = n) -> (forall t, lit (code t) = t) ->
  forall n i, 2 * length (rest i) + 1 < fuel C -> ipart i = false -> length (rest i) < n ->
  (forall l, http_requests code lit n i = Done l <-> exists ws, rest i = concat ws /\ Forall2 (request_text code) ws l) /\
  (http_requests code lit n i = Panic <-> forall ws l, rest i = concat ws -> ~ Forall2 (request_text code) ws l).
Proof.
  intros C L code lit CL LC n i Hf Hp Hn.
  assert (R : forall l, http_requests code lit n i = Done l <-> exists ws, rest i = concat ws /\ Forall2 (request_text code) ws l) by
    (apply (series_exact L code lit CL LC); auto).
  split; [exact R|]. destruct (series_returns L code lit CL LC (C66_total C L code lit) n i Hf Hp Hn) as [[l K]|K]; rewrite K.
  - split; [discriminate|]. intros N. exfalso. apply R in K. destruct K as [ws [K1 K2]]. exact (N ws l K1 K2).
  - split; [|reflexivity]. intros _ ws l K1 K2. assert (Q : http_requests code lit n i = Done l) by (apply R; eauto). congruence.
Qed.
Print Assumptions C66_series.

(** No text is two requests, and none is a request and the beginning of another. *)
Theorem C66_unambiguous : forall (w w' r r' : list N) v v',
  request_text (fun n => n) w v -> request_text (fun n => n) w' v' -> w ++ r = w' ++ r' -> w = w' /\ r = r' /\ v = v'.
Proof.
  intros w w' r r' v v' H1 H2 E. set (C := cfg_easy bytes_tok (Datatypes.S (length (w ++ r))) true). assert (L : lawful C) by (apply lawful_easy, bytes_lawful).
  set (i := @Inp C (w ++ r) 0 false). destruct (C66_exact C L (fun n => n) (fun n => n) (fun n _ => eq_refl) (fun n => eq_refl) i (Nat.lt_succ_diag_r _) eq_refl) as [H _].
  assert (A : parse_http_request (C:=C) (fun n => n) (fun n => n) i = Done (inl v, @Inp C r (pos_after (C:=C) 0 w) false)).
  { apply H. exists w. split; [split; [reflexivity|split; reflexivity]|exact H1]. }
  assert (B : parse_http_request (C:=C) (fun n => n) (fun n => n) i = Done (inl v', @Inp C r' (pos_after (C:=C) 0 w') false)).
  { apply H. exists w'. split; [split; [exact E|split; reflexivity]|exact H2]. }
  rewrite A in B. apply (f_equal (fun o => match o with Done (inl v, i) => Some (v, rest i) | _ => None end)) in B. cbn in B. injection B as Q1 Q2.
  subst v' r'. split; [|auto]. apply app_inv_tail in E. exact E.
Qed.
Print Assumptions C66_unambiguous.

(** Requests of RFC 9112 are read if every field has blanks before its value and the value is not empty; blanks after the value become part of it. *)
Theorem C66_rfc : forall (C : Cfg), lawful C -> forall (code : tok C -> N) (lit : N -> tok C),
  (forall n, (n < 256)%N -> code (lit n) = n) -> (forall t, lit (code t) = t) ->
  forall i w r q fs, length (rest i) < fuel C -> ipart i = false -> rest i = w ++ r -> rfc_request code w q fs -> Forall (fun f => f_before f <> [] /\ f_value f <> []) fs ->
  exists i', parse_http_request code lit i = Done (inl (q, List.map (fun f => HeaderV (f_name f) [f_value f ++ f_after f]) fs), i') /\ rest i' = r.
Proof.
  intros C L code lit CL LC i w r q fs Hi Hp Hr Hq Hf. exists (@Inp C r (pos_after (ipos i) w) (ipart i)). split; [|reflexivity].
  apply (C66_exact C L code lit CL LC i Hi Hp). exists w. split; [split; [exact Hr|split; reflexivity]|]. apply rfc_is_request; auto.
Qed.
Print Assumptions C66_rfc.

(** * Examples *)
Definition HP := http_request (C:=BC) (fun n => n) (fun n => n).
Definition crlf : string := String (Ascii.ascii_of_N 13) (String (Ascii.ascii_of_N 10) "").
Definition hrun (s : string) := match parse_http_request (C:=BC) (fun n => n) (fun n => n) (bin (t8 s)) with Done (inl v, i) => Some (v, rest i) | _ => None end.
Definition rq (m u v : string) : request_v N := RequestV (t8 m) (t8 u) (t8 v).
(** The first lines of benches/http-requests.txt. *)
Example C66_ex : hrun ("GET / HTTP/1.1" ++ crlf ++ "Host: www.reddit.com" ++ crlf ++ "A: b" ++ crlf ++ "  c" ++ crlf ++ crlf ++ "GET") =
  Some (rq "GET" "/" "1.1", [HeaderV (t8 "Host") [t8 "www.reddit.com"]; HeaderV (t8 "A") [t8 "b"; t8 "c"]], t8 "GET").
Proof. vm_compute. reflexivity. Qed.
Definition two_requests := t8 ("GET / HTTP/1.1" ++ crlf ++ crlf ++ "PUT  /x HTTP/2" ++ crlf ++ crlf).
Example C66_ex_series : http_requests (C:=cfg_easy bytes_tok 200 true) (fun n => n) (fun n => n) 50 (@Inp (cfg_easy bytes_tok 200 true) two_requests 0 false) =
  Done [(rq "GET" "/" "1.1", []); (rq "PUT" "/x" "2", [])].
Proof. vm_compute. reflexivity. Qed.
Example C66_ex_panic : http_requests (C:=cfg_easy bytes_tok 200 true) (fun n => n) (fun n => n) 50 (@Inp (cfg_easy bytes_tok 200 true) (two_requests ++ [10%N]) 0 false) = Panic.
Proof. vm_compute. reflexivity. Qed.
Ltac between_ := vm_compute; split; discriminate.
Ltac tch := first [left; between_ | right; left; between_ | right; right; left; between_].
Ltac tchs := split; [discriminate|]; repeat (apply Forall_cons; [tch|]); apply Forall_nil.
(** Blank before the value, after it too. *)
Definition rfc_ex := t8 ("GET / HTTP/1.1" ++ crlf ++ "Host: a " ++ crlf ++ crlf).
Example C66_ex_rfc : rfc_request (fun n => n) rfc_ex (rq "GET" "/" "1.1") [RfcField (t8 "Host") (t8 " ") (t8 "a") (t8 " ")].
Proof.
  exists (t8 " "), (t8 " "), (t8 "HTTP/"), (t8 crlf), [t8 ("Host: a " ++ crlf)], (t8 crlf). split; [reflexivity|].
  split; [tchs|]. split; [reflexivity|].
  split; [split; [discriminate|]; apply Forall_cons; [between_|apply Forall_nil]|]. split; [reflexivity|]. split; [reflexivity|].
  split; [exists 49%N, 46%N, 49%N; vm_compute; repeat split; discriminate|]. split; [reflexivity|]. split; [|reflexivity].
  constructor; [|constructor]. split; [split; [|split; [|split]]|].
  - tchs.
  - constructor; [left; reflexivity|constructor].
  - split; [constructor; [left; left; vm_compute; split; discriminate|constructor]|]. split; vm_compute; intros [K|K]; discriminate.
  - constructor; [left; reflexivity|constructor].
  - exists 58%N, (t8 crlf). repeat split; reflexivity.
Qed.
(** But fields without a blank after the colon, or without value, are refused although the standard allows them ... *)
Definition no_blank := t8 ("GET / HTTP/1.1" ++ crlf ++ "Host:a" ++ crlf ++ crlf).
Definition no_value := t8 ("GET / HTTP/1.1" ++ crlf ++ "Host: " ++ crlf ++ crlf).
Theorem C66_all_rfc_refuted : ~ (forall (i : input BC) w q fs, length (rest i) < fuel BC -> ipart i = false -> rest i = w -> rfc_request (fun n => n) w q fs ->
  exists v i', parse_http_request (C:=BC) (fun n => n) (fun n => n) i = Done (inl v, i')).
Proof.
  intros H. destruct (H (bin no_blank) no_blank (rq "GET" "/" "1.1") [RfcField (t8 "Host") [] (t8 "a") []]) as [v [i' K]].
  - vm_compute. repeat constructor.
  - reflexivity.
  - reflexivity.
  - exists (t8 " "), (t8 " "), (t8 "HTTP/"), (t8 crlf), [t8 ("Host:a" ++ crlf)], (t8 crlf). split; [reflexivity|].
    split; [tchs|]. split; [reflexivity|].
    split; [split; [discriminate|]; apply Forall_cons; [between_|apply Forall_nil]|]. split; [reflexivity|]. split; [reflexivity|].
    split; [exists 49%N, 46%N, 49%N; vm_compute; repeat split; discriminate|]. split; [reflexivity|]. split; [|reflexivity].
    constructor; [|constructor]. split; [split; [|split; [|split]]|].
    + tchs.
    + constructor.
    + split; [constructor; [left; left; vm_compute; split; discriminate|constructor]|]. split; vm_compute; intros [K|K]; discriminate.
    + constructor.
    + exists 58%N, (t8 crlf). repeat split; reflexivity.
  - vm_compute in K. discriminate.
Qed.
Print Assumptions C66_all_rfc_refuted.
Example C66_ex_no_value : exists e i', parse_http_request (C:=BC) (fun n => n) (fun n => n) (bin no_value) = Done (inr e, i').
Proof. eexists _, _. vm_compute. reflexivity. Qed.
(** ... and texts are read which the standard forbids: control characters (here DEL) in the method, line ends in the target. *)
Example C66_ex_lax : hrun (String (Ascii.ascii_of_N 127) (" /a" ++ crlf ++ "X:y HTTP/..1" ++ crlf ++ crlf)) =
  Some (RequestV [127%N] (t8 ("/a" ++ crlf ++ "X:y")) (t8 "..1"), [], []).
Proof. vm_compute. reflexivity. Qed.

(** Read in pieces, the parser accepts a request it refuses at once, and drops the unfinished field: the data may not be cut after the colon
    of a field without value.  ([many] takes the failure of the resumed field parser, which has read the name before, for the end of the fields.) *)
Theorem C66_pieces_refuted : exists (a b : list N) st i e v i' st',
  p_run HP true (bpart a) (p_init HP) = Done (CommitErr e, i, st) /\ e_is_eoi BC e = true /\ rest i = [] /\
  p_run HP false (@Inp BC b 21 false) st = Done (CommitOk v, i', st') /\ rest i' = [] /\ snd v = [] /\
  a = t8 ("GET / HTTP/1.1" ++ crlf ++ "Host:") /\ b = t8 crlf /\
  exists e0 i0, parse_http_request (C:=BC) (fun n => n) (fun n => n) (bin (a ++ b)) = Done (inr e0, i0).
Proof.
  eexists (t8 ("GET / HTTP/1.1" ++ crlf ++ "Host:")), (t8 crlf), _, _, _, _, _, _. split; [vm_compute; reflexivity|]. split; [reflexivity|]. split; [reflexivity|].
  split; [vm_compute; reflexivity|]. split; [reflexivity|]. split; [reflexivity|]. split; [reflexivity|]. split; [reflexivity|]. eexists _, _. vm_compute. reflexivity.
Qed.
Print Assumptions C66_pieces_refuted.
