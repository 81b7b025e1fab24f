(** Tests (not proofs): examples from /repo/tests/parser.rs and the doc comments, run on the model.  They check the
    model's fidelity, in particular the order and content of error lists. *)
From Coq Require Import String List Bool Arith NArith.
Import ListNotations.
From Verif Require Import Base Parser Errors Token Combinator Sequence Choice Repeat RangeP ByteP Instances.
Set Implicit Arguments.
Local Open Scope string_scope.

Definition CC : Cfg := cfg_easy src_tok 50 true.
Definition inp (s : string) : input CC := @Inp CC (chars s) (1, 1) false.
Definition tk (s : string) : parser CC unit N := @token CC (ch s).
Definition t_digit : parser CC unit N := @c_digit CC (fun x => x).
Definition t_letter : parser CC unit N := @byte_class CC (fun x => x) is_ascii_alphabetic "letter".
Definition str (s : string) : parser CC unit string := @string_p CC s (chars s).
Definition errs {S A} (p : parser CC S A) (s : string) : option (source_pos * list (easy_error N)) :=
  match parse p (inp s) with Done (inr e, _) => Some (eposition e, elist e) | _ => None end.
Definition oks {S A} (p : parser CC S A) (s : string) : option (A * list N) :=
  match parse p (inp s) with Done (inl v, i) => Some (v, rest i) | _ => None end.
Notation U x := (EUnexpected (IToken (ch x))).
Notation X x := (EExpected (IToken (ch x))).
Notation XS x := (EExpected (IStatic x)).
Notation P1 := (1, 1).
Notation posp p := (with_ (@position CC) p).

(** tests/parser.rs:99-117 *)
Example expected_retain_errors :
  errs (expected (expected (message t_digit (IStatic "message")) (IStatic "N/A")) (IStatic "my expected digit")) "a"
  = Some (P1, [U "a"; EMessage (IStatic "message"); XS "my expected digit"]).
Proof. vm_compute. reflexivity. Qed.

(** tests/parser.rs:119-133 *)
Example tuple_parse_error : errs (pair2 t_digit t_digit) "a" = Some (P1, [U "a"; XS "digit"]).
Proof. vm_compute. reflexivity. Qed.

(** tests/parser.rs:135-201 *)
Example message_tests :
  (errs (message (tk "o") (IStatic "m")) "hi", errs (map (message (tk "o") (IStatic "m")) (fun x => x)) "hi",
   errs (message (with_ (tk "h") (tk "o")) (IStatic "m")) "hi")
  = (Some (P1, [U "h"; X "o"; EMessage (IStatic "m")]), Some (P1, [U "h"; X "o"; EMessage (IStatic "m")]),
     Some ((1, 2), [U "i"; X "o"; EMessage (IStatic "m")])).
Proof. vm_compute. reflexivity. Qed.

(** tests/parser.rs:203-264 *)
Example expected_tests :
  (errs (expected (tk "o") (IStatic "m")) "hi", errs (expected (map (tk "o") (fun x => x)) (IStatic "m")) "hi",
   errs (expected (with_ (tk "h") (tk "o")) (IStatic "m")) "hi")
  = (Some (P1, [U "h"; XS "m"]), Some (P1, [U "h"; XS "m"]), Some ((1, 2), [U "i"; X "o"])).
Proof. vm_compute. reflexivity. Qed.

(** tests/parser.rs:266-289 *)
Example try_tests :
  (errs (attempt (@unexpected CC (IStatic "test"))) "hi", errs (attempt (with_ (tk "h") (@unexpected CC (IStatic "test")))) "hi")
  = (Some (P1, [U "h"; EUnexpected (IStatic "test")]), Some ((1, 2), [U "i"; EUnexpected (IStatic "test")])).
Proof. vm_compute. reflexivity. Qed.

(** tests/parser.rs:291-311 *)
Example sequence_error :
  (errs (tup3 (tk "a") (tk "b") (tk "c")) "c", errs (tup3 (tk "a") (tk "b") (tk "c")) "ac")
  = (Some (P1, [U "c"; X "a"]), Some ((1, 2), [U "c"; X "b"])).
Proof. vm_compute. reflexivity. Qed.

(** tests/parser.rs:313-362 *)
Example optional_errors :
  (errs (pair2 (optional (tk "a")) (tk "b")) "c",
   errs (pair2 (pair2 (optional (tk "a")) (tk "b")) (tk "c")) "c",
   errs (tup3 (tk "b") (optional (tk "a")) (tk "b")) "bc")
  = (Some (P1, [U "c"; X "a"; X "b"]), Some (P1, [U "c"; X "a"; X "b"]), Some ((1, 2), [U "c"; X "a"; X "b"])).
Proof. vm_compute. reflexivity. Qed.

(** tests/parser.rs:364-422 *)
Example sequence_in_choice :
  (errs (or_ (pair2 (optional (tk "a")) (tk "1")) (skip (pair2 (optional (tk "b")) (tk "2")) (tk "d"))) "c",
   errs (choice_slice (p_init (pair2 (optional (tk "a")) (tk "1")))
           [pair2 (optional (tk "a")) (tk "1"); pair2 (optional (tk "b")) (tk "2")]) "c",
   errs (choice_slice tt [tk "1"; no_partial (map (pair2 (optional (tk "b")) (tk "2")) snd)]) "c")
  = (Some (P1, [X "a"; X "1"; X "b"; X "2"; U "c"]),
     Some (P1, [X "a"; X "1"; X "b"; X "2"; U "c"]),
     Some (P1, [X "1"; X "b"; X "2"; U "c"])).
Proof. vm_compute. reflexivity. Qed.

(** tests/parser.rs:424-462 *)
Example misc_ok :
  (oks (sep_end_by1 t_digit (tk ";")) "1;;", oks (or_ (count_min_max 1 1 (tk "a")) (@value CC (list N) [])) "b",
   oks (take_until (attempt (pair2 (tk "a") (tk "b")))) "aaab", oks (skip_until (attempt (pair2 (tk "a") (tk "b")))) "aaab",
   oks (recognize_range (skip_until (attempt (pair2 (tk "a") (tk "b"))))) "aaab")
  = (Some ([ch "1"], chars ";"), Some ([], chars "b"), Some (chars "aa", chars "ab"), Some (tt, chars "ab"),
     Some (chars "aa", chars "ab")).
Proof. vm_compute. reflexivity. Qed.

(** tests/parser.rs:464-514 *)
Example sequence_in_optional :
  (errs (skip (optional (posp (tk "a"))) (tk "}")) "b",
   errs (skip (skip (optional (posp (tk "a"))) (optional (posp (tk "c")))) (tk "}")) "b",
   errs (pair2 (tk "{") (skip (skip (optional (posp (tk "a"))) (optional (posp (tk "c")))) (tk "}"))) "{b")
  = (Some (P1, [U "b"; X "a"; X "}"]), Some (P1, [U "b"; X "a"; X "c"; X "}"]),
     Some ((1, 2), [U "b"; X "a"; X "c"; X "}"])).
Proof. vm_compute. reflexivity. Qed.

(** tests/parser.rs:516-556 *)
Definition many_err := Some ((1, 2), [U "b"; X "a"; X "}"]).
Example sequence_in_many :
  (errs (skip (many (posp (tk "a"))) (tk "}")) "ab", errs (skip (many1 (posp (tk "a"))) (tk "}")) "ab",
   errs (with_ (many (posp (tk "a"))) (tk "}")) "ab", errs (with_ (many1 (posp (tk "a"))) (tk "}")) "ab",
   errs (between (many (posp (tk "a"))) (tk "|") (tk "}")) "ab", errs (between (many1 (posp (tk "a"))) (tk "|") (tk "}")) "ab")
  = (many_err, many_err, many_err, many_err, many_err, many_err).
Proof. vm_compute. reflexivity. Qed.

(** tests/parser.rs:558-583 *)
Definition sep_err := Some ((1, 4), [U "b"; X ","; X "}"]).
Example sequence_in_sep_by :
  (errs (skip (sep_by (posp (tk "a")) (tk ",")) (tk "}")) "a,ab", errs (skip (sep_by1 (posp (tk "a")) (tk ",")) (tk "}")) "a,ab",
   errs (with_ (sep_by (posp (tk "a")) (tk ",")) (tk "}")) "a,ab", errs (with_ (sep_by1 (posp (tk "a")) (tk ",")) (tk "}")) "a,ab")
  = (sep_err, sep_err, sep_err, sep_err).
Proof. vm_compute. reflexivity. Qed.

(** tests/parser.rs:585-620 *)
Definition ident s := attempt (str s).
Example choice_compose :
  (errs (choice (AC (skip (ident "aa") (str ";")) (AL (choice (AL (ident "cc")))))) "c",
   errs (skip (many (pair2 (@position CC) (choice (AC (skip (ident "aa") (str ";"))
                 (AL (choice (AC (ident "bb") (AL (ident "cc"))))))))) (str ".")) "c")
  = (Some (P1, [U "c"; XS "aa"; EUnexpected (IStatic "end of input"); XS "cc"]),
     Some (P1, [U "c"; XS "aa"; XS "bb"; XS "cc"])).
Proof. vm_compute. reflexivity. Qed.

(** tests/parser.rs:622-634, 682-689 *)
Example last_errors :
  (errs (pair2 t_digit t_letter) "11", errs (skip (str "let") (not_followed_by (map (@eof CC) (fun _ => tt)))) "let")
  = (Some ((1, 2), [U "1"; XS "letter"]), Some ((1, 4), [])).
Proof. vm_compute. reflexivity. Qed.

(** tests/parser.rs:87-96 *)
Example sep_by_committed_error :
  match errs (sep_by (pair2 t_letter t_letter) (tk ",")) "a,bc" with Some _ => true | None => false end = true.
Proof. vm_compute. reflexivity. Qed.
