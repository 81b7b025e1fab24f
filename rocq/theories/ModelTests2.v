(** Tests (not proofs): the examples in the documentation comments of /repo/src, run on the model.  The project runs them
    as tests of the code; here they check that the model does what the code is documented (and tested) to do. *)
From Coq Require Import String List Bool Arith NArith ZArith.
Import ListNotations.
From Verif Require Import Base Parser Errors Token Combinator Sequence Choice Repeat RangeP ByteP Instances ObjM ModelTests.
Set Implicit Arguments.
Local Open Scope string_scope.

(** [Ok((v, rest))], with the rest as text; [is_err()]. *)
Notation "p =: s ==> v // r" := (oks p s = Some (v, chars r)) (at level 70, s at next level, v at next level, r at next level).
Definition is_err {S A} (p : parser CC S A) (s : string) : bool := match parse p (inp s) with Done (inr _, _) => true | _ => false end.
Ltac run := repeat split; vm_compute; reflexivity.
Definition id_code : N -> N := fun x => x.
Definition sp := @b_space CC id_code. Definition sps := @b_spaces CC id_code. Definition alnum := @b_alpha_num CC id_code.
Definition lower (c : N) : N := if is_ascii_uppercase c then (c + 32)%N else c.
Definition nocase (l r : N) : bool := N.eqb (lower l) (lower r).
Definition strl (s : string) : parser CC unit (list N) := @bytes CC (chars s).
Definition nl : string := String (Ascii.ascii_of_N 10) "". Definition cr : string := String (Ascii.ascii_of_N 13) "".
Definition crlf_ : string := cr ++ nl. Definition tb : string := String (Ascii.ascii_of_N 9) "".
Definition num_of (l : list N) : N := fold_left (fun a c => a * 10 + (c - 48))%N l 0%N.

(** parser/token.rs:32-41, 95-101, 138-157, 198-204 *)
Example doc_token_1 :
  (@any CC =: "!" ==> ch "!" // "") /\ is_err (@any CC) "" = true /\
  (satisfy (C := CC) (fun c => N.eqb c (ch "!") || N.eqb c (ch "?")) =: "!" ==> ch "!" // "") /\
  (satisfy (C := CC) (fun c => N.eqb c (ch "!") || N.eqb c (ch "?")) =: "?" ==> ch "?" // "") /\
  (satisfy_map (C := CC) (fun c => if N.eqb c (ch "Y") then Some true else if N.eqb c (ch "N") then Some false else None) =: "Y" ==> true // "") /\
  is_err (satisfy_map (C := CC) (fun c => if N.eqb c (ch "Y") then Some true else if N.eqb c (ch "N") then Some false else None)) "A" = true /\
  (tk "!" =: "!" ==> ch "!" // "").
Proof. run. Qed.
(** parser/token.rs:291-314, 391-413 *)
Example doc_tokens :
  (@tokens CC N nocase (IStatic "abc") (chars "abc") =: "AbC" ==> chars "abc" // "") /\
  (@tokens CC N (fun l r => ((if (l <? r)%N then r - l else l - r) <=? 2)%N) (IRange (chars "025")) (chars "025") =: "123" ==> chars "025" // "") /\
  (@tokens_cmp CC N (chars "abc") nocase =: "AbC" ==> chars "abc" // "") /\
  (@tokens_cmp CC N (chars "025") (fun l r => ((if (l <? r)%N then r - l else l - r) <=? 2)%N) =: "123" ==> chars "025" // "").
Proof. run. Qed.
(** parser/token.rs:446-459, 500-505, 547-563 *)
Example doc_token_2 :
  (tup3 (@position CC) (tk "!") (@position CC) =: "!" ==> ((1, 1), (ch "!", (1, 2))) // "") /\
  (many (@one_of CC (chars "abc")) =: "abd" ==> chars "ab" // "d") /\
  (many1 (@none_of CC (chars "abc")) =: "xyb" ==> chars "xy" // "b") /\
  errs (many1 (@none_of CC (chars "abc"))) "ab" = Some (P1, [U "a"]).
Proof. run. Qed.
(** parser/token.rs:596-600, 633-640, 678-692 *)
Example doc_token_3 :
  (@value CC _ 42 =: "hello world" ==> 42 // "hello world") /\
  (@produce CC _ (fun _ => [tt]) =: "hello world" ==> [tt] // "hello world") /\
  (@eof CC =: "" ==> tt // "") /\ errs (@eof CC) "x" = Some (P1, [U "x"; XS "end of input"]).
Proof. run. Qed.

(** parser/sequence.rs:447-489 ([struct_parser!] is the tuple without its [_] members), 600-606 *)
Definition doc_num := @from_str CC _ _ _ (@take_while1 CC is_ascii_digit) (fun l => Some (inl (num_of l))).
Definition doc_spaced (s : string) := between sps sps (tk s).
Definition doc_point := map (tup3 doc_num (doc_spaced ",") doc_num) (fun t => (fst t, snd (snd t))).
Definition doc_field := map (tuple (TC (many t_letter) (TC (doc_spaced ":") (TC (many t_letter) (TC (doc_spaced ":") (T1 doc_point))))))
  (fun t => let '(name, (_, (value, (_, point)))) := t in (name, value, point)).
Example doc_sequence :
  (doc_field =: "test: data: 123 , 4" ==> (chars "test", chars "data", (123%N, 4%N)) // "") /\
  (between (tk "[") (tk "]") (str "rust") =: "[rust]" ==> "rust" // "").
Proof. run. Qed.

(** parser/choice.rs:18-30 *)
Definition doc_choice_macro := choice (AC (many1 t_digit) (AC (strl "let") (AL (many1 t_letter)))).
Example doc_choice_1 :
  (doc_choice_macro =: "let" ==> chars "let" // "") /\ (doc_choice_macro =: "123abc" ==> chars "123" // "abc") /\ is_err doc_choice_macro ":123" = true.
Proof. run. Qed.
(** parser/choice.rs:525-553 *)
Definition doc_apple := choice (AC (strl "Apple") (AC (many1 t_digit) (AL (strl "Orange")))).
Example doc_choice_2 :
  (doc_apple =: "1234" ==> chars "1234" // "") /\ (doc_apple =: "Orangexx" ==> chars "Orange" // "xx") /\
  is_err doc_apple "Appl" = true /\ is_err doc_apple "Pear" = true /\
  is_err (choice_slice tt [str "one"; str "two"; str "three"]) "three" = true /\
  (choice_slice tt [attempt (str "one"); attempt (str "two"); attempt (str "three")] =: "three" ==> "three" // "").
Proof. run. Qed.
(** parser/choice.rs:599-620; parser/mod.rs:440-460 (the other way to group the alternatives) *)
Definition doc_let1 := or_ (str "let") (or_ (map t_digit (fun _ => "digit")) (str "led")).
Definition doc_let2 := or_ (or_ (str "let") (map t_digit (fun _ => "digit"))) (str "led").
Example doc_or :
  (doc_let1 =: "let" ==> "let" // "") /\ (doc_let1 =: "1" ==> "digit" // "") /\ is_err doc_let1 "led" = true /\
  (doc_let2 =: "let" ==> "let" // "") /\ (doc_let2 =: "1" ==> "digit" // "") /\ is_err doc_let2 "led" = true /\
  is_err (or_ (str "two") (str "three")) "three" = true /\
  (or_ (attempt (str "two")) (attempt (str "three")) =: "three" ==> "three" // "").
Proof. run. Qed.
(** parser/choice.rs:673-680 *)
Example doc_optional :
  (optional (str "hello") =: "hello" ==> Some "hello" // "") /\ (optional (str "hello") =: "world" ==> None // "world") /\ is_err (optional (str "hello")) "heya" = true.
Proof. run. Qed.

(** parser/repeat.rs:27-35, 55-63, 169-179, 208-218 *)
Example doc_count :
  (count 2 (tk "a") =: "aaab" ==> chars "aa" // "ab") /\ (skip_count 2 (tk "a") =: "aaab" ==> tt // "ab") /\
  (count_min_max 2 2 (tk "a") =: "aaab" ==> chars "aa" // "ab") /\ is_err (count_min_max 2 2 (tk "a")) "ab" = true /\
  (skip_count_min_max 2 2 (tk "a") =: "aaab" ==> tt // "ab") /\ is_err (skip_count_min_max 2 2 (tk "a")) "ab" = true.
Proof. run. Qed.
(** parser/repeat.rs:430-436, 519-524, 566-571, 593-598 *)
Example doc_many :
  (many t_digit =: "123A" ==> chars "123" // "A") /\ is_err (many1 t_digit) "A123" = true /\
  (skip_many t_digit =: "A" ==> tt // "A") /\ (skip_many1 t_digit =: "123A" ==> tt // "A").
Proof. run. Qed.
(** parser/repeat.rs:661-668, 759-775, 842-849, 945-961 *)
Definition doc_no_digit : option (source_pos * list (easy_error N)) := Some (P1, [EUnexpected (IStatic "end of input"); XS "digit"]).
Example doc_sep :
  (sep_by t_digit (tk ",") =: "1,2,3" ==> chars "123" // "") /\ (sep_by t_digit (tk ",") =: "" ==> [] // "") /\
  (sep_by1 t_digit (tk ",") =: "1,2,3" ==> chars "123" // "") /\ errs (sep_by1 t_digit (tk ",")) "" = doc_no_digit /\
  (sep_end_by t_digit (tk ";") =: "1;2;3;" ==> chars "123" // "") /\ (sep_end_by t_digit (tk ";") =: "1;2;3" ==> chars "123" // "") /\
  (sep_end_by1 t_digit (tk ";") =: "1;2;3;" ==> chars "123" // "") /\ errs (sep_end_by1 t_digit (tk ";")) "" = doc_no_digit.
Proof. run. Qed.
(** parser/repeat.rs:1049-1058, 1121-1132 *)
Definition doc_number1 := map t_digit (fun c => (c - 48)%N).
Example doc_chain :
  (chainl1 doc_number1 (map (tk "-") (fun _ => N.sub)) =: "9-3-5" ==> 1%N // "") /\ (chainr1 doc_number1 (map (tk "^") (fun _ => N.pow)) =: "2^3^2" ==> 512%N // "").
Proof. run. Qed.
(** parser/repeat.rs:1197-1213, 1235-1251, 1345-1361 *)
Example doc_take_until :
  (take_until t_digit =: "abc123" ==> chars "abc" // "123") /\ (take_until (strl "TAG") =: "123TAG" ==> chars "123" // "TAG") /\
  is_err (take_until (strl "TAG")) "123TATAG" = true /\ (take_until (attempt (strl "TAG")) =: "123TATAG" ==> chars "123TA" // "TAG") /\
  (skip_until t_digit =: "abc123" ==> tt // "123") /\ (skip_until (strl "TAG") =: "123TAG" ==> tt // "TAG") /\
  is_err (skip_until (strl "TAG")) "123TATAG" = true /\ (skip_until (attempt (strl "TAG")) =: "123TATAG" ==> tt // "TAG").
Proof. run. Qed.
(** parser/repeat.rs:1457-1474 *)
Definition doc_escaped := recognize_range (escaped (@take_while1 CC (fun c => negb (N.eqb c 34) && negb (N.eqb c 92))%N) 92%N (@one_of CC (chars "nr""\"))).
Example doc_escaped_ :
  (doc_escaped =: "ab\""12\n\rc""" ==> chars "ab\""12\n\rc" // """") /\ is_err doc_escaped "\" = true /\ is_err doc_escaped "\a" = true.
Proof. run. Qed.
(** parser/repeat.rs:1598-1606 *)
Example doc_iterate : iterate (p_init (count_min_max 0 0 (@any CC))) [0; 1; 2] (fun i => count_min_max i i (@any CC)) =: "abbccc" ==> [[]; chars "a"; chars "bb"] // "ccc".
Proof. run. Qed.

(** parser/combinator.rs:63-71, 146-156, 192-203 *)
Example doc_back :
  is_err (skip (str "let") (not_followed_by alnum)) "letx" = true /\
  (or_ (attempt (str "let")) (str "lex") =: "lex" ==> "lex" // "") /\ is_err (or_ (attempt (str "let")) (str "lex")) "aet" = true /\
  (look_ahead (str "test") =: "test str" ==> "test" // "test str") /\ is_err (look_ahead (str "test")) "aet" = true.
Proof. run. Qed.
(** parser/combinator.rs:534-541, 675-682, 810-831 (and 913-934, 1016-1032: the same with Send and Sync) *)
Definition doc_decimal := tup3 (skip_many1 t_digit) (tk ".") (skip_many1 t_digit).
Example doc_recognize :
  (recognize doc_decimal =: "123.45" ==> chars "123.45" // "") /\
  (pair2 (no_partial t_letter) t_letter =: "ab" ==> (ch "a", ch "b") // "") /\
  (any_partial_state (pair2 t_letter t_letter) =: "ab" ==> (ch "a", ch "b") // "").
Proof. run. Qed.
(** parser/combinator.rs:1184-1191 *)
Definition doc_cycle : machine (@fobj CC nat unit N) (list N * unit) (list N) :=
  many_obj (@factory_obj CC nat unit N (fun n i => (if Nat.even n then t_digit else t_letter, i, Datatypes.S n)) tt).
Example doc_factory : match m_parse doc_cycle (factory_new 0) (inp "1a2b3cd") with Done (inl v, i, _) => v = chars "1a2b3c" /\ rest i = chars "d" | _ => False end.
Proof. vm_compute. split; reflexivity. Qed.
(** parser/combinator.rs:1267-1289 *)
Definition doc_digits := @take_while1 CC is_ascii_digit.
Example doc_from_str :
  (from_str (many1 t_digit) (fun l => Some (@inl _ string (num_of l))) =: "12345" ++ crlf_ ==> 12345%N // crlf_) /\
  (from_str doc_digits (fun l => Some (@inl _ string (num_of l))) =: "12345" ++ crlf_ ==> 12345%N // crlf_) /\
  (from_str (recognize_range (tup3 doc_digits (tk ".") doc_digits)) (fun l => Some (@inl _ string l)) =: "123.45" ++ crlf_ ==> chars "123.45" // crlf_).
Proof. run. Qed.

(** parser/range.rs:77-82, 207-220, 239-246, 281-292, 340-348, 398-406, 515-523, 639-650 and 674-685 *)
Definition doc_value := recognize_with_value (map (pair2 (skip_many1 t_digit) (optional (pair2 (attempt (tk ".")) (skip_many1 t_digit))))
   (fun t => match snd t with Some _ => true | None => false end)).
Example doc_range :
  (recognize_range (skip_many1 t_letter) =: "hello world" ==> chars "hello" // " world") /\ is_err (recognize_range (skip_many1 t_letter)) "!" = true /\
  (doc_value =: "1234!" ==> (chars "1234", false) // "!") /\ (doc_value =: "1234.0001!" ==> (chars "1234.0001", true) // "!") /\
  is_err doc_value "!" = true /\ is_err doc_value "1234." = true /\
  (@range CC (chars "hello") =: "hello world" ==> chars "hello" // " world") /\ is_err (@range CC (chars "hello")) "hel world" = true /\
  (@take CC 1 =: "1" ==> chars "1" // "") /\ (@take CC 4 =: "123abc" ==> chars "123a" // "bc") /\ is_err (@take CC 4) "abc" = true /\
  (@take_while CC is_ascii_digit =: "123abc" ==> chars "123" // "abc") /\ (@take_while CC is_ascii_digit =: "abc" ==> [] // "abc") /\
  (@take_while1 CC is_ascii_digit =: "123abc" ==> chars "123" // "abc") /\ is_err (@take_while1 CC is_ascii_digit) "abc" = true /\
  (@take_until_range CC (chars crlf_) =: "To: user@example.com" ++ crlf_ ==> chars "To: user@example.com" // crlf_) /\
  is_err (@take_until_range CC (chars crlf_)) ("Hello, world" ++ nl) = true.
Proof. run. Qed.
Definition be16 := @be_u CC id_code 2.
Definition bytes_in (l : list N) : input CC := @Inp CC l (1, 1) false.
Example doc_length_prefix :
  match parse (@length_prefix CC _ _ be16 (fun n => inl (N.to_nat n))) (bytes_in ([0; 3]%N ++ chars "1234")) with
  | Done (inl v, i) => v = chars "123" /\ rest i = chars "4" | _ => False end.
Proof. vm_compute. split; reflexivity. Qed.

(** parser/char.rs:15-221 and the same for bytes, parser/byte.rs:17-216 *)
Definition cls (p : parser CC unit N) (yes no : list string) : bool :=
  forallb (fun s => match oks p s with Some (v, r) => N.eqb v (ch s) && Nat.eqb (List.length r) (List.length (chars s) - 1) | None => false end) yes && forallb (is_err p) no.
Example doc_classes :
  (cls (tk "!") ["!"] [] && cls (tk "A") [] ["!"; ""] && cls t_digit ["9"] ["A"] && cls sp [" "; "  "] ["!"; ""] && cls (@b_newline CC id_code) [nl] [cr] &&
   cls (@b_tab CC id_code) [tb] [" "] && cls (@b_upper CC id_code) ["A"] ["a"] && cls (@b_lower CC id_code) ["a"] ["A"] && cls alnum ["A"; "1"] ["!"] &&
   cls t_letter ["a"; "A"] ["9"] && cls (@b_oct_digit CC id_code) ["7"] ["8"] && cls (@c_oct_digit CC id_code) ["7"] ["8"] &&
   cls (@b_hex_digit CC id_code) ["F"] ["H"] && cls (@c_hex_digit CC id_code) ["F"] ["H"])%bool = true /\
  (sps =: "" ==> tt // "") /\ (sps =: "   " ==> tt // "") /\
  (@b_crlf CC id_code =: crlf_ ==> 10%N // "") /\ is_err (@b_crlf CC id_code) cr = true /\ is_err (@b_crlf CC id_code) nl = true.
Proof. run. Qed.
(** parser/char.rs:236-241, 256-261; parser/byte.rs:235-240, 264-268 *)
Example doc_strings :
  (str "rust" =: "rust" ==> "rust" // "") /\ (@string_cmp CC "rust" (chars "rust") nocase =: "RusT" ==> "rust" // "") /\
  (strl "rust" =: "rust" ==> chars "rust" // "") /\ (@bytes_cmp CC (chars "abc") nocase =: "AbC" ==> chars "abc" // "").
Proof. run. Qed.
(** parser/byte.rs:324-331, 343-350, 362-369, 385-394 *)
Definition as_b : list N -> list N := fun l => l.
Definition doc_mail := "To: user@example.com" ++ crlf_.
Example doc_take_until_bytes :
  (@take_until_byte CC as_b 13%N =: doc_mail ==> chars "To: user@example.com" // crlf_) /\ is_err (@take_until_byte CC as_b 13%N) ("Hello, world" ++ nl) = true /\
  (@take_until_byte2 CC as_b 13%N 10%N =: doc_mail ==> chars "To: user@example.com" // crlf_) /\
  (@take_until_byte2 CC as_b 13%N 10%N =: "Hello, world" ++ nl ==> chars "Hello, world" // nl) /\
  (@take_until_byte3 CC as_b 13%N 10%N 32%N =: doc_mail ==> chars "To:" // " user@example.com" ++ crlf_) /\ is_err (@take_until_byte3 CC as_b 13%N 10%N 32%N) "Helloworld" = true /\
  (@take_until_bytes CC as_b (chars crlf_) =: "abc" ++ crlf_ ==> chars "abc" // crlf_).
Proof. run. Qed.
(** parser/byte.rs:488-582 *)
Definition num_is {A} (p : parser CC unit A) (l : list N) : option (A * list N) := match parse p (bytes_in l) with Done (inl v, i) => Some (v, rest i) | _ => None end.
Example doc_numbers :
  num_is (@le_u CC id_code 2) [1; 0]%N = Some (1%N, []) /\ num_is (@le_u CC id_code 2) [0]%N = None /\
  num_is (@le_u CC id_code 4) [1; 0; 0; 0]%N = Some (1%N, []) /\ num_is (@le_u CC id_code 4) [1; 0; 0]%N = None /\
  num_is (@le_u CC id_code 8) [1; 0; 0; 0; 0; 0; 0; 0]%N = Some (1%N, []) /\ num_is (@le_u CC id_code 8) [1; 0; 0; 0; 0; 0; 0]%N = None /\
  num_is (@le_i CC id_code 2) [1; 0]%N = Some (1%Z, []) /\ num_is (@le_i CC id_code 2) [1]%N = None /\
  num_is (@le_i CC id_code 4) [1; 0; 0; 0]%N = Some (1%Z, []) /\ num_is (@le_i CC id_code 4) [1; 0; 0]%N = None /\
  num_is (@le_i CC id_code 8) [1; 0; 0; 0; 0; 0; 0; 0]%N = Some (1%Z, []) /\ num_is (@le_i CC id_code 8) [1; 0; 0; 0; 0; 0; 0]%N = None.
Proof. run. Qed.
(** parser/error.rs:38-51, 69-82 *)
Example doc_unexpected :
  match errs (@unexpected CC (IStatic "token")) "a" with Some (_, l) => In (EUnexpected (IStatic "token")) l | None => False end /\
  match errs (or_ (tk "b") (@unexpected_any CC N (IStatic "token"))) "a" with Some (_, l) => In (EUnexpected (IStatic "token")) l | None => False end.
Proof. vm_compute. auto 10. Qed.

(** parser/function.rs:30-57 *)
Definition even_digit : parser CC unit Z := @fn_parser CC Z (fun i =>
  obind (p_stream t_digit i) (fun x => match into_std (fst x) with
    | inr e => Done (inr e, snd x)
    | inl (c, committed) =>
        let d := (Z.of_N c - 48)%Z in
        if Z.even d then Done (inl (d, committed), snd x)
        else Done (inr (Peek (to_trk (e_from CC (ipos i) (EExpected (IStatic "even number"))))), snd x)
    end)).
Example doc_even : (even_digit =: "8" ==> 8%Z // "").
Proof. run. Qed.
(** parser/function.rs:136-165 *)
Definition doc_env : list (list N * nat) := [(chars "hello", 1); (chars "test", 2)].
Definition doc_lookup (env : list (list N * nat)) (s : list N) : nat :=
  match List.find (fun x => if list_eq_dec N.eq_dec (fst x) s then true else false) env with Some (_, v) => v | None => 0 end.
Definition interner := @env_parser CC _ nat doc_env (fun env i => omap (fun x => (into_std (fst x), snd x)) (p_stream (map (many t_letter) (doc_lookup env)) i)).
Example doc_env_parser : (interner =: "hello" ==> 1 // "") /\ (interner =: "world" ==> 0 // "").
Proof. run. Qed.
(** parser/mod.rs:337-357 *)
Definition by_ref_test : parser CC unit (N * N) := @fn_parser CC (N * N) (fun i =>
  obind (p_stream (pair2 t_digit t_letter) i) (fun x => match into_std (fst x) with
    | inr e => Done (inr e, snd x)
    | inl ((d, _), committed) =>
        obind (p_stream t_digit (snd x)) (fun y =>
          Done (match commit_combine committed (fun _ => into_std (fst y)) with inl (d2, c) => inl ((d, d2), c) | inr e => inr e end, snd y))
    end)).
Example doc_by_ref :
  match p_stream by_ref_test (inp "1a23") with Done (CommitOk v, i) => v = (ch "1", ch "2") /\ rest i = chars "3" | _ => False end.
Proof. vm_compute. split; reflexivity. Qed.
(** parser/mod.rs:367-371, 390-394, 414-418, 479-492, 518-531, 554-567 *)
Definition nine {S} (p : parser CC S N) : N -> parser CC (option (S + unit)) N := fun d =>
  either (if N.eqb d (ch "9") then inl p else inr (message (@unexpected_any CC N (IToken d)) (IStatic "Not a nine"))).
Example doc_then :
  (with_ t_digit (tk "i") =: "9i" ==> ch "i" // "") /\ (skip t_digit (tk "i") =: "9i" ==> ch "9" // "") /\ (pair2 t_digit (tk "i") =: "9i" ==> (ch "9", ch "i") // "") /\
  (then_ t_digit None (nine (@value CC _ 9%N)) =: "9" ==> 9%N // "") /\ (then_partial t_digit None (nine (@value CC _ 9%N)) =: "9" ==> 9%N // "") /\
  (then_ref t_digit None (nine t_digit) =: "98" ==> (ch "9", ch "8") // "").
Proof. run. Qed.
(** parser/mod.rs:586-590, 616-622 *)
Example doc_map :
  (map t_digit (fun c => N.eqb c (ch "9")) =: "9" ==> true // "") /\
  (@flat_map CC _ _ _ (@take CC 4) (fun bs => match parse (many t_digit) (bytes_in bs) with Done (inl v, _) => inl v | Done (inr e, _) => inr e | _ => inl [] end)
     =: "12abcd" ==> chars "12" // "cd").
Proof. run. Qed.
(** parser/mod.rs:638-653, 669-697, 711-725 *)
Example doc_messages :
  errs (message (tk "9") (IStatic "Not a nine")) "8" = Some (P1, [U "8"; X "9"; EMessage (IStatic "Not a nine")]) /\
  errs (expected (tk "9") (IStatic "nine")) "8" = Some (P1, [U "8"; XS "nine"]) /\
  errs (silent (expected (tk "9") (IStatic "nine"))) "8" = Some (P1, [U "8"]).
Proof. run. Qed.
(** parser/mod.rs:740-754: [str::parse::<i32>] of the digits *)
Definition doc_i32 := and_then (many1 t_digit) (fun l => if (num_of l <? 2147483648)%N then inl (num_of l) else @inr N (SErr CC) (EOther "number too large")).
Example doc_and_then : (doc_i32 =: "1234" ==> 1234%N // "") /\ option_map fst (errs doc_i32 "999999999999999999999999") = Some (1, 1).
Proof. run. Qed.
(** parser/mod.rs:770-788, 800-818 *)
Example doc_iter : sep_by (doc_number t_digit (fun l => match l with [] => None | _ => Some (num_of l) end)) (tk ",") =: "123,45,6" ==> [123; 45; 6]%N // "".
Proof. run. Qed.
(** parser/mod.rs:836-851 *)
Example doc_boxed : no_partial (pair2 (tk "a") (@satisfy CC (fun c => (97 <=? c) && (c <=? 102))%N)) =: "ac" ==> (ch "a", ch "c") // "".
Proof. run. Qed.
(** parser/mod.rs:868-885, 902-919 *)
Definition doc_comment := then_ (@any CC) None (fun c => either
  (if N.eqb c (ch "#") then inl (with_ (skip_many (@satisfy CC (fun c => negb (N.eqb c 10)))) (@value CC (list N) []))
   else inr (map (many1 t_letter) (fun s => c :: s)))).
Example doc_left_right : (doc_comment =: "ac2" ==> chars "ac" // "2") /\ (doc_comment =: "# ac2" ==> [] // "").
Proof. run. Qed.
(** parser/mod.rs:976-999; parser/choice.rs:804-819 is C69's example *)
Example doc_fn : parser_fn0 (many1 t_letter) =: "abc" ==> chars "abc" // "".
Proof. run. Qed.

(** lib.rs:58-78 *)
Definition doc_integer := with_ sps (map (many1 t_digit) num_of).
Example doc_list : sep_by doc_integer (skip sps (tk ",")) =: "1234, 45,78" ==> [1234; 45; 78]%N // "".
Proof. run. Qed.
(** lib.rs:92-163; the recursion is unrolled [n] times *)
Inductive doc_expr : Type := EId (s : list N) | EArray (l : list doc_expr) | EPair (l r : doc_expr).
Fixpoint expr_p (n : nat) : parser CC unit doc_expr :=
  match n with
  | 0 => @unexpected_any CC doc_expr (IStatic "too deep")
  | Datatypes.S n =>
      let skip_spaces := silent sps in
      let lex_char c := skip (tk c) skip_spaces in
      let array := between (lex_char "[") (lex_char "]") (sep_by (expr_p n) (lex_char ",")) in
      let pair := map (tuple (TC (lex_char "(") (TC (expr_p n) (TC (lex_char ",") (TC (expr_p n) (T1 (lex_char ")")))))))
                    (fun t => let '(_, (l, (_, (r, _)))) := t in EPair l r) in
      parser_fn0 (skip (choice (AC (map (many1 t_letter) EId) (AC (map array EArray) (AL pair)))) skip_spaces)
  end.
Example doc_expr_ : expr_p 5 =: "[[], (hello, world), [rust]]" ==>
  EArray [EArray []; EPair (EId (chars "hello")) (EId (chars "world")); EArray [EId (chars "rust")]] // "".
Proof. run. Qed.
(** lib.rs:247-313 *)
Definition doc_int := parser_fn0 (from_str (many1 t_digit) (fun l => Some (@inl _ string (num_of l)))).
Definition int_or_string := parser_fn0 (choice (AC (map doc_int inl) (AL (map (many1 (@any CC)) (@inr N (list N)))))).
Example doc_parser_macro :
  (doc_int =: "123" ==> 123%N // "") /\ is_err doc_int "!" = true /\
  (int_or_string =: "123" ==> inl 123%N // "") /\ (int_or_string =: "abc" ==> inr (chars "abc") // "") /\
  (parser_fn0 (pair2 t_digit t_digit) =: "123" ==> (ch "1", ch "2") // "3").
Proof. run. Qed.
(** error.rs:291-322 *)
Definition lit_char : parser CC unit N := @fn_parser CC N (fun i =>
  obind (p_stream (@satisfy CC (fun c => negb (N.eqb c 34))) i) (fun x => match into_std (fst x) with
    | inr e => Done (inr e, snd x)
    | inl (c, committed) =>
        if N.eqb c 92 then obind (p_stream (@satisfy CC (fun c => N.eqb c 34 || N.eqb c 92)) (snd x)) (fun y =>
          Done (commit_combine committed (fun _ => into_std (fst y)), snd y))
        else Done (inl (c, committed), snd x)
    end)).
Example doc_combine : many lit_char =: "abc\""\\" ==> chars "abc""\" // "".
Proof. run. Qed.
(** error.rs:284-287 *)
Example doc_merge :
  (commit_merge (Peek 1) (Peek 2), commit_merge (Commit 1) (Peek 2), commit_merge (Peek 1) (Commit 2), commit_merge (Commit 1) (Commit 2))
  = (Peek 2, Commit 2, Commit 2, Commit 2).
Proof. reflexivity. Qed.
