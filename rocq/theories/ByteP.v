(** Byte and character parsers (parser/byte.rs, parser/char.rs) and function parsers (parser/function.rs). *)
From Coq Require Import String List Bool Arith NArith ZArith.
Import ListNotations.
From Verif Require Import Base Parser Token Combinator Sequence Repeat RangeP.
Set Implicit Arguments.

(** The [u8::is_ascii_*] functions of the Rust standard library used by byte.rs:36-231, as documented there. *)
Definition in_range (lo hi b : N) : bool := ((lo <=? b) && (b <=? hi))%N.
Definition is_ascii_digit (b : N) : bool := in_range 48 57 b.
Definition is_ascii_uppercase (b : N) : bool := in_range 65 90 b.
Definition is_ascii_lowercase (b : N) : bool := in_range 97 122 b.
Definition is_ascii_alphabetic (b : N) : bool := is_ascii_uppercase b || is_ascii_lowercase b.
Definition is_ascii_alphanumeric (b : N) : bool := is_ascii_alphabetic b || is_ascii_digit b.
Definition is_ascii_hexdigit (b : N) : bool := is_ascii_digit b || in_range 65 70 b || in_range 97 102 b.
Definition is_ascii_whitespace (b : N) : bool :=
  ((b =? 32) || (b =? 9) || (b =? 10) || (b =? 12) || (b =? 13))%N.

(** [char::is_digit(radix)] of the Rust standard library (char.rs:45, 211, 226), for [radix <= 16]: [to_digit]
    gives a value below the radix. *)
Definition char_to_digit (c : N) : option N :=
  if in_range 48 57 c then Some (c - 48)%N
  else if in_range 97 102 c then Some (c - 97 + 10)%N
  else if in_range 65 70 c then Some (c - 65 + 10)%N
  else None.
Definition char_is_digit (radix c : N) : bool :=
  match char_to_digit c with Some d => (d <? radix)%N | None => false end.

(** [memchr::memchr], [memchr2], [memchr3] (external crate): the first index whose byte satisfies a predicate. *)
Fixpoint find_index {X} (f : X -> bool) (l : list X) : option nat :=
  match l with
  | [] => None
  | x :: r => if f x then Some 0 else option_map S (find_index f r)
  end.

(** [slice::starts_with]. *)
Fixpoint starts_with {X} (eqb : X -> X -> bool) (needle l : list X) : bool :=
  match needle, l with
  | [], _ => true
  | x :: n', y :: l' => eqb x y && starts_with eqb n' l'
  | _ :: _, [] => false
  end.

(** byte.rs:415-426 [memslice]: for every occurrence of the first byte ([memchr_iter], in increasing order) check that
    the rest of the needle follows. *)
Fixpoint memslice_go {X} (eqb : X -> X -> bool) (prefix : X) (suffix haystack : list X) : option nat :=
  match haystack with
  | [] => None
  | x :: r =>
      if eqb x prefix && starts_with eqb suffix r then Some 0
      else option_map S (memslice_go eqb prefix suffix r)
  end.
Definition memslice {X} (eqb : X -> X -> bool) (needle haystack : list X) : option nat :=
  match needle with
  | [] => Some 0
  | prefix :: suffix => memslice_go eqb prefix suffix haystack
  end.

(** [uN::from_be_bytes] / [from_le_bytes] and two's complement for [iN] (Rust standard library). *)
Definition be_value (l : list N) : N := fold_left (fun a b => a * 256 + b)%N l 0%N.
Definition le_value (l : list N) : N := fold_right (fun b a => b + 256 * a)%N 0%N l.
Definition signed_value (bytes : nat) (v : N) : Z :=
  let m := (2 ^ (8 * Z.of_nat bytes))%Z in
  if (2 * Z.of_N v <? m)%Z then Z.of_N v else (Z.of_N v - m)%Z.

Section ByteP.
Context {C : Cfg}.
Notation T := (tok C).
Notation E := (Err C).

(** function.rs:50-72 [FnParser]: any pure function on the input. *)
Definition fn_parser {A} (f : input C -> outcome (std_result A E * input C)) : parser C unit A :=
  mk_lazy (fun i => omap (fun x => (from_std (fst x), snd x)) (f i)) no_err no_err 1.

(** function.rs:83-133 [EnvParser]: the environment is cloned and passed to the function. *)
Definition env_parser {X A} (env : X) (f : X -> input C -> outcome (std_result A E * input C)) : parser C unit A :=
  fn_parser (f env).

(** How a token is a byte (or a character a code point). *)
Variable code : T -> N.

(** byte.rs:36-49 [byte_parser!] and the classes. *)
Definition byte_class (f : N -> bool) (name : string) : parser C unit T :=
  expected (satisfy (fun t => f (code t))) (IStatic name).
(** byte.rs:50-55 *)
Definition b_digit := byte_class is_ascii_digit "digit".
(** byte.rs:67-72 *)
Definition b_space := byte_class is_ascii_whitespace "space".
(** byte.rs:84-89 *)
Definition b_spaces := expected (skip_many b_space) (IStatic "whitespaces").
(** byte.rs:99-104 *)
Definition b_newline := byte_class (N.eqb 10) "lf newline".
(** byte.rs:115-120 *)
Definition b_crlf := expected (no_partial (with_ (satisfy (fun t => N.eqb 13 (code t))) b_newline)) (IStatic "crlf newline").
(** byte.rs:130-135 *)
Definition b_tab := byte_class (N.eqb 9) "tab".
(** byte.rs:145-150 *)
Definition b_upper := byte_class is_ascii_uppercase "upper".
(** byte.rs:160-165 *)
Definition b_lower := byte_class is_ascii_lowercase "lower".
(** byte.rs:176-181 *)
Definition b_alpha_num := byte_class is_ascii_alphanumeric "alpha_num".
(** byte.rs:192-197 *)
Definition b_letter := byte_class is_ascii_alphabetic "letter".
(** byte.rs:207-212 *)
Definition b_oct_digit := byte_class (in_range 48 55) "octal digit".
(** byte.rs:222-227 *)
Definition b_hex_digit := byte_class is_ascii_hexdigit "hex_digit".

(** char.rs:36-48, 203-213, 218-228.  The Unicode classes (space, upper, lower, alpha_num, letter: char.rs:57-199) are
    [byte_class] with the corresponding standard library predicate; their tables are not modelled. *)
Definition c_digit := parser_fn0 (byte_class (char_is_digit 10) "digit").
Definition c_oct_digit := byte_class (char_is_digit 8) "octal digit".
Definition c_hex_digit := byte_class (char_is_digit 16) "hexadecimal digit".

(** byte.rs:265-287 [bytes_cmp], 233-255 [bytes]. *)
Definition bytes_cmp (s : list T) (cmp : T -> T -> bool) : parser C unit (list T) :=
  parser_fn0 (expected (map (tokens_cmp s cmp) (fun _ => s)) (IRange s)).
Definition bytes (s : list T) : parser C unit (list T) := parser_fn0 (bytes_cmp s (tok_eqb C)).

(** char.rs:268-274 [string_cmp], 244-249 [string]; [text] is the literal as displayed text. *)
Definition string_cmp (text : string) (s : list T) (cmp : T -> T -> bool) : parser C unit string :=
  expected (map (tokens_cmp s cmp) (fun _ => text)) (IStatic text).
Definition string_p (text : string) (s : list T) : parser C unit string := string_cmp text s (tok_eqb C).

(** The bytes of a range ([AsRef<[u8]>]): the identity for slices of bytes, the UTF-8 encoding for strings. *)
Variable as_bytes : list T -> list N.

(** byte.rs:289-366 [take_until!]: [take_until_byte], [take_until_byte2], [take_until_byte3]. *)
Definition take_until_byte_by (f : N -> bool) : parser C nat (list T) :=
  parser_fn (take_fn (fun haystack =>
    let h := as_bytes haystack in
    match find_index f h with Some i => Found i | None => NotFound (length h) end)).
Definition take_until_byte (a : N) := take_until_byte_by (N.eqb a).
Definition take_until_byte2 (a b : N) := take_until_byte_by (fun x => N.eqb a x || N.eqb b x).
Definition take_until_byte3 (a b c : N) := take_until_byte_by (fun x => N.eqb a x || N.eqb b x || N.eqb c x).

(** byte.rs:368-413 [take_until_bytes]. *)
Definition take_until_bytes (needle : list N) : parser C nat (list T) :=
  parser_fn (take_fn (fun haystack =>
    let h := as_bytes haystack in
    match memslice N.eqb needle h with
    | Some i => Found i
    | None => NotFound (length h - (length needle - 1))
    end)).

(** byte.rs:435-483 [integer_parser!]: read [k] tokens, reset on error. *)
Fixpoint read_tokens (k : nat) (i : input C) : PR (list T) E * input C :=
  match k with
  | 0 => (PeekOk [], i)
  | S k' =>
      match s_uncons i with
      | (CommitOk t, i') | (PeekOk t, i') =>
          let (r, i2) := read_tokens k' i' in (pr_map (cons t) r, i2)
      | (CommitErr e, i') => (CommitErr e, i')
      | (PeekErr e, i') => (PeekErr e, i')
      end
  end.

Definition num_parser {A} (k : nat) (decode : list N -> A) : parser C unit A :=
  fn_parser (fun i =>
    match read_tokens k i with
    | (CommitOk l, i') | (PeekOk l, i') => Done (into_std (CommitOk (decode (List.map code l))), i')
    | (CommitErr e, _) => Done (into_std (CommitErr e), i)
    | (PeekErr e, _) => Done (into_std (PeekErr e), i)
    end).

(** byte.rs:485-583: unsigned, signed and floating point instances.  A float is represented by its bit pattern. *)
Definition be_u (k : nat) : parser C unit N := num_parser k be_value.
Definition le_u (k : nat) : parser C unit N := num_parser k le_value.
Definition be_i (k : nat) : parser C unit Z := num_parser k (fun l => signed_value k (be_value l)).
Definition le_i (k : nat) : parser C unit Z := num_parser k (fun l => signed_value k (le_value l)).

End ByteP.
