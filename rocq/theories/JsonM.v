(** The JSON parser of benches/json.rs. *)
From Coq Require Import String List Bool Arith NArith ZArith.
Import ListNotations.
From Verif Require Import Base Parser Errors Token Combinator Sequence Choice Repeat RangeP ByteP Instances TotalSpec.
Set Implicit Arguments.

(** The operations of [f64] used by benches/json.rs:70-101.  Floating point arithmetic itself is not modelled: the parser is
    defined, and the theorems hold, for any operations. *)
Record f64_ops : Type := F64Ops {
  f64 : Type;
  f_int : Z -> f64;                   (* [x as f64] of an i64 or u32, and the literals 0.0, 1.0, 10.0 *)
  f_add : f64 -> f64 -> f64;
  f_sub : f64 -> f64 -> f64;
  f_mul : f64 -> f64 -> f64;
  f_div : f64 -> f64 -> f64;
  f_neg : f64 -> f64;
  f_ge0 : f64 -> bool;                (* [x >= 0.0] *)
  f_pow10 : Z -> f64                  (* [10.0f64.powi(e)] *)
}.

(** [char::is_whitespace] of the Rust standard library: the Unicode property White_Space (char.rs:65). *)
Definition is_whitespace (c : N) : bool :=
  in_range 9 13 c || (c =? 32)%N || (c =? 133)%N || (c =? 160)%N || (c =? 5760)%N || in_range 8192 8202 c ||
  (c =? 8232)%N || (c =? 8233)%N || (c =? 8239)%N || (c =? 8287)%N || (c =? 12288)%N.

(** Two's complement arithmetic of [i64] and [as i32].  (Benchmarks are built without overflow checks; with them the additions and
    multiplications of [integer] would panic instead of wrapping.) *)
Definition wrap (bits : Z) (x : Z) : Z := ((x + 2 ^ (bits - 1)) mod 2 ^ bits - 2 ^ (bits - 1))%Z.
Definition wrap64 := wrap 64.
Definition wrap32 := wrap 32.

(** benches/json.rs:32-40 [Value].  The hash map of an object is kept as the list of its fields in the order of the text; the map
    built from them by [Extend] holds the last one of each key. *)
Inductive json (X F : Type) : Type :=
| JNumber (x : F)
| JString (s : list X)
| JBool (b : bool)
| JNull
| JObject (l : list (list X * json X F))
| JArray (l : list (json X F)).
Arguments JNumber {X F}.
Arguments JString {X F}.
Arguments JBool {X F}.
Arguments JNull {X F}.
Arguments JObject {X F}.
Arguments JArray {X F}.

Section Json.
Context {C : Cfg}.
Notation T := (tok C).
Notation E := (Err C).
Variable fo : f64_ops.

(** The tokens are characters. *)
Variable code : T -> N.
Variable lit : N -> T.
Definition jlits (s : string) : list T := List.map lit (chars s).

(** char.rs:60-66 [space], 80-85 [spaces]. *)
Definition c_space := byte_class code is_whitespace "whitespace".
Definition c_spaces := expected (skip_many c_space) (IStatic "whitespaces").
(** char.rs:19-25 [char]. *)
Definition jchar (c : N) : parser C unit T := token (lit c).

(** benches/json.rs:42-53 *)
Definition jlex {S A} (p : parser C S A) := skip p c_spaces.

(** benches/json.rs:55-68 *)
Definition json_integer :=
  expected (map (jlex (many1 (c_digit code)))
    (fun s => fold_left (fun n c => wrap64 (wrap64 (n * 10) + (Z.of_N (code c) - 48)))%Z s 0%Z))
    (IStatic "integer").

(** benches/json.rs:75-84.  The branch that panics is not reached: the characters come from [digit]. *)
Definition json_fractional :=
  map (many (c_digit code))
    (fun digits => fst (fold_left (fun am d =>
       let magnitude := f_div fo (snd am) (f_int fo 10) in
       match char_to_digit (code d) with
       | Some d => (f_add fo (fst am) (f_mul fo (f_int fo (Z.of_N d)) magnitude), magnitude)
       | None => am
       end) digits (f_int fo 0, f_int fo 1))).

(** benches/json.rs:74 *)
Definition json_int_part := or_ (map (jchar 48) (fun _ => f_int fo 0)) (map json_integer (f_int fo)).
(** benches/json.rs:86 *)
Definition json_exp :=
  with_ (satisfy (fun c => (code c =? 101)%N || (code c =? 69)%N)) (pair2 (optional (jchar 45)) json_integer).

(** benches/json.rs:70-101 *)
Definition json_number :=
  expected (jlex
    (map (pair2
       (map (pair2
          (map (pair2 (optional (jchar 45)) json_int_part)
             (fun x => match fst x with Some _ => f_neg fo (snd x) | None => snd x end))
          (with_ (optional (jchar 46)) json_fractional))
          (fun x => if f_ge0 fo (fst x) then f_add fo (fst x) (snd x) else f_sub fo (fst x) (snd x)))
       (optional json_exp))
       (fun x => match snd x with
                 | Some (sign, e) =>
                     let e := match sign with Some _ => wrap64 (- e) | None => e end in
                     f_mul fo (fst x) (f_pow10 fo (wrap32 e))
                 | None => fst x
                 end)))
    (IStatic "number").

(** benches/json.rs:109-121 *)
Definition back_slash_char : parser C unit T :=
  satisfy_map (fun c =>
    if (code c =? 34)%N then Some (lit 34)
    else if (code c =? 92)%N then Some (lit 92)
    else if (code c =? 47)%N then Some (lit 47)
    else if (code c =? 98)%N then Some (lit 8)
    else if (code c =? 102)%N then Some (lit 12)
    else if (code c =? 110)%N then Some (lit 10)
    else if (code c =? 114)%N then Some (lit 13)
    else if (code c =? 116)%N then Some (lit 9)
    else None).
(** benches/json.rs:103-128 *)
Definition json_char : parser C unit T :=
  fn_parser (fun i =>
    obind (p_lazy any i) (fun x =>
      match into_std (fst x) with
      | inr e => Done (inr e, snd x)
      | inl (c, committed) =>
          if (code c =? 92)%N then
            omap (fun y => (commit_combine committed (fun _ => into_std (fst y)), snd y)) (p_stream back_slash_char (snd x))
          else if (code c =? 34)%N then Done (inr (Peek (to_trk (e_empty C (ipos (snd x))))), snd x)
          else Done (inl (c, committed), snd x)
      end)).

(** benches/json.rs:130-135 *)
Definition json_string := expected (between (jchar 34) (jlex (jchar 34)) (many json_char)) (IStatic "string").

(** benches/json.rs:137-146 *)
Definition json_object (value : parser C unit (json T (f64 fo))) :=
  let field := map (tuple (TC json_string (TC (jlex (jchar 58)) (T1 value)))) (fun t => (fst t, snd (snd t))) in
  let fields := sep_by field (jlex (jchar 44)) in
  expected (map (between (jlex (jchar 123)) (jlex (jchar 125)) fields) JObject) (IStatic "object").

(** benches/json.rs:158-179 [json_value_], given the parser it calls itself. *)
Definition json_body (value : parser C unit (json T (f64 fo))) :=
  let array := map (between (jlex (jchar 91)) (jlex (jchar 93)) (sep_by value (jlex (jchar 44)))) JArray in
  choice (AC (map json_string JString)
    (AC (json_object value)
    (AC array
    (AC (map json_number JNumber)
    (AC (jlex (map (string_p "false" (jlits "false")) (fun _ => JBool false)))
    (AC (jlex (map (string_p "true" (jlits "true")) (fun _ => JBool true)))
    (AL (jlex (map (string_p "null" (jlits "null")) (fun _ => JNull)))))))))).

(** benches/json.rs:149-154 [json_value], with the call stack unrolled [k] deep. *)
Definition json_value (k : nat) : parser C unit (json T (f64 fo)) := rec_macro json_body k.
End Json.
