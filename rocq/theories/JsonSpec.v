(** Specification of the JSON parser: the texts it reads and their values, and the texts of RFC 8259. *)
From Coq Require Import String List Bool Arith NArith ZArith QArith.
Import ListNotations.
From Verif Require Import Base Instances JsonM.
Set Implicit Arguments.
Local Open Scope nat_scope.

Section JsonSpec.
Variable X : Type.
Variable code : X -> N.
Variable fo : f64_ops.
Notation J := (json X (f64 fo)).

Definition is_char (n : N) (t : X) : Prop := code t = n.
Definition decimal (t : X) : Prop := (48 <= code t <= 57)%N.
(** The Unicode property White_Space. *)
Definition white (t : X) : Prop :=
  In (code t) ([9; 10; 11; 12; 13; 32; 133; 160; 5760; 8192; 8193; 8194; 8195; 8196; 8197; 8198; 8199; 8200; 8201; 8202;
                8232; 8233; 8239; 8287; 12288])%N.

(** The text does not begin with such a character; all such characters up to there. *)
Definition stops (f : X -> Prop) (r : list X) : Prop := match r with [] => True | t :: _ => ~ f t end.
Definition span (f : X -> Prop) (w r : list X) : Prop := Forall f w /\ stops f r.
(** The character and the white space after it. *)
Definition lexeme (n : N) (w r : list X) : Prop := exists t s, w = t :: s /\ is_char n t /\ span white s r.

(** The number written with decimal digits; the [bits] low bits of a number, as a signed number. *)
Definition digit_value (t : X) : Z := (Z.of_N (code t) - 48)%Z.
Definition decimal_value (l : list X) : Z := fold_left (fun n t => 10 * n + digit_value t)%Z l 0%Z.
Definition low_bits (bits : Z) (x z : Z) : Prop := (- 2 ^ (bits - 1) <= z < 2 ^ (bits - 1) /\ exists k, x = z + k * 2 ^ bits)%Z.

(** Integer part of a number: [0], or digits not starting with [0] and the white space after them. *)
Inductive int_text : list X -> list X -> list X -> Prop :=
| it_zero : forall t r, is_char 48 t -> int_text [t] r [t]
| it_digits : forall t ds s r, decimal t -> ~ is_char 48 t -> span decimal ds (s ++ r) -> span white s r ->
    int_text ((t :: ds) ++ s) r (t :: ds).
(** Exponent (or none): its sign and digits. *)
Inductive exp_text : list X -> list X -> option (bool * list X) -> Prop :=
| et_none : forall r, stops (fun t => is_char 101 t \/ is_char 69 t) r -> exp_text [] r None
| et_pos : forall e ds s r, is_char 101 e \/ is_char 69 e -> ds <> [] -> span decimal ds (s ++ r) -> span white s r ->
    exp_text (e :: ds ++ s) r (Some (false, ds))
| et_neg : forall e m ds s r, is_char 101 e \/ is_char 69 e -> is_char 45 m -> ds <> [] -> span decimal ds (s ++ r) -> span white s r ->
    exp_text (e :: m :: ds ++ s) r (Some (true, ds)).
(** A number: sign, digits of the integer part, digits after it, exponent. *)
Definition number_text (w r : list X) (neg : bool) (ip fr : list X) (ex : option (bool * list X)) : Prop :=
  exists sg iw dt ew s, w = sg ++ iw ++ dt ++ fr ++ ew ++ s /\
    (if neg then exists t, sg = [t] /\ is_char 45 t else sg = []) /\
    int_text iw (dt ++ fr ++ ew ++ s ++ r) ip /\
    ((exists t, dt = [t] /\ is_char 46 t) \/ (dt = [] /\ stops (is_char 46) (fr ++ ew ++ s ++ r))) /\
    span decimal fr (ew ++ s ++ r) /\
    exp_text ew (s ++ r) ex /\
    span white s r.

(** The digits after the point, each with a tenth of the weight of the one before. *)
Fixpoint frac_value (acc mag : f64 fo) (fr : list X) : f64 fo :=
  match fr with
  | [] => acc
  | t :: fr => let mag := f_div fo mag (f_int fo 10) in frac_value (f_add fo acc (f_mul fo (f_int fo (digit_value t)) mag)) mag fr
  end.
Definition number_value (neg : bool) (ip fr : list X) (ex : option (bool * list X)) (v : f64 fo) : Prop :=
  exists n, low_bits 64 (decimal_value ip) n /\
  let x := if neg then f_neg fo (f_int fo n) else f_int fo n in
  let y := frac_value (f_int fo 0) (f_int fo 1) fr in
  let z := if f_ge0 fo x then f_add fo x y else f_sub fo x y in
  match ex with
  | None => v = z
  | Some (eneg, ds) => exists e, low_bits 32 (if eneg then - decimal_value ds else decimal_value ds) e /\ v = f_mul fo z (f_pow10 fo e)
  end.

(** The inside of a string: characters other than quote and backslash, and escapes. *)
Definition escapes : list (N * N) := [(34, 34); (92, 92); (47, 47); (98, 8); (102, 12); (110, 10); (114, 13); (116, 9)]%N.
Inductive chars_text : list X -> list X -> Prop :=
| ct_nil : chars_text [] []
| ct_plain : forall t w s, ~ is_char 34 t -> ~ is_char 92 t -> chars_text w s -> chars_text (t :: w) (t :: s)
| ct_escape : forall b e t w s, is_char 92 b -> In (code e, code t) escapes -> chars_text w s -> chars_text (b :: e :: w) (t :: s).
Definition string_text (w r : list X) (s : list X) : Prop :=
  exists q body close, w = q :: body ++ close /\ is_char 34 q /\ chars_text body s /\ lexeme 34 close r.

(** One or more, separated by commas. *)
Inductive items {A} (V : list X -> list X -> A -> Prop) : list X -> list X -> list A -> Prop :=
| items_one : forall w r a, V w r a -> items V w r [a]
| items_more : forall w1 c w2 r a l, V w1 (c ++ w2 ++ r) a -> lexeme 44 c (w2 ++ r) -> items V w2 r l ->
    items V (w1 ++ c ++ w2) r (a :: l).
Definition field (V : list X -> list X -> J -> Prop) (w r : list X) (kv : list X * J) : Prop :=
  exists k c v, w = k ++ c ++ v /\ string_text k (c ++ v ++ r) (fst kv) /\ lexeme 58 c (v ++ r) /\ V v r (snd kv).
Definition word_text (word : string) (w r : list X) : Prop := exists u s, w = u ++ s /\ List.map code u = chars word /\ span white s r.

(** [jvalue w r v]: the text [w], when [r] follows, is the value [v]. *)
Inductive jvalue : list X -> list X -> J -> Prop :=
| jv_string : forall w r s, string_text w r s -> jvalue w r (JString s)
| jv_object0 : forall o c r, lexeme 123 o (c ++ r) -> lexeme 125 c r -> jvalue (o ++ c) r (JObject [])
| jv_object : forall o m c r l, lexeme 123 o (m ++ c ++ r) -> items (field jvalue) m (c ++ r) l -> lexeme 125 c r ->
    jvalue (o ++ m ++ c) r (JObject l)
| jv_array0 : forall o c r, lexeme 91 o (c ++ r) -> lexeme 93 c r -> jvalue (o ++ c) r (JArray [])
| jv_array : forall o m c r l, lexeme 91 o (m ++ c ++ r) -> items jvalue m (c ++ r) l -> lexeme 93 c r ->
    jvalue (o ++ m ++ c) r (JArray l)
| jv_number : forall w r neg ip fr ex v, number_text w r neg ip fr ex -> number_value neg ip fr ex v -> jvalue w r (JNumber v)
| jv_false : forall w r, word_text "false" w r -> jvalue w r (JBool false)
| jv_true : forall w r, word_text "true" w r -> jvalue w r (JBool true)
| jv_null : forall w r, word_text "null" w r -> jvalue w r JNull.

(** The characters a value can begin with: quote, braces, bracket, minus, digits, [f], [t], [n]. *)
Definition begins (l : list X) : Prop :=
  match l with [] => False | t :: _ => In (code t) [34; 123; 91; 45; 102; 116; 110]%N \/ decimal t end.

(** * RFC 8259 *)
(** Section 2 (white space), 7 (strings, without [\u] escapes), 6 (numbers, without [+] in the exponent), 5, 4, 3. *)
Definition ws (t : X) : Prop := In (code t) [32; 9; 10; 13]%N.
Inductive rfc_chars : list X -> list X -> Prop :=
| rc_nil : rfc_chars [] []
| rc_plain : forall t w s, (32 <= code t)%N -> code t <> 34%N -> code t <> 92%N -> rfc_chars w s -> rfc_chars (t :: w) (t :: s)
| rc_escape : forall b e t w s, code b = 92%N -> In (code e, code t) escapes -> rfc_chars w s -> rfc_chars (b :: e :: w) (t :: s).
Definition rfc_string (w s : list X) : Prop := exists q body q', w = q :: body ++ [q'] /\ code q = 34%N /\ code q' = 34%N /\ rfc_chars body s.
Definition rfc_int (ip : list X) : Prop :=
  exists t ds, ip = t :: ds /\ decimal t /\ Forall decimal ds /\ (code t = 48%N -> ds = []).
Definition rfc_frac (w fr : list X) : Prop := (w = [] /\ fr = []) \/ exists t, w = t :: fr /\ code t = 46%N /\ fr <> [] /\ Forall decimal fr.
Definition rfc_exp (w : list X) (ex : option (bool * list X)) : Prop :=
  (w = [] /\ ex = None) \/
  (exists e ds, w = e :: ds /\ (code e = 101%N \/ code e = 69%N) /\ ds <> [] /\ Forall decimal ds /\ ex = Some (false, ds)) \/
  (exists e m ds, w = e :: m :: ds /\ (code e = 101%N \/ code e = 69%N) /\ code m = 45%N /\ ds <> [] /\ Forall decimal ds /\ ex = Some (true, ds)).
Definition rfc_number (w : list X) (neg : bool) (ip fr : list X) (ex : option (bool * list X)) : Prop :=
  exists sg fw ew, w = sg ++ ip ++ fw ++ ew /\ (if neg then exists t, sg = [t] /\ code t = 45%N else sg = []) /\
    rfc_int ip /\ rfc_frac fw fr /\ rfc_exp ew ex.

Inductive rfc_value : list X -> J -> Prop :=
| rv_string : forall w s, rfc_string w s -> rfc_value w (JString s)
| rv_number : forall w neg ip fr ex v, rfc_number w neg ip fr ex -> number_value neg ip fr ex v -> rfc_value w (JNumber v)
| rv_false : forall w, List.map code w = chars "false" -> rfc_value w (JBool false)
| rv_true : forall w, List.map code w = chars "true" -> rfc_value w (JBool true)
| rv_null : forall w, List.map code w = chars "null" -> rfc_value w JNull
| rv_array0 : forall o s c, code o = 91%N -> Forall ws s -> code c = 93%N -> rfc_value (o :: s ++ [c]) (JArray [])
| rv_array : forall o s m c l, code o = 91%N -> Forall ws s -> rfc_elements m l -> code c = 93%N -> rfc_value (o :: s ++ m ++ [c]) (JArray l)
| rv_object0 : forall o s c, code o = 123%N -> Forall ws s -> code c = 125%N -> rfc_value (o :: s ++ [c]) (JObject [])
| rv_object : forall o s m c l, code o = 123%N -> Forall ws s -> rfc_members m l -> code c = 125%N -> rfc_value (o :: s ++ m ++ [c]) (JObject l)
with rfc_elements : list X -> list J -> Prop :=
| re_one : forall w s v, rfc_value w v -> Forall ws s -> rfc_elements (w ++ s) [v]
| re_more : forall w s c s' w' v l, rfc_value w v -> Forall ws s -> code c = 44%N -> Forall ws s' -> rfc_elements w' l ->
    rfc_elements (w ++ s ++ c :: s' ++ w') (v :: l)
with rfc_members : list X -> list (list X * J) -> Prop :=
| rm_one : forall k s1 c s2 w s key v, rfc_string k key -> Forall ws s1 -> code c = 58%N -> Forall ws s2 -> rfc_value w v -> Forall ws s ->
    rfc_members (k ++ s1 ++ c :: s2 ++ w ++ s) [(key, v)]
| rm_more : forall k s1 c s2 w s d s' w' key v l, rfc_string k key -> Forall ws s1 -> code c = 58%N -> Forall ws s2 -> rfc_value w v -> Forall ws s ->
    code d = 44%N -> Forall ws s' -> rfc_members w' l -> rfc_members (k ++ s1 ++ c :: s2 ++ w ++ s ++ d :: s' ++ w') ((key, v) :: l).
End JsonSpec.
Scheme rfc_value_mut := Minimality for rfc_value Sort Prop
with rfc_elements_mut := Minimality for rfc_elements Sort Prop
with rfc_members_mut := Minimality for rfc_members Sort Prop.

(** * Numbers *)
(** The operations on rational numbers, without rounding. *)
Definition q_ops : f64_ops :=
  F64Ops (f64 := Q) inject_Z Qplus Qminus Qmult Qdiv Qopp (fun x => Qle_bool 0 x) (fun e => Qpower 10 e).

(** Ten to the power of the number of digits; the decimal number that is written. *)
Definition tens (n : nat) : Q := inject_Z (10 ^ Z.of_nat n).
Local Open Scope Q_scope.
Definition written {X} (code : X -> N) (neg : bool) (ip fr : list X) (ex : option (bool * list X)) : Q :=
  (if neg then -1 else 1) * (inject_Z (decimal_value code (ip ++ fr)) / tens (length fr)) *
  match ex with None => 1 | Some (eneg, ds) => Qpower 10 (if eneg then - decimal_value code ds else decimal_value code ds)%Z end.
