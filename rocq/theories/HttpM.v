(** The request parser of benches/http.rs. *)
From Coq Require Import String List Bool Arith NArith.
Import ListNotations.
From Verif Require Import Base Parser Errors Token Combinator Sequence Choice Repeat RangeP ByteP Instances JsonM.
Set Implicit Arguments.

(** benches/http.rs:20-26 [Request], 28-33 [Header]. *)
Record request_v (X : Type) : Type := RequestV { h_method : list X; h_uri : list X; h_version : list X }.
Record header_v (X : Type) : Type := HeaderV { h_name : list X; h_value : list (list X) }.

Section Http.
Context {C : Cfg}.
Notation T := (tok C).
(** The tokens are bytes. *)
Variable code : T -> N.
Variable lit : N -> T.

(** benches/http.rs:35-58; the tokens are bytes, [128..=255] is 128 and above. *)
Definition is_token (t : T) : bool :=
  let c := code t in
  negb ((128 <=? c)%N || (c <=? 31)%N ||
        existsb (N.eqb c) [40; 41; 60; 62; 64; 44; 59; 58; 92; 34; 47; 91; 93; 63; 61; 123; 125; 32]%N).
(** benches/http.rs:60-71 *)
Definition is_horizontal_space (t : T) : bool := (code t =? 32)%N || (code t =? 9)%N.
Definition is_space (t : T) : bool := (code t =? 32)%N.
Definition is_not_space (t : T) : bool := negb (code t =? 32)%N.
Definition is_http_version (t : T) : bool := ((48 <=? code t)%N && (code t <=? 57)%N) || (code t =? 46)%N.

(** benches/http.rs:73-78 *)
Definition end_of_line := or_ (map (tuple (TC (jchar lit 13) (T1 (jchar lit 10)))) (fun _ => lit 13)) (jchar lit 10).

(** benches/http.rs:84-89 *)
Definition message_header_line :=
  map (tuple (TC (take_while1 is_horizontal_space)
             (TC (take_while1 (fun t => negb (code t =? 13)%N && negb (code t =? 10)%N))
             (T1 end_of_line)))) (fun x => match x with (_, (line, _)) => line end).
(** benches/http.rs:80-96; src/parser/sequence.rs:488-495 [struct_parser!] gives the tuple of the parsers and a [map]. *)
Definition message_header :=
  map (tuple (TC (take_while1 is_token) (TC (jchar lit 58) (T1 (many1 message_header_line)))))
    (fun x => match x with (name, (_, value)) => HeaderV name value end).

(** benches/http.rs:104; [b"HTTP/"]. *)
Definition http_version := with_ (range (List.map lit [72; 84; 84; 80; 47]%N)) (take_while1 is_http_version).
(** benches/http.rs:106-112 *)
Definition request_line :=
  map (tuple (TC (take_while1 is_token) (TC (take_while1 is_space) (TC (take_while1 is_not_space) (TC (take_while1 is_space) (T1 http_version))))))
    (fun x => match x with (method, (_, (uri, (_, version)))) => RequestV method uri version end).
(** benches/http.rs:100-123 *)
Definition http_request :=
  map (tuple (TC request_line (TC end_of_line (TC (many message_header) (T1 end_of_line)))))
    (fun x => match x with (request, (_, (headers, _))) => (request, headers) end).
Definition parse_http_request (i : input C) := parse http_request i.

(** benches/http.rs:156-166: requests until the buffer is empty; an error panics.  The bench drops the values, here they are kept.
    The fuel counts the requests. *)
Fixpoint http_requests (n : nat) (i : input C) : outcome (list (request_v T * list (header_v T))) :=
  match n with
  | 0 => OOF
  | S n => match uncons i with
           | (Some _, _) => obind (parse_http_request i) (fun x => match x with
               | (inl v, j) => omap (cons v) (http_requests n j)
               | (inr _, _) => Panic end)
           | (None, _) => Done []
           end
  end.
End Http.
