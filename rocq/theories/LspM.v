(** The language server decoder of examples/async.rs. *)
From Coq Require Import String List Bool Arith NArith.
Import ListNotations.
From Verif Require Import Base Parser Errors Token Combinator Sequence Repeat RangeP ByteP DecodeM Instances.
Set Implicit Arguments.

Section Lsp.
Context {C : Cfg}.
Notation T := (tok C).
Notation E := (Err C).

(** The tokens are bytes. *)
Variable code : T -> N.
Variable lit : N -> T.

(** A byte string literal. *)
Definition lits (s : string) : list T := List.map lit (chars s).
Definition crlf : list T := [lit 13; lit 10].

(** [usize::from_str] (64 bits) on the bytes of a string: an optional [+], then digits.  The bytes that reach it in
    [decode_parser] are digits, so [StrLike::from_utf8] always succeeds; it is left out. *)
Definition digits_value (l : list N) : N := fold_left (fun n c => 10 * n + (c - 48))%N l 0%N.
Definition parse_usize (r : list T) : option (N + string) :=
  let cs := List.map code r in
  Some (match cs with
        | [] => inr "cannot parse integer from empty string"%string
        | c :: cs' =>
            let ds := if (c =? 43)%N then cs' else cs in
            match ds with
            | [] => inr "invalid digit found in string"%string
            | _ =>
                if forallb is_ascii_digit ds then
                  if (digits_value ds <? 2 ^ 64)%N then inl (digits_value ds)
                  else inr "number too large to fit in target type"%string
                else inr "invalid digit found in string"%string
            end
        end).

(** examples/async.rs:60 *)
Definition ls_number := from_str (recognize_range (skip_many1 (b_digit code))) parse_usize.
(** examples/async.rs:61-64; the counter [content_length_parses] is not modelled. *)
Definition ls_content_length := map (with_ (range (lits "Content-Length: ")) ls_number) (fun x => x).
(** examples/async.rs:69-73 *)
Definition ls_header :=
  tuple (TC (skip_many (range crlf)) (TC ls_content_length (T1 (map (range (crlf ++ crlf)) (fun _ => tt))))).
(** examples/async.rs:54-78 [decode_parser].  The value passed to the closure of [then_partial] is not changed by it. *)
Definition decode_parser :=
  any_partial_state (then_partial ls_header tt
    (fun x => map (take (N.to_nat (fst (snd x)))) (fun bytes : list T => bytes))).

(** examples/async.rs:31-34 [LanguageServerDecoder]: the state of the parser, together with the buffer [src] handed to
    [decode] and the position (address) of its first byte.  [BytesMut::advance] moves that on; that the bytes may be
    copied elsewhere between two calls is not modelled. *)
Record lsd (S : Type) : Type := Lsd { ls_state : S; ls_src : list T; ls_pos : Pos C }.
Arguments Lsd {S}.
Arguments ls_state {S}.
Arguments ls_src {S}.
Arguments ls_pos {S}.

(** The errors of [decode]: a message with the parse error and the buffer, or [FromUtf8Error]. *)
Inductive ls_error : Type := LsParse (e : E) (src : list T) | LsUtf8.

(** [str::from_utf8(bytes).is_ok()]. *)
Variable utf8 : list T -> bool.

(** examples/async.rs:84-138 [Decoder::decode], for the parser [decode_parser] above.  The [println!]s are left out.  The
    [unwrap] in the error message (107) panics if the buffer is not UTF-8. *)
Definition ls_decode {S} (p : parser C S (list T)) (d : lsd S) : outcome ((option (list T) + ls_error) * lsd S) :=
  obind (decode p (Inp (ls_src d) (ls_pos d) true) (ls_state d)) (fun x => match x with (res, i', st') =>
    match res with
    | inr err => if utf8 (ls_src d) then Done (inr (LsParse err (ls_src d)), Lsd st' (ls_src d) (ls_pos d)) else Panic
    | inl (opt, removed) =>
        omap (fun b =>
          let d' := Lsd st' (bbytes b) (ipos i') in
          match opt with
          | None => (inl None, d')
          | Some output => if utf8 output then (inl (Some output), d') else (inr LsUtf8, d')
          end) (b_advance removed (Buf (ls_src d) 0))
    end end).
End Lsp.
Arguments Lsd {C S}.
Arguments ls_state {C S}.
Arguments ls_src {C S}.
Arguments ls_pos {C S}.
Arguments LsParse {C}.
Arguments LsUtf8 {C}.
