(** Specification of the HTTP request parser: the texts it reads. *)
From Coq Require Import String List Bool Arith NArith.
Import ListNotations.
From Verif Require Import Instances JsonSpec HttpM.
Set Implicit Arguments.

Section HttpSpec.
Variable X : Type.
Variable code : X -> N.
Notation is := (is_char code).

(** Printable ASCII and DEL without the separators of RFC 2616, section 2.2. *)
Definition token_char (t : X) : Prop := (32 < code t < 128)%N /\ ~ In (code t) (chars "()<>@,;:\""/[]?={}").
Definition hspace (t : X) : Prop := is 32 t \/ is 9 t.
Definition line_char (t : X) : Prop := ~ is 13 t /\ ~ is 10 t.
Definition version_char (t : X) : Prop := (48 <= code t <= 57)%N \/ is 46 t.
Definition some_of (f : X -> Prop) (w : list X) : Prop := w <> [] /\ Forall f w.
(** CR LF or LF. *)
Definition eol (w : list X) : Prop := List.map code w = [13; 10]%N \/ List.map code w = [10]%N.
(** Blanks, at least one; text, at least one character; end of line. *)
Definition line_text (w l : list X) : Prop :=
  exists h e, w = h ++ l ++ e /\ some_of hspace h /\ some_of line_char l /\ stops hspace l /\ eol e.
(** Name, colon, lines (at least one; all begin with blanks). *)
Definition header_text (w : list X) (h : header_v X) : Prop :=
  exists c ls, w = h_name h ++ c :: concat ls /\ some_of token_char (h_name h) /\ is 58 c /\ h_value h <> [] /\ Forall2 line_text ls (h_value h).
Definition request_text (w : list X) (v : request_v X * list (header_v X)) : Prop :=
  let q := fst v in
  exists s1 s2 http e1 hs e2, w = h_method q ++ s1 ++ h_uri q ++ s2 ++ http ++ h_version q ++ e1 ++ concat hs ++ e2 /\
    some_of token_char (h_method q) /\ some_of (is 32) s1 /\ some_of (fun t => ~ is 32 t) (h_uri q) /\ some_of (is 32) s2 /\
    List.map code http = chars "HTTP/" /\ some_of version_char (h_version q) /\ eol e1 /\ Forall2 header_text hs (snd v) /\ eol e2.

(** RFC 9112 (HTTP/1.1), sections 2 to 5, without line folding: [method SP target SP "HTTP/" DIGIT "." DIGIT CRLF *(field CRLF) CRLF],
    [field = name ":" OWS value OWS]. *)
Definition rfc_tchar (t : X) : Prop := (48 <= code t <= 57)%N \/ (65 <= code t <= 90)%N \/ (97 <= code t <= 122)%N \/ In (code t) (chars "!#$%&'*+-.^_`|~").
Definition rfc_vchar (t : X) : Prop := (33 <= code t <= 126)%N \/ (128 <= code t <= 255)%N.
Definition rfc_crlf (w : list X) : Prop := List.map code w = [13; 10]%N.
(** The value neither begins nor ends with blanks. *)
Definition rfc_value (v : list X) : Prop := Forall (fun t => rfc_vchar t \/ hspace t) v /\ stops hspace v /\ stops hspace (rev v).
Record rfc_field : Type := RfcField { f_name : list X; f_before : list X; f_value : list X; f_after : list X }.
Definition rfc_field_ok (f : rfc_field) : Prop :=
  some_of rfc_tchar (f_name f) /\ Forall hspace (f_before f) /\ rfc_value (f_value f) /\ Forall hspace (f_after f).
Definition rfc_field_text (w : list X) (f : rfc_field) : Prop :=
  rfc_field_ok f /\ exists c e, w = f_name f ++ c :: f_before f ++ f_value f ++ f_after f ++ e /\ is 58 c /\ rfc_crlf e.
Definition rfc_request (w : list X) (q : request_v X) (fs : list rfc_field) : Prop :=
  exists s1 s2 http e1 hs e2, w = h_method q ++ s1 ++ h_uri q ++ s2 ++ http ++ h_version q ++ e1 ++ concat hs ++ e2 /\
    some_of rfc_tchar (h_method q) /\ List.map code s1 = [32]%N /\ some_of (fun t => (33 <= code t <= 126)%N) (h_uri q) /\ List.map code s2 = [32]%N /\
    List.map code http = chars "HTTP/" /\ (exists a d b, h_version q = [a; d; b] /\ (48 <= code a <= 57)%N /\ is 46 d /\ (48 <= code b <= 57)%N) /\
    rfc_crlf e1 /\ Forall2 rfc_field_text hs fs /\ rfc_crlf e2.
End HttpSpec.
