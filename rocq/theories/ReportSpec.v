(** Specification of what a parser contributes to an error report ([easy::Errors]): which entries it adds when it fails
    before consuming anything, which it adds when it matched but could have gone on, and how many parts it counts for. *)
From Coq Require Import String List Bool Arith NArith.
Import ListNotations.
From Verif Require Import Base Errors Parser Token Combinator Sequence Choice Repeat RangeP ByteP RegexP Spec ErrSpec.
Set Implicit Arguments.

Section ReportSpec.
Context {T : TokCfg}.
Context {fl : nat} {dg : bool}.
Notation C := (cfg_easy T fl dg).
Notation entry := (easy_error (t_tok T)).

(** How the entries depend on the number of the part that failed, which the error carries:
    - [One w]: always [w];
    - [Seq ws tl]: a sequence, the entries of its parts up to the failed one, then [tl];
    - [Alt w tl]: a choice, the entries of all alternatives unless they are already in the error (number 0), then [tl]. *)
Inductive wording : Type :=
| One (w : list entry)
| Seq (ws : list (list entry)) (tl : list entry)
| Alt (w tl : list entry).

(** The entries added to an error that carries the number [o]. *)
Definition said_at (s : wording) (o : N) : list entry :=
  match s with
  | One w => w
  | Seq ws tl => List.concat (firstn (Nat.max 1 (N.to_nat o)) ws) ++ tl
  | Alt w tl => (match o with N0 => [] | _ => w end) ++ tl
  end.

(** The number carried afterwards: what remains after the parts gone through. *)
Definition left_at (s : wording) (o : N) : N :=
  match s with
  | One _ => o
  | Seq ws _ => if (o <=? N.of_nat (length ws))%N then 0%N else (o - N.of_nat (Nat.max 1 (length ws - 1)))%N
  | Alt _ _ => N.pred o
  end.

(** More entries after those of [s]. *)
Definition followed (s : wording) (l : list entry) : wording :=
  match s with
  | One w => One (w ++ l)
  | Seq ws tl => Seq ws (tl ++ l)
  | Alt w tl => Alt w (tl ++ l)
  end.
(** The same without the expectations. *)
Definition unnamed (s : wording) : wording :=
  match s with
  | One w => One (others w)
  | Seq ws tl => Seq (List.map others ws) (others tl)
  | Alt w tl => Alt (others w) (others tl)
  end.
Definition nothing : wording := One [].
(** What a sequence or choice asks for if nothing was read yet. *)
Definition first_said (s : wording) : list entry := said_at s 1.

(** [asks p s m n]: [p] adds [s] when it fails without commitment, [m] when it succeeded and could have gone on, and counts
    for [n] parts in an enclosing sequence. *)
Inductive asks : forall S A, parser C S A -> wording -> wording -> N -> Prop :=
| asks_any : asks (@any C) nothing nothing 1
| asks_satisfy : forall f, asks (@satisfy C f) nothing nothing 1
| asks_satisfy_map : forall R (f : t_tok T -> option R), asks (satisfy_map (C:=C) f) nothing nothing 1
| asks_token : forall c, asks (@token C c) (One [EExpected (IToken c)]) nothing 1
| asks_one_of : forall l, asks (@one_of C l) (One (List.map (fun c => EExpected (IToken c)) l)) nothing 1
| asks_none_of : forall l, asks (@none_of C l) nothing nothing 1
| asks_tokens : forall X (cmp : X -> t_tok T -> bool) e l, asks (tokens (C:=C) cmp e l) (One [EExpected e]) nothing 1
| asks_tokens_cmp : forall X (cmp : X -> t_tok T -> bool) l, asks (tokens_cmp (C:=C) l cmp) nothing nothing 1
| asks_position : asks (@position C) nothing nothing 1
| asks_value : forall A (v : A), asks (@value C A v) nothing nothing 1
| asks_produce : forall A (f : unit -> A), asks (@produce C A f) nothing nothing 1
| asks_unexpected_any : forall A m, asks (@unexpected_any C A m) (One [EUnexpected m]) nothing 1
| asks_eof : asks (@eof C) (One [EExpected (IStatic "end of input")]) nothing 1
| asks_take : forall n, asks (@take C n) nothing nothing 1
| asks_range : forall r, asks (@range C r) (One [EExpected (IRange r)]) nothing 1
| asks_take_while : forall f, asks (@take_while C f) nothing nothing 1
| asks_take_while1 : forall f, asks (@take_while1 C f) nothing nothing 1
| asks_take_until_range : forall r, asks (@take_until_range C r) nothing nothing 1
| asks_take_fn : forall s, asks (@take_fn C s) nothing nothing 1
| asks_fn_parser : forall A (f : input C -> outcome (std_result A (Err C) * input C)), asks (fn_parser f) nothing nothing 1
| asks_match : forall r, asks (@match_ C r) (One [EExpected (IFormat ("/" ++ rx_str r ++ "/")%string)]) nothing 1
| asks_find : forall r, asks (@find C r) (One [EExpected (IFormat ("/" ++ rx_str r ++ "/")%string)]) nothing 1
| asks_find_many : forall r, asks (@find_many C r) (One [EExpected (IFormat ("/" ++ rx_str r ++ "/")%string)]) nothing 1
| asks_captures : forall r, asks (@captures C r) (One [EExpected (IFormat ("/" ++ rx_str r ++ "/")%string)]) nothing 1
| asks_captures_many : forall r, asks (@captures_many C r) (One [EExpected (IFormat ("/" ++ rx_str r ++ "/")%string)]) nothing 1
| asks_message : forall S A (p : parser C S A) s m n x, asks p s m n -> asks (message p x) (followed s [EMessage x]) m n
| asks_expected : forall S A (p : parser C S A) s m n x, asks p s m n -> asks (expected p x) (followed (unnamed s) [EExpected x]) m n
| asks_silent : forall S A (p : parser C S A) s m n, asks p s m n -> asks (silent p) nothing nothing n
| asks_not_followed_by : forall S A (p : parser C S A) s m n, asks p s m n -> asks (not_followed_by p) nothing nothing n
| asks_attempt : forall S A (p : parser C S A) s m n, asks p s m n -> asks (attempt p) s m n
| asks_look_ahead : forall S A (p : parser C S A) s m n, asks p s m n -> asks (look_ahead p) s m n
| asks_map : forall S A B (p : parser C S A) (f : A -> B) s m n, asks p s m n -> asks (map p f) s m n
| asks_map_input : forall S A B (p : parser C S A) (f : A -> input C -> B * input C) s m n, asks p s m n -> asks (map_input p f) s m n
| asks_flat_map : forall S A B (p : parser C S A) (f : A -> B + Err C) s m n, asks p s m n -> asks (flat_map p f) s m n
| asks_and_then : forall S A B (p : parser C S A) (f : A -> B + SErr C) s m n, asks p s m n -> asks (and_then p f) s m n
| asks_from_str : forall S A B (p : parser C S A) (f : A -> option (B + string)) s m n, asks p s m n -> asks (from_str p f) s m 1
| asks_recognize : forall S A (p : parser C S A) s m n, asks p s m n -> asks (recognize p) s nothing 1
| asks_no_partial : forall S A (p : parser C S A) s m n, asks p s m n -> asks (no_partial p) s m n
| asks_ignore : forall S A (p : parser C S A) s m n, asks p s m n -> asks (ignore p) s m n
| asks_any_partial_state : forall S A (p : parser C S A) s m n, asks p s m n -> asks (any_partial_state p) s m n
| asks_lazy : forall S A (p : parser C S A) s m n, asks p s m n -> asks (lazy p) s m 1
| asks_factory : forall S A (p : parser C S A) s m n, asks p s m n -> asks (factory p) s m 1
| asks_opaque : forall S A (p : parser C S A) s m n, asks p s m n -> asks (opaque p) s m 1
| asks_spanned : forall Q (q : Q -> Q -> bool) a b k S A (p : parser C S A) s m n, asks p s m n -> asks (spanned q a b k p) s m 1
| asks_by_ref : forall S A (p : parser C S A) s m n, asks p s m n -> asks (by_ref p) s m n
| asks_parser_fn : forall S A (p : parser C S A) s m n, asks p s m n -> asks (parser_fn p) s m 1
| asks_parser_fn0 : forall S A (p : parser C S A) s m n, asks p s m n -> asks (parser_fn0 p) s m 1
| asks_optional : forall S A (p : parser C S A) s m n, asks p s m n -> asks (optional p) s nothing n
| asks_left : forall S1 S2 A (p : parser C S1 A) s m n, asks p s m n -> asks (@either C S1 S2 A (inl p)) s nothing 1
| asks_right : forall S1 S2 A (p : parser C S2 A) s m n, asks p s m n -> asks (@either C S1 S2 A (inr p)) s nothing 1
| asks_dispatch_here : forall S SS A (p : parser C S A) s m n, asks p s m n -> asks (dispatch (@DC C A S SS p)) s nothing 1
| asks_dispatch_later : forall S SS A (d : disp (C:=C) A SS) s m n, asks (dispatch d) s m n -> asks (dispatch (@DN C A S SS d)) s nothing 1
| asks_input_converter : forall (D : Cfg) S A (p : parser D S A) (conv : input C -> (input D + Err C) * input C) (cerr : Err D -> input C -> Err C * input C),
    asks (input_converter p conv cerr) nothing nothing 1
| asks_tuple : forall SS B (t : tup (C:=C) SS B) ws m, asks_tup t ws m -> asks (tuple t) (Seq ws []) m (N.of_nat (length ws))
| asks_with : forall S1 S2 A B (p : parser C S1 A) (q : parser C S2 B) w1 m1 w2 m2, asks p (One w1) m1 1 -> asks q (One w2) m2 1 ->
    asks (with_ p q) (Seq [w1; w2] []) m2 2
| asks_skip : forall S1 S2 A B (p : parser C S1 A) (q : parser C S2 B) w1 m1 w2 m2, asks p (One w1) m1 1 -> asks q (One w2) m2 1 ->
    asks (skip p q) (Seq [w1; w2] []) m2 2
| asks_then : forall S1 S2 A B (p : parser C S1 A) s0 (f : A -> parser C S2 B) s m n, asks p s m n -> asks (then_ p s0 f) s nothing 1
| asks_choice : forall A SS (t : alts (C:=C) A SS) w, asks_alts t w -> asks (choice t) (Alt w []) nothing 1
| asks_or : forall S1 S2 A (p : parser C S1 A) (q : parser C S2 A) s1 m1 n1 s2 m2 n2, asks p s1 m1 n1 -> asks q s2 m2 n2 ->
    asks (or_ p q) (Alt (first_said s1 ++ first_said s2) []) nothing 1
| asks_choice_slice : forall S A (s0 : S) (ps : list (parser C S A)) w, asks_list ps w -> asks (choice_slice s0 ps) (Alt w []) nothing 1
| asks_count_min_max : forall S A mn mx (p : parser C S A) s m n, asks p s m n -> asks (count_min_max mn mx p) s nothing 1
| asks_many : forall S A (p : parser C S A) s m n, asks p s m n -> asks (many p) s s n
| asks_many1 : forall S A (p : parser C S A) s m n, asks p s m n -> asks (many1 p) s s n
| asks_sep_by : forall S1 S2 A B (p : parser C S1 A) (q : parser C S2 B) s1 m1 n1 s2 m2 n2, asks p s1 m1 n1 -> asks q s2 m2 n2 -> asks (sep_by p q) s1 s2 n1
| asks_sep_by1 : forall S1 S2 A B (p : parser C S1 A) (q : parser C S2 B) s1 m1 n1 s2 m2 n2, asks p s1 m1 n1 -> asks q s2 m2 n2 -> asks (sep_by1 p q) s1 s2 n1
| asks_sep_end_by : forall S1 S2 A B (p : parser C S1 A) (q : parser C S2 B) s m n, asks p s m n -> asks (sep_end_by p q) s nothing 1
| asks_sep_end_by1 : forall S1 S2 A B (p : parser C S1 A) (q : parser C S2 B) s m n, asks p s m n -> asks (sep_end_by1 p q) s nothing 1
| asks_chainl1 : forall S1 S2 A (p : parser C S1 A) (o : parser C S2 (A -> A -> A)) s m n, asks p s m n -> asks (chainl1 p o) s nothing 1
| asks_chainr1 : forall S1 S2 A (p : parser C S1 A) (o : parser C S2 (A -> A -> A)) s m n, asks p s m n -> asks (chainr1 p o) s nothing 1
| asks_take_until : forall S A (p : parser C S A), asks (take_until p) nothing nothing 1
| asks_repeat_until : forall S1 S2 A B (p : parser C S1 A) (e : parser C S2 B), asks (repeat_until p e) nothing nothing 1
| asks_escaped : forall S1 S2 A B (p : parser C S1 A) c (e : parser C S2 B) s m n, asks p s m n -> asks (escaped (C:=C) p c e) (followed s [EExpected (IToken c)]) nothing 1
| asks_iterate : forall J S A (s0 : S) (items : list J) (f : J -> parser C S A), asks (iterate s0 items f) nothing nothing 1
| asks_recognize_with_value : forall S A (p : parser C S A) s m n, asks p s m n -> asks (recognize_with_value p) s nothing 1
(** The parts of a sequence: none is itself a sequence or a choice. *)
with asks_tup : forall SS B, tup (C:=C) SS B -> list (list entry) -> wording -> Prop :=
| asks_T1 : forall S A (p : parser C S A) w m, asks p (One w) m 1 -> asks_tup (T1 p) [w] m
| asks_TC : forall S A SS B (p : parser C S A) (t : tup (C:=C) SS B) w m ws m', asks p (One w) m 1 -> asks_tup t ws m' -> asks_tup (TC p t) (w :: ws) m'
(** The alternatives of a choice. *)
with asks_alts : forall A SS, alts (C:=C) A SS -> list entry -> Prop :=
| asks_AL : forall S A (p : parser C S A) s m n, asks p s m n -> asks_alts (AL p) (first_said s)
| asks_AC : forall S A SS (p : parser C S A) (t : alts (C:=C) A SS) s m n w, asks p s m n -> asks_alts t w -> asks_alts (AC p t) (first_said s ++ w)
with asks_list : forall S A, list (parser C S A) -> list entry -> Prop :=
| asks_nil : forall S A, asks_list (@nil (parser C S A)) []
| asks_cons : forall S A (p : parser C S A) l s m n w, asks p s m n -> asks_list l w -> asks_list (p :: l) (first_said s ++ w).

(** [e'] is [e] with the entries of [ws] that it did not say yet. *)
Definition extended (e : errors (t_tok T) (t_Pos T)) (ws : list entry) (e' : errors (t_tok T) (t_Pos T)) : Prop :=
  eposition e' = eposition e /\ exists l, news (elist e) ws l /\ elist e' = elist e ++ l.

(** The parts of a sequence up to the one that fails, which asks [s]; the parts before it are not sequences or choices, and
    listed with what each says and what it says if it could have gone on. *)
Inductive blamed : forall SS B, tup (C:=C) SS B -> list (list entry * list entry) -> wording -> Prop :=
| blamed_last : forall S A (p : parser C S A) s m n, asks p s m n -> blamed (T1 p) [] s
| blamed_here : forall S A SS B (p : parser C S A) (t : tup (C:=C) SS B) s m n, asks p s m n -> blamed (TC p t) [] s
| blamed_later : forall S A SS B (p : parser C S A) (t : tup (C:=C) SS B) w m l s, asks p (One w) (One m) 1 -> blamed t l s ->
    blamed (TC p t) ((w, m) :: l) s.

(** The next token as an entry, if there is one. *)
Definition next_token (i : input C) : list entry := match rest i with t :: _ => [EUnexpected (IToken t)] | [] => [] end.

(** Parsers whose own [parse_committed_mode] leaves errors as they are. *)
Inductive bare : forall S A, parser C S A -> Prop :=
| bare_attempt : forall S A (p : parser C S A), bare (attempt p)
| bare_lazy : forall S A (p : parser C S A), bare (lazy p).

End ReportSpec.
Scheme asks_mut := Minimality for asks Sort Prop
with asks_tup_mut := Minimality for asks_tup Sort Prop
with asks_alts_mut := Minimality for asks_alts Sort Prop
with asks_list_mut := Minimality for asks_list Sort Prop.
