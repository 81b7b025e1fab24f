(** Grammars as data, the combine expression that implements a grammar, and what grammars mean: operationally with
    commitment, as parsing expression grammars, and as context free grammars.  Nothing here models code; the parsers are
    those of the model. *)
From Coq Require Import String List Bool Arith NArith.
Import ListNotations.
From Verif Require Import Base Parser Spec Token Combinator Sequence Choice Repeat ByteP.
Set Implicit Arguments.

Section Grammar.
Context {C : Cfg}.
Notation T := (tok C).

(** What a grammar yields. *)
Inductive tree : Type := Leaf | Tok (t : T) | Both (a b : tree) | Items (l : list tree).

(** Expressions of a grammar: a token satisfying a predicate, nothing, sequence, alternatives, repetition, [attempt],
    [not_followed_by], [look_ahead], and the rule with a number. *)
Inductive gram : Type :=
| GTok (f : T -> bool) | GEps | GSeq (a b : gram) | GAlt (a b : gram) | GMany (a : gram)
| GTry (a : gram) | GNot (a : gram) | GLook (a : gram) | GCall (n : nat).

(** A behaviour does [r]. *)
Definition does (b : beh (C:=C) tree) (i : input C) (c : bool) (r : option (tree * list T)) : Prop :=
  match r with
  | Some (x, l) => exists i', succeeds b i c x i' /\ rest i' = l
  | None => fails b i c
  end.

(** * The parser of a grammar *)
(** What is attempted or negated is called through a [parser!] function: see C28 for what happens to repetitions whose state
    survives a committed failure. *)
Fixpoint den (env : nat -> parser C unit tree) (g : gram) : {S : Type & parser C S tree} :=
  match g with
  | GTok f => existT _ _ (map (satisfy f) Tok)
  | GEps => existT _ _ (value Leaf)
  | GSeq a b => let p := den env a in let q := den env b in existT _ _ (map (pair2 (projT2 p) (projT2 q)) (fun x => Both (fst x) (snd x)))
  | GAlt a b => let p := den env a in let q := den env b in existT _ _ (or_ (projT2 p) (projT2 q))
  | GMany a => let p := den env a in existT _ _ (map (many (projT2 p)) Items)
  | GTry a => let p := den env a in existT _ _ (attempt (parser_fn0 (projT2 p)))
  | GNot a => let p := den env a in existT _ _ (map (not_followed_by (parser_fn0 (projT2 p))) (fun _ => Leaf))
  | GLook a => let p := den env a in existT _ _ (look_ahead (projT2 p))
  | GCall n => existT _ _ (env n)
  end.
Definition parser_of (env : nat -> parser C unit tree) (g : gram) := projT2 (den env g).
(** The rules, each a function [fn rule(input) { body.parse_stream(input).into_result() }] used as [parser(rule)], or a [parser!]
    function; the call stack is [k] deep, at depth 0 a call does not return. *)
Section Rules.
Variable G : nat -> gram.
Variable by_fn : nat -> bool.
Fixpoint rules (k : nat) (n : nat) : parser C unit tree :=
  match k with
  | 0 => fn_parser (fun _ => OOF)
  | S k =>
      if by_fn n then fn_parser (fun i => omap (fun x => (into_std (fst x), snd x)) (p_stream (parser_of (rules k) (G n)) i))
      else parser_fn0 (parser_of (rules k) (G n))
  end.
Definition grammar_parser (k : nat) (g : gram) := parser_of (rules k) g.

(** * Meaning with commitment *)
(** [ev g l c r]: on the tokens [l], [g] succeeds with a tree and the tokens left, or fails; [c]: having committed. *)
Inductive ev : gram -> list T -> bool -> option (tree * list T) -> Prop :=
| ev_tok : forall f t l, f t = true -> ev (GTok f) (t :: l) true (Some (Tok t, l))
| ev_tok_no : forall f t l, f t = false -> ev (GTok f) (t :: l) false None
| ev_tok_end : forall f, ev (GTok f) [] false None
| ev_eps : forall l, ev GEps l false (Some (Leaf, l))
| ev_seq : forall a b l c1 x l1 c2 y l2, ev a l c1 (Some (x, l1)) -> ev b l1 c2 (Some (y, l2)) -> ev (GSeq a b) l (c1 || c2) (Some (Both x y, l2))
| ev_seq_first : forall a b l c, ev a l c None -> ev (GSeq a b) l c None
| ev_seq_second : forall a b l c1 x l1 c2, ev a l c1 (Some (x, l1)) -> ev b l1 c2 None -> ev (GSeq a b) l (c1 || c2) None
| ev_alt_first : forall a b l c x, ev a l c (Some x) -> ev (GAlt a b) l c (Some x)
| ev_alt_committed : forall a b l, ev a l true None -> ev (GAlt a b) l true None
| ev_alt_second : forall a b l c r, ev a l false None -> ev b l c r -> ev (GAlt a b) l c r
| ev_many_stop : forall a l, ev a l false None -> ev (GMany a) l false (Some (Items [], l))
| ev_many_committed : forall a l, ev a l true None -> ev (GMany a) l true None
| ev_many_more : forall a l c1 x l1 c2 xs l2, ev a l c1 (Some (x, l1)) -> ev (GMany a) l1 c2 (Some (Items xs, l2)) ->
    ev (GMany a) l (c1 || c2) (Some (Items (x :: xs), l2))
| ev_many_fails : forall a l c1 x l1, ev a l c1 (Some (x, l1)) -> ev (GMany a) l1 true None -> ev (GMany a) l true None
| ev_try : forall a l c x, ev a l c (Some x) -> ev (GTry a) l c (Some x)
| ev_try_no : forall a l c, ev a l c None -> ev (GTry a) l false None
| ev_not : forall a l c, ev a l c None -> ev (GNot a) l false (Some (Leaf, l))
| ev_not_no : forall a l c x, ev a l c (Some x) -> ev (GNot a) l false None
| ev_look : forall a l c x l1, ev a l c (Some (x, l1)) -> ev (GLook a) l false (Some (x, l))
| ev_look_no : forall a l c, ev a l c None -> ev (GLook a) l c None
| ev_call : forall n l c r, ev (G n) l c r -> ev (GCall n) l c r.

(** * Parsing expression grammars (Ford 2004) *)
Inductive peg : gram -> list T -> option (tree * list T) -> Prop :=
| peg_tok : forall f t l, f t = true -> peg (GTok f) (t :: l) (Some (Tok t, l))
| peg_tok_no : forall f t l, f t = false -> peg (GTok f) (t :: l) None
| peg_tok_end : forall f, peg (GTok f) [] None
| peg_eps : forall l, peg GEps l (Some (Leaf, l))
| peg_seq : forall a b l x l1 y l2, peg a l (Some (x, l1)) -> peg b l1 (Some (y, l2)) -> peg (GSeq a b) l (Some (Both x y, l2))
| peg_seq_first : forall a b l, peg a l None -> peg (GSeq a b) l None
| peg_seq_second : forall a b l x l1, peg a l (Some (x, l1)) -> peg b l1 None -> peg (GSeq a b) l None
| peg_alt_first : forall a b l x, peg a l (Some x) -> peg (GAlt a b) l (Some x)
| peg_alt_second : forall a b l r, peg a l None -> peg b l r -> peg (GAlt a b) l r
| peg_many_stop : forall a l, peg a l None -> peg (GMany a) l (Some (Items [], l))
| peg_many_more : forall a l x l1 xs l2, peg a l (Some (x, l1)) -> peg (GMany a) l1 (Some (Items xs, l2)) -> peg (GMany a) l (Some (Items (x :: xs), l2))
| peg_try : forall a l r, peg a l r -> peg (GTry a) l r
| peg_not : forall a l, peg a l None -> peg (GNot a) l (Some (Leaf, l))
| peg_not_no : forall a l x, peg a l (Some x) -> peg (GNot a) l None
| peg_look : forall a l x l1, peg a l (Some (x, l1)) -> peg (GLook a) l (Some (x, l))
| peg_look_no : forall a l, peg a l None -> peg (GLook a) l None
| peg_call : forall n l r, peg (G n) l r -> peg (GCall n) l r.

(** [gentle g]: when [g] fails it has not committed; [gr] says of which rules this is claimed. *)
Fixpoint gentle (gr : nat -> bool) (g : gram) : bool :=
  match g with
  | GTok _ | GEps | GTry _ | GNot _ => true
  | GSeq _ _ => false
  | GAlt a b => gentle gr a && gentle gr b
  | GMany a | GLook a => gentle gr a
  | GCall n => gr n
  end.
(** Every alternative but the last and everything repeated is gentle. *)
Fixpoint attempted (gr : nat -> bool) (g : gram) : bool :=
  match g with
  | GTok _ | GEps | GCall _ => true
  | GSeq a b => attempted gr a && attempted gr b
  | GAlt a b => gentle gr a && attempted gr a && attempted gr b
  | GMany a => gentle gr a && attempted gr a
  | GTry a | GNot a | GLook a => attempted gr a
  end.

(** * Context free grammars *)
(** [derives g w t]: the words of [g]; no meaning is given to [GNot] and [GLook]. *)
Inductive derives : gram -> list T -> tree -> Prop :=
| de_tok : forall f t, f t = true -> derives (GTok f) [t] (Tok t)
| de_eps : derives GEps [] Leaf
| de_seq : forall a b v w x y, derives a v x -> derives b w y -> derives (GSeq a b) (v ++ w) (Both x y)
| de_left : forall a b w x, derives a w x -> derives (GAlt a b) w x
| de_right : forall a b w x, derives b w x -> derives (GAlt a b) w x
| de_none : forall a, derives (GMany a) [] (Items [])
| de_more : forall a v w x xs, derives a v x -> derives (GMany a) w (Items xs) -> derives (GMany a) (v ++ w) (Items (x :: xs))
| de_try : forall a w x, derives a w x -> derives (GTry a) w x
| de_call : forall n w x, derives (G n) w x -> derives (GCall n) w x.

(** Without negation and look-ahead. *)
Fixpoint plain (g : gram) : bool :=
  match g with
  | GTok _ | GEps | GCall _ => true
  | GSeq a b | GAlt a b => plain a && plain b
  | GMany a | GTry a => plain a
  | GNot _ | GLook _ => false
  end.
(** Can succeed without consuming ([nu]: which rules can); negation and look-ahead never consume. *)
Fixpoint nullable (nu : nat -> bool) (g : gram) : bool :=
  match g with
  | GTok _ => false
  | GEps | GMany _ | GNot _ | GLook _ => true
  | GSeq a b => nullable nu a && nullable nu b
  | GAlt a b => nullable nu a || nullable nu b
  | GTry a => nullable nu a
  | GCall n => nu n
  end.
(** The tokens a word can start with ([fi]: for the rules). *)
Fixpoint first (nu : nat -> bool) (fi : nat -> T -> bool) (g : gram) (t : T) : bool :=
  match g with
  | GTok f => f t
  | GEps | GNot _ | GLook _ => false
  | GSeq a b => first nu fi a t || (nullable nu a && first nu fi b t)
  | GAlt a b => first nu fi a t || first nu fi b t
  | GMany a | GTry a => first nu fi a t
  | GCall n => fi n t
  end.
(** Every rule called before anything is consumed has a rank below [m]. *)
Fixpoint left_below (nu : nat -> bool) (rank : nat -> nat) (m : nat) (g : gram) : Prop :=
  match g with
  | GTok _ | GEps => True
  | GSeq a b => left_below nu rank m a /\ (nullable nu a = true -> left_below nu rank m b)
  | GAlt a b => left_below nu rank m a /\ left_below nu rank m b
  | GMany a | GTry a | GNot a | GLook a => left_below nu rank m a
  | GCall n => rank n < m
  end.
(** Nothing is repeated that can succeed without consuming. *)
Fixpoint loops_consume (nu : nat -> bool) (g : gram) : Prop :=
  match g with
  | GTok _ | GEps | GCall _ => True
  | GSeq a b | GAlt a b => loops_consume nu a /\ loops_consume nu b
  | GMany a => nullable nu a = false /\ loops_consume nu a
  | GTry a | GNot a | GLook a => loops_consume nu a
  end.
(** No left recursion, no endless repetition. *)
Definition well_founded_grammar (nu : nat -> bool) (rank : nat -> nat) : Prop :=
  forall n, (nullable nu (G n) = true -> nu n = true) /\ left_below nu rank (rank n) (G n) /\ loops_consume nu (G n).

(** The LL(1) conditions on an expression that can be followed by the tokens [fol] ([fo]: what can follow the rules). *)
Definition apart (p q : T -> bool) : Prop := forall t, p t = true -> q t = true -> False.
Fixpoint ll1 (nu : nat -> bool) (fi fo : nat -> T -> bool) (fol : T -> bool) (g : gram) : Prop :=
  match g with
  | GTok _ | GEps => True
  | GSeq a b => ll1 nu fi fo (fun t => first nu fi b t || (nullable nu b && fol t)) a /\ ll1 nu fi fo fol b
  | GAlt a b => nullable nu a = false /\ apart (first nu fi a) (first nu fi b) /\ (nullable nu b = true -> apart (first nu fi a) fol) /\
      ll1 nu fi fo fol a /\ ll1 nu fi fo fol b
  | GMany a => nullable nu a = false /\ apart (first nu fi a) fol /\ ll1 nu fi fo (fun t => first nu fi a t || fol t) a
  | GTry a => ll1 nu fi fo fol a
  | GNot _ | GLook _ => False
  | GCall n => forall t, fol t = true -> fo n t = true
  end.
Definition ll1_grammar (nu : nat -> bool) (fi fo : nat -> T -> bool) (rank : nat -> nat) : Prop :=
  forall n, nullable nu (G n) = nu n /\ (forall t, first nu fi (G n) t = true -> fi n t = true) /\
    left_below nu rank (rank n) (G n) /\ ll1 nu fi fo (fo n) (G n).
Definition next_in (p : T -> bool) (l : list T) : Prop := match l with [] => True | t :: _ => p t = true end.
Definition next_not_in (p : T -> bool) (l : list T) : Prop := match l with [] => True | t :: _ => p t = false end.
End Rules.
End Grammar.
Arguments tree : clear implicits.
Arguments gram : clear implicits.
