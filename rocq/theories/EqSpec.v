(** C79: laws for rewriting parsers.

    [same b1 b2]: on complete input the two behaviours succeed on the same inputs with the same value, commitment and remaining
    input, and fail on the same inputs with the same commitment.  What an error reports is not compared.  [eqn] is an
    equational theory over the library's parsers: laws, and that equal parsers may replace each other inside the
    combinators.  Nothing here models code. *)
From Coq Require Import String List Bool Arith NArith.
Import ListNotations.
From Verif Require Import Base Parser Token Combinator Sequence Choice Repeat Spec LibSpec TidySpec RepeatSpec.
Set Implicit Arguments.

Section EqSpec.
Context {C : Cfg}.

(** A complete input, with more fuel for the loops than tokens (C52). *)
Definition fits (i : input C) : Prop := ipart i = false /\ length (rest i) < fuel C.

Definition same {A} (b1 b2 : beh A) : Prop := forall i, fits i ->
  (forall c a i', succeeds b1 i c a i' <-> succeeds b2 i c a i') /\ (forall c, fails b1 i c <-> fails b2 i c).

(** [p] commits whenever it succeeds. *)
Definition eager {S A} (p : parser C S A) : Prop := forall i a i', ~ succeeds (fresh p) i false a i'.

(** [p] has no committed failure. *)
Definition backs_out {S A} (p : parser C S A) : Prop := forall i, ~ fails (fresh p) i true.

Inductive eqn : forall S1 S2 A, parser C S1 A -> parser C S2 A -> Prop :=
| eq_refl_ : forall S A (p : parser C S A), eqn p p
| eq_sym_ : forall S1 S2 A (p : parser C S1 A) (q : parser C S2 A), eqn p q -> eqn q p
| eq_trans_ : forall S1 S2 S3 A (p : parser C S1 A) (q : parser C S2 A) (r : parser C S3 A), eqn p q -> eqn q r -> eqn p r
(* map *)
| eq_map_id : forall S A (p : parser C S A) (f : A -> A), (forall a, f a = a) -> eqn (map p f) p
| eq_map_map : forall S A B D (p : parser C S A) (f : A -> B) (g : B -> D), eqn (map (map p f) g) (map p (fun a => g (f a)))
| eq_ignore : forall S A (p : parser C S A), eqn (ignore p) (map p (fun _ => tt))
(* sequences *)
| eq_with_assoc : forall S1 S2 S3 A B D (p : parser C S1 A) (q : parser C S2 B) (r : parser C S3 D), lib p ->
    eqn (with_ (with_ p q) r) (with_ p (with_ q r))
| eq_with_skip : forall S1 S2 S3 A B D (p : parser C S1 A) (q : parser C S2 B) (r : parser C S3 D), lib p ->
    eqn (skip (with_ p q) r) (with_ p (skip q r))
| eq_skip_skip : forall S1 S2 S3 A B D (p : parser C S1 A) (q : parser C S2 B) (r : parser C S3 D), lib p ->
    eqn (skip (skip p q) r) (skip p (with_ q r))
| eq_with_pair : forall S1 S2 A B (p : parser C S1 A) (q : parser C S2 B), eqn (with_ p q) (map (pair2 p q) snd)
| eq_skip_pair : forall S1 S2 A B (p : parser C S1 A) (q : parser C S2 B), eqn (skip p q) (map (pair2 p q) fst)
| eq_pair_assoc : forall S1 S2 S3 A B D (p : parser C S1 A) (q : parser C S2 B) (r : parser C S3 D), lib p ->
    eqn (map (pair2 (pair2 p q) r) (fun x => (fst (fst x), (snd (fst x), snd x)))) (pair2 p (pair2 q r))
| eq_value_with : forall S A B (a : A) (p : parser C S B), eqn (with_ (value a) p) p
| eq_skip_value : forall S A B (p : parser C S A) (b : B), eqn (skip p (value b)) p
| eq_between : forall S1 S2 S3 A B D (open : parser C S1 A) (close : parser C S2 B) (p : parser C S3 D), lib open ->
    eqn (between open close p) (skip (with_ open p) close)
(* then *)
| eq_then_value : forall S A B (a : A) (f : A -> parser C S B) s0, (forall a, p_init (f a) = s0) -> (forall a, lib (f a)) ->
    eqn (then_ (value a) s0 f) (f a)
| eq_value_then : forall S A (p : parser C S A), eqn (then_ p tt (fun a => value a)) p
| eq_then_then : forall S1 S2 S3 A B D (p : parser C S1 A) (f : A -> parser C S2 B) (g : B -> parser C S3 D) s1 s2 s12, lib p ->
    (forall a, p_init (f a) = s1) -> (forall b, p_init (g b) = s2) -> (forall a, p_init (then_ (f a) s2 g) = s12) ->
    (forall a, lib (f a)) -> (forall b, lib (g b)) ->
    eqn (then_ (then_ p s1 f) s2 g) (then_ p s12 (fun a => then_ (f a) s2 g))
| eq_then_with : forall S1 S2 A B (p : parser C S1 A) (q : parser C S2 B), lib q -> eqn (then_ p (p_init q) (fun _ => q)) (with_ p q)
| eq_then_map : forall S A B (p : parser C S A) (f : A -> B), eqn (then_ p tt (fun a => value (f a))) (map p f)
(* choice *)
| eq_or_assoc : forall S1 S2 S3 A (p : parser C S1 A) (q : parser C S2 A) (r : parser C S3 A), eqn (or_ (or_ p q) r) (or_ p (or_ q r))
| eq_or_idem : forall S A (p : parser C S A), eqn (or_ p p) p
| eq_or_catch : forall S A (a : A) (p : parser C S A), eqn (or_ (value a) p) (value a)
| eq_or_fail_l : forall S A m (p : parser C S A), eqn (or_ (unexpected_any m) p) p
| eq_or_fail_r : forall S A m (p : parser C S A), eqn (or_ p (unexpected_any m)) p
| eq_choice_one : forall S A (p : parser C S A), eqn (choice (AL p)) p
| eq_choice_more : forall S SS A (p : parser C S A) (t : alts (C:=C) A SS), eqn (choice (AC p t)) (or_ p (choice t))
| eq_optional : forall S A (p : parser C S A), eqn (optional p) (or_ (map p Some) (value None))
| eq_or_map : forall S1 S2 A B (p : parser C S1 A) (q : parser C S2 A) (f : A -> B), eqn (map (or_ p q) f) (or_ (map p f) (map q f))
| eq_factor_right : forall S1 S2 S3 A B (p : parser C S1 A) (q : parser C S2 A) (r : parser C S3 B), eager p ->
    eqn (or_ (with_ p r) (with_ q r)) (with_ (or_ p q) r)
| eq_factor_left : forall S1 S2 S3 A B (p : parser C S1 A) (q : parser C S2 B) (r : parser C S3 B), lib p -> lib q ->
    eqn (or_ (attempt (with_ p q)) (with_ p r)) (with_ p (or_ (attempt q) r))
(* attempt and look-ahead *)
| eq_attempt_backs : forall S A (p : parser C S A), lib p -> backs_out p -> eqn (attempt p) p
| eq_attempt_idem : forall S A (p : parser C S A), lib p -> eqn (attempt (attempt p)) (attempt p)
| eq_attempt_map : forall S A B (p : parser C S A) (f : A -> B), lib p -> eqn (attempt (map p f)) (map (attempt p) f)
| eq_attempt_with : forall S1 S2 A B (p : parser C S1 A) (q : parser C S2 B), lib p -> lib q ->
    eqn (attempt (with_ (attempt p) (attempt q))) (attempt (with_ p q))
| eq_look_idem : forall S A (p : parser C S A), lib p -> eqn (look_ahead (look_ahead p)) (look_ahead p)
| eq_look_with : forall S A (p : parser C S A), lib p -> eqn (with_ (look_ahead p) p) p
| eq_look_attempt : forall S A (p : parser C S A), lib p -> eqn (look_ahead (attempt p)) (attempt (look_ahead p))
| eq_not_not : forall S A (p : parser C S A), lib p -> eqn (not_followed_by (not_followed_by p)) (ignore (look_ahead (attempt p)))
(* repetition *)
| eq_many1 : forall S A (p : parser C S A), history_free false p -> lib p ->
    eqn (many1 p) (map (pair2 p (many p)) (fun x => fst x :: snd x))
| eq_many : forall S A (p : parser C S A), history_free false p -> productive (fresh p) ->
    eqn (many p) (or_ (many1 p) (value []))
| eq_skip_many : forall S A (p : parser C S A), history_free false p -> eqn (skip_many p) (ignore (many p))
| eq_sep_by1 : forall S1 S2 A B (p : parser C S1 A) (s : parser C S2 B), history_free false p -> history_free false s ->
    history_free false (with_ s p) -> lib p -> lib s -> eqn (sep_by1 p s) (map (pair2 p (many (with_ s p))) (fun x => fst x :: snd x))
| eq_sep_by : forall S1 S2 A B (p : parser C S1 A) (s : parser C S2 B), history_free false p -> history_free false s ->
    eqn (sep_by p s) (or_ (sep_by1 p s) (value []))
| eq_sep_end_by : forall S1 S2 A B (p : parser C S1 A) (s : parser C S2 B), history_free false p -> history_free false s ->
    eqn (sep_end_by p s) (or_ (sep_end_by1 p s) (value []))
| eq_chainl1 : forall S1 S2 A (p : parser C S1 A) (op : parser C S2 (A -> A -> A)), history_free false p -> history_free false op ->
    history_free false (pair2 op p) -> starts_alike p -> lib p -> lib op ->
    eqn (chainl1 p op) (map (pair2 p (many (pair2 op p))) (fun x => foldl_chain (fst x) (snd x)))
(* wrappers that only matter for error reports or types *)
| eq_expected : forall S A (p : parser C S A) m, eqn (expected p m) p
| eq_message : forall S A (p : parser C S A) m, eqn (message p m) p
| eq_silent : forall S A (p : parser C S A), eqn (silent p) p
| eq_any_partial_state : forall S A (p : parser C S A), eqn (any_partial_state p) p
| eq_lazy : forall S A (p : parser C S A), eqn (lazy p) p
| eq_no_partial : forall S A (p : parser C S A), lib p -> eqn (no_partial p) p
(* equals for equals *)
| eq_in_map : forall S1 S2 A B (p : parser C S1 A) (q : parser C S2 A) (f g : A -> B), eqn p q -> (forall a, f a = g a) -> eqn (map p f) (map q g)
| eq_in_with : forall S1 S2 S3 S4 A B (p : parser C S1 A) (p' : parser C S2 A) (q : parser C S3 B) (q' : parser C S4 B), lib p ->
    eqn p p' -> eqn q q' -> eqn (with_ p q) (with_ p' q')
| eq_in_skip : forall S1 S2 S3 S4 A B (p : parser C S1 A) (p' : parser C S2 A) (q : parser C S3 B) (q' : parser C S4 B), lib p ->
    eqn p p' -> eqn q q' -> eqn (skip p q) (skip p' q')
| eq_in_pair : forall S1 S2 S3 S4 A B (p : parser C S1 A) (p' : parser C S2 A) (q : parser C S3 B) (q' : parser C S4 B), lib p ->
    eqn p p' -> eqn q q' -> eqn (pair2 p q) (pair2 p' q')
| eq_in_then : forall S1 S2 S3 S4 A B (p : parser C S1 A) (p' : parser C S2 A) (f : A -> parser C S3 B) (f' : A -> parser C S4 B) s0 s0', lib p ->
    (forall a, p_init (f a) = s0) -> (forall a, p_init (f' a) = s0') -> (forall a, lib (f a)) -> (forall a, lib (f' a)) ->
    eqn p p' -> (forall a, eqn (f a) (f' a)) -> eqn (then_ p s0 f) (then_ p' s0' f')
| eq_in_or : forall S1 S2 S3 S4 A (p : parser C S1 A) (p' : parser C S2 A) (q : parser C S3 A) (q' : parser C S4 A),
    eqn p p' -> eqn q q' -> eqn (or_ p q) (or_ p' q')
| eq_in_attempt : forall S1 S2 A (p : parser C S1 A) (q : parser C S2 A), lib p -> lib q -> eqn p q -> eqn (attempt p) (attempt q)
| eq_in_look_ahead : forall S1 S2 A (p : parser C S1 A) (q : parser C S2 A), lib p -> lib q -> eqn p q -> eqn (look_ahead p) (look_ahead q)
| eq_in_not_followed_by : forall S1 S2 A (p : parser C S1 A) (q : parser C S2 A), eqn p q -> eqn (not_followed_by p) (not_followed_by q)
| eq_in_many : forall S1 S2 A (p : parser C S1 A) (q : parser C S2 A), history_free false p -> history_free false q -> lib p ->
    eqn p q -> eqn (many p) (many q)
| eq_in_sep_end_by1 : forall S1 S2 S3 S4 A B (p : parser C S1 A) (p' : parser C S2 A) (s : parser C S3 B) (s' : parser C S4 B),
    history_free false p -> history_free false p' -> history_free false s -> history_free false s' -> lib p -> lib s ->
    eqn p p' -> eqn s s' -> eqn (sep_end_by1 p s) (sep_end_by1 p' s')
| eq_in_count : forall S1 S2 A (p : parser C S1 A) (q : parser C S2 A) mn mx, mn <= mx -> history_free false p -> history_free false q -> lib p ->
    eqn p q -> eqn (count_min_max mn mx p) (count_min_max mn mx q).
End EqSpec.
