(** Vocabulary of the specifications: behaviours, commitment, progress, state hygiene.  Nothing here models code;
    these are the notions the theorems are stated with. *)
From Coq Require Import String List Bool Arith NArith.
Import ListNotations.
From Verif Require Import Base Parser.
Set Implicit Arguments.

(** Success with commitment flag [c]. *)
Definition okr {A E} (c : bool) (a : A) : PR A E := if c then CommitOk a else PeekOk a.

(** Was input committed? *)
Definition committed {A E} (r : PR A E) : bool :=
  match r with CommitOk _ | CommitErr _ => true | PeekOk _ | PeekErr _ => false end.

(** The value of a success, the error of a failure. *)
Definition value_of {A E} (r : PR A E) : option A :=
  match r with CommitOk a | PeekOk a => Some a | _ => None end.
Definition error_of {A E} (r : PR A E) : option E :=
  match r with CommitErr e => Some e | PeekErr t => Some (terr t) | _ => None end.

Definition not_commit_err {A E} (r : PR A E) : Prop := match r with CommitErr _ => False | _ => True end.

Section Spec.
Context {C : Cfg}.
Notation T := (tok C).
Notation E := (Err C).

(** What a parser does to an input, forgetting its state. *)
Definition beh (A : Type) : Type := input C -> outcome (PR A E * input C).

(** The behaviour of a parser used once, from its default state. *)
Definition fresh {S A} (p : parser C S A) : beh A := fun i => omap fst (p_run p true i (p_init p)).

(** The same through [parse_committed_mode]. *)
Definition freshc {S A} (p : parser C S A) : beh A := fun i => omap fst (p_cmode p true i (p_init p)).

(** [i'] is reached from [i] by consuming a prefix. *)
Definition advanced_by (i : input C) (l : list T) (i' : input C) : Prop :=
  rest i = l ++ rest i' /\ ipos i' = pos_after (ipos i) l /\ ipart i' = ipart i.
Definition advanced (i i' : input C) : Prop := exists l, advanced_by i l i'.

(** Whatever the mode and state, the input only moves forward. *)
Definition forward {S A} (p : parser C S A) : Prop :=
  forall first i st r i' st', p_run p first i st = Done (r, i', st') -> advanced i i'.

(** Every success consumes something, on every input (from every state). *)
Definition shorter (i' i : input C) : Prop := length (rest i') < length (rest i).
Definition productive {A} (b : beh A) : Prop :=
  forall i r i', b i = Done (r, i') -> is_ok r = true -> shorter i' i.

(** State hygiene.  [Clean] describes the states in which the parser, run as if for the first time, behaves as from
    its default state; every run that does not end in a committed failure ends in such a state. *)
Definition hyg_by {S A} (Clean : S -> Prop) (init : S) (run : input C -> S -> outcome (PR A E * input C * S)) : Prop :=
  Clean init /\
  forall i st, Clean st ->
    omap fst (run i st) = omap fst (run i init) /\
    (forall r i' st', run i st = Done (r, i', st') -> not_commit_err r -> Clean st').

(** Strong hygiene: also after committed failures. *)
Definition shyg_by {S A} (Clean : S -> Prop) (init : S) (run : input C -> S -> outcome (PR A E * input C * S)) : Prop :=
  Clean init /\
  forall i st, Clean st ->
    omap fst (run i st) = omap fst (run i init) /\
    (forall r i' st', run i st = Done (r, i', st') -> Clean st').

Definition hygienic {S A} (p : parser C S A) : Prop := exists Clean, hyg_by Clean (p_init p) (p_run p true).
Definition strongly_hygienic {S A} (p : parser C S A) : Prop := exists Clean, shyg_by Clean (p_init p) (p_run p true).

(** No panic from any state the parser can be called with. *)
Definition never_panics {S A} (p : parser C S A) : Prop := forall first i st, p_run p first i st <> Panic.

(** [b] on [i] succeeds with value [a], leaving [i']; [c]: committed. *)
Definition succeeds {A} (b : beh A) (i : input C) (c : bool) (a : A) (i' : input C) : Prop := b i = Done (okr c a, i').

(** [b] on [i] fails with error [e]; [c]: committed.  Where the input is left after a failure is not said. *)
Definition fails_with {A} (b : beh A) (i : input C) (c : bool) (e : E) : Prop :=
  exists r i', b i = Done (r, i') /\ error_of r = Some e /\ committed r = c.
Definition fails {A} (b : beh A) (i : input C) (c : bool) : Prop := exists e, fails_with b i c e.

(** [b] runs [b1], then the behaviour [k a] chosen from its value where [b1] stopped, and combines the two values. *)
Definition runs_after {A B D} (b1 : beh A) (k : A -> beh B) (out : A -> B -> D) (b : beh D) : Prop :=
  (forall i c d i', succeeds b i c d i' <->
     exists c1 a i1 c2 x, succeeds b1 i c1 a i1 /\ succeeds (k a) i1 c2 x i' /\ c = c1 || c2 /\ d = out a x) /\
  (forall i c, fails b i c <->
     fails b1 i c \/ exists c1 a i1 c2, succeeds b1 i c1 a i1 /\ fails (k a) i1 c2 /\ c = c1 || c2).

(** Commitment and value of a result. *)
Definition shape {A} (r : PR A E) : bool * option A := (committed r, value_of r).

(** [parse_committed_mode] is [parse_mode] but for the contents of backtrackable errors and the place where the
    input is left after them. *)
Definition cmode_agrees {S A} (p : parser C S A) : Prop :=
  forall first i st,
  match p_run p first i st, p_cmode p first i st with
  | Done (r, i', st'), Done (r2, i2, st2) =>
      shape r2 = shape r /\ st2 = st' /\ match r with PeekErr _ => True | _ => r2 = r /\ i2 = i' end
  | Panic, Panic | OOF, OOF => True
  | _, _ => False
  end.

End Spec.

(** Laws the generic configuration has to satisfy for some theorems; all four error representations over any lawful
    token type satisfy them (see [LawsProofs.v]). *)
Record lawful (C : Cfg) : Prop := {
  law_eoi : se_is_eoi C (se_eoi C) = true;
  law_from_eoi : forall p, e_is_eoi C (e_from C p (se_eoi C)) = true;
  law_tok : forall a b, tok_eqb C a b = true <-> a = b;
  law_pos : forall a b, pos_eqb C a b = true <-> a = b;
  law_width : forall t, 1 <= width C t
}.

Section TokenSpec.
Context {C : Cfg}.
Notation T := (tok C).
Notation E := (Err C).

(** The complete behaviour of a single-token parser with token relation [acc], in every mode and state. *)
Definition single_token {R} (p : parser C unit R) (acc : T -> R -> Prop) : Prop :=
  forall first i st,
  (forall t l r, rest i = t :: l -> acc t r ->
     exists i', p_run p first i st = Done (CommitOk r, i', tt) /\ advanced_by i [t] i') /\
  (forall t l, rest i = t :: l -> (forall r, ~ acc t r) ->
     exists i', p_run p first i st = Done (PeekErr (to_trk (e_empty C (ipos i))), i', tt)) /\
  (rest i = [] -> ipart i = false ->
     p_run p first i st = Done (PeekErr (to_trk (e_from C (ipos i) (se_eoi C))), i, tt)) /\
  (rest i = [] -> ipart i = true ->
     p_run p first i st = Done (CommitErr (e_from C (ipos i) (se_eoi C)), i, tt)).

(** A parser which always succeeds with [v i] without touching the input. *)
Definition always {A} (p : parser C unit A) (v : input C -> A) : Prop :=
  forall first i st, p_run p first i st = Done (PeekOk (v i), i, tt).

(** Outcome of matching a literal [l] element-wise against the input. *)
Inductive literal_outcome {X} (cmp : X -> T -> bool) (l : list X) (i : input C) : Type :=
| LitMatch (ts r : list T) (H : rest i = ts ++ r) (M : Forall2 (fun x t => cmp x t = true) l ts)
| LitMismatch (l1 l2 : list X) (x : X) (ts r : list T) (t : T) (H : rest i = ts ++ t :: r) (L : l = l1 ++ x :: l2)
    (M : Forall2 (fun x t => cmp x t = true) l1 ts) (N : cmp x t = false)
| LitEnd (l1 l2 : list X) (x : X) (L : l = l1 ++ x :: l2)
    (M : Forall2 (fun x t => cmp x t = true) l1 (rest i)).

End TokenSpec.
