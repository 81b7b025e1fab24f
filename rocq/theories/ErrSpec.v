(** Specification of error contents: what a list of easy errors stands for, and which parts of a grammar are reported. *)
From Coq Require Import String List Bool Arith NArith.
Import ListNotations.
From Verif Require Import Base Errors Parser Token Combinator Sequence Choice Spec.
Set Implicit Arguments.

(** The laws of the token and position types the statements need. *)
Record tok_laws (T : TokCfg) : Prop := {
  tl_eqb : forall a b, t_eqb T a b = true <-> a = b;
  tl_cmp_eq : forall p q, t_pos_cmp T p q = Eq <-> p = q;
  tl_cmp_anti : forall p q, t_pos_cmp T q p = CompOpp (t_pos_cmp T p q);
  tl_cmp_trans : forall p q r, t_pos_cmp T p q = Lt -> t_pos_cmp T q r = Lt -> t_pos_cmp T p r = Lt
}.

(** What an error says: [None] for opaque errors.  Text is compared by content whatever its storage. *)
Inductive kind : Type := KUnexpected | KExpected | KMessage.
Definition say_info {T} (x : info T) : info T := match x with IStatic s => IFormat s | y => y end.
Definition says {T} (e : easy_error T) : option (kind * info T) :=
  match e with
  | EUnexpected x => Some (KUnexpected, say_info x)
  | EExpected x => Some (KExpected, say_info x)
  | EMessage x => Some (KMessage, say_info x)
  | EOther _ => None
  end.
(** Two errors saying the same (known) thing. *)
Definition same_say {T} (a b : easy_error T) : Prop := exists m, says a = Some m /\ says b = Some m.

(** Entries about what was expected. *)
Definition expects {T} (e : easy_error T) : bool := match says e with Some (KExpected, _) => true | _ => false end.
Definition others {T} (l : list (easy_error T)) : list (easy_error T) := filter (fun e => negb (expects e)) l.

(** Some entry of [l] says what [e] says. *)
Definition said {T} (l : list (easy_error T)) (e : easy_error T) : Prop := exists x, In x l /\ same_say x e.

(** No two entries say the same. *)
Fixpoint no_repeats {T} (l : list (easy_error T)) : Prop :=
  match l with [] => True | e :: r => (forall e', In e' r -> ~ same_say e e') /\ no_repeats r end.

(** [l] filtered down to the entries not already said by [seen] or earlier in [l]. *)
Inductive news {T} : list (easy_error T) -> list (easy_error T) -> list (easy_error T) -> Prop :=
| news_nil : forall seen, news seen [] []
| news_old : forall seen e l l' x, In x seen -> same_say x e -> news seen l l' -> news seen (e :: l) l'
| news_new : forall seen e l l', (forall x, In x seen -> ~ same_say x e) -> news (seen ++ [e]) l l' -> news seen (e :: l) (e :: l').

(** The first occurrences in a list. *)
Inductive firsts {X} : list X -> list X -> list X -> Prop :=
| firsts_nil : forall seen, firsts seen [] []
| firsts_old : forall seen x l l', In x seen -> firsts seen l l' -> firsts seen (x :: l) l'
| firsts_new : forall seen x l l', ~ In x seen -> firsts (seen ++ [x]) l l' -> firsts seen (x :: l) (x :: l').

Section ErrSpec.
Context {T : TokCfg}.
Context {fl : nat} {dg : bool}.
Notation C := (cfg_easy T fl dg).

(** Only adds entries at the end. *)
Definition appends (f : trk (Err C) -> trk (Err C)) : Prop :=
  forall t, eposition (terr (f t)) = eposition (terr t) /\ exists l, elist (terr (f t)) = elist (terr t) ++ l.

(** The found token, or end of input, as an error. *)
Definition found (i : input C) : easy_error (t_tok T) :=
  match rest i with t :: _ => EUnexpected (IToken t) | [] => EUnexpected (IStatic "end of input") end.

(** Tuples and choices of single tokens. *)
Fixpoint tokens_SS (l : list (t_tok T)) : Type :=
  match l with [] => (option (t_tok T) * unit)%type | _ :: r => ((option (t_tok T) * unit) * tokens_SS r)%type end.
Fixpoint tokens_out (l : list (t_tok T)) : Type :=
  match l with [] => t_tok T | _ :: r => (t_tok T * tokens_out r)%type end.
Fixpoint token_tuple (t : t_tok T) (l : list (t_tok T)) : tup (C:=C) (tokens_SS l) (tokens_out l) :=
  match l with [] => T1 (@token C t) | t' :: r => TC (@token C t) (token_tuple t' r) end.

Fixpoint alts_SS (l : list (t_tok T)) : Type := match l with [] => unit | _ :: r => (unit + alts_SS r)%type end.
Fixpoint token_alts (t : t_tok T) (l : list (t_tok T)) : alts (C:=C) (t_tok T) (alts_SS l) :=
  match l with [] => AL (@token C t) | t' :: r => AC (@token C t) (token_alts t' r) end.
End ErrSpec.

Section SeqBlame.
Context {C : Cfg}.
Notation E := (Err C).

(** [attempt] on the outside, possibly under [lazy] or [opaque]. *)
Inductive outer_attempt : forall S A, parser C S A -> Prop :=
| oa_attempt : forall S A (p : parser C S A), outer_attempt (attempt p)
| oa_lazy : forall S A (p : parser C S A), outer_attempt p -> outer_attempt (lazy p)
| oa_opaque : forall S A (p : parser C S A), outer_attempt p -> outer_attempt (opaque p).

(** The first [k] parts succeed, part [k] (started on [ib]) fails with the backtrackable [e]; [f] is one more than the
    index of the last committed part, or 0. *)
Fixpoint seq_prefix {SS B} (t : tup (C:=C) SS B) (i : input C) (k f : nat) (ib : input C) (e : trk E) : Prop :=
  let here {S A} (p : parser C S A) := k = 0 /\ f = 0 /\ ib = i /\ exists ia, fresh p i = Done (PeekErr e, ia) in
  match t with
  | T1 p => here p
  | TC p r =>
      here p \/
      exists c a i1 k' f', fresh p i = Done (okr c a, i1) /\ seq_prefix r i1 k' f' ib e /\ k = S k' /\
        f = (if f' =? 0 then (if c then 1 else 0) else S f')
  end.

(** A part whose error methods just transform the error: all parsers that are not themselves sequences or choices. *)
Definition plain_part (f : errfns (C:=C)) : Prop :=
  ef_count f = 1%N /\ (forall t, ef_add f t = Trk (terr (ef_add f (to_trk (terr t)))) (toff t)) /\
  (forall t, ef_cexp f t = Trk (terr (ef_cexp f (to_trk (terr t)))) (toff t)).

(** Expectations of a list of parts, applied to an error one after the other. *)
Definition expectations (l : list (errfns (C:=C))) (e : E) : E :=
  fold_left (fun e f => terr (ef_add f (to_trk e))) l e.
(** Expectation of a part that could have gone on ("or more of it"). *)
Definition could_continue (f : errfns (C:=C)) (e : E) : E := terr (ef_cexp f (to_trk e)).

Definition with_found (i : input C) (e : E) : E :=
  match rest i with t :: _ => e_add C e (se_unexpected C (IToken t)) | [] => e end.

(** Every alternative fails without commitment before any of its parts succeeded (the error carries 1); the errors. *)
Fixpoint alts_fail {A SS} (t : alts (C:=C) A SS) (i : input C) (es : list E) : Prop :=
  match t with
  | AL p => exists e ia, es = [e] /\ fresh p i = Done (PeekErr (Trk e 1%N), ia)
  | AC p r => exists e ia es', es = e :: es' /\ fresh p i = Done (PeekErr (Trk e 1%N), ia) /\ alts_fail r i es'
  end.
Fixpoint merged (e : E) (es : list E) : E := match es with [] => e | e' :: es' => e_merge C e (merged e' es') end.
Fixpoint alts_errfns {A SS} (t : alts (C:=C) A SS) : list (errfns (C:=C)) :=
  match t with AL p => [errfns_of p] | AC p r => errfns_of p :: alts_errfns r end.
End SeqBlame.
