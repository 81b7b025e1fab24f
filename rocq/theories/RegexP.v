(** The regex parsers (parser/regex.rs).  The regular expression engine is the [regex] crate's and a parameter here. *)
From Coq Require Import String List Bool Arith NArith.
Import ListNotations.
From Verif Require Import Base Parser RangeP.
Set Implicit Arguments.
Local Open Scope string_scope.

Section Regex.
Context {C : Cfg}.
Notation T := (tok C).
Notation E := (Err C).

(** A match as the crate hands it out: its end (in units of the range) and the matched part (parser/regex.rs:58-62
    [MatchFind]). *)
Record rmatch : Type := MkMatch { m_end : nat; m_part : list T }.

(** What the crate answers for a compiled expression: [is_match], [find_iter], [captures_iter] (for every match its
    groups, the one of the whole match first, groups that did not take part missing), [as_str]. *)
Record regex : Type := MkRegex {
  rx_is_match : list T -> bool;
  rx_find : list T -> list rmatch;
  rx_captures : list T -> list (list (option rmatch));
  rx_str : string
}.

(** [F: FromIterator]: [First] (parser/regex.rs:46-56) takes one element from the iterator, other collections all of them.
    [pulled] are the elements taken, the closure mapped over the iterator runs on those only. *)
Inductive collect := Firstly | All.
Definition pulled {X} (how : collect) (l : list X) : list X :=
  match how with Firstly => firstn 1 l | All => l end.

(** parser/regex.rs:101-116 [find_iter]: [end] is set by every element pulled. *)
Definition find_iter (how : collect) (l : list rmatch) : nat * list (list T) :=
  fold_left (fun acc m => (m_end m, snd acc ++ [m_part m])%list) (pulled how l) (0, []).

(** parser/regex.rs:156-176, 192-212 [captures]: the first group is unwrapped twice. *)
Definition captures_one (groups : list (option rmatch)) : outcome (nat * list (list T)) :=
  match groups with
  | Some first_match :: captures_iter =>
      Done (m_end first_match, List.concat (List.map (fun g => match g with Some m => [m_part m] | None => [] end) (Some first_match :: captures_iter)))
  | _ => Panic
  end.
Definition captures_iter (how : collect) (l : list (list (option rmatch))) : outcome (nat * list (list (list T))) :=
  fold_left (fun acc g => obind acc (fun a => omap (fun m => (fst m, snd a ++ [snd m])%list) (captures_one g))) (pulled how l) (Done (0, [])).

(** parser/regex.rs:240-245 and the like: [add_error]. *)
Definition regex_err (r : regex) (t : trk E) : trk E :=
  on_err (fun e => e_add C e (se_expected C (IFormat ("/" ++ rx_str r ++ "/")))) t.

(** parser/regex.rs:219-246 [Match]. *)
Definition match_ (r : regex) : parser C unit (list T) :=
  mk_lazy (fun i => Done (if rx_is_match r (rest i) then PeekOk (rest i) else PeekErr (to_trk (e_empty C (ipos i))), i))
    (regex_err r) no_err 1.

(** [take(end).parse_lazy(input).map(|_| value)]. *)
Definition take_end {A} (end_ : nat) (v : A) (i : input C) : outcome (PR A E * input C) :=
  omap (fun x => (pr_map (fun _ => v) (fst x), snd x)) (take_lazy end_ i).
(** parser/regex.rs:275-303 [Find]. *)
Definition find_lazy (r : regex) (i : input C) : outcome (PR (list T) E * input C) :=
  match find_iter Firstly (rx_find r (rest i)) with
  | (end_, value :: _) => take_end end_ value i
  | (_, []) => Done (PeekErr (to_trk (e_empty C (ipos i))), i)
  end.
Definition find (r : regex) : parser C unit (list T) := mk_lazy (find_lazy r) (regex_err r) no_err 1.
(** parser/regex.rs:336-362 [FindMany]. *)
Definition find_many_lazy (r : regex) (i : input C) : outcome (PR (list (list T)) E * input C) :=
  let (end_, value) := find_iter All (rx_find r (rest i)) in take_end end_ value i.
Definition find_many (r : regex) : parser C unit (list (list T)) := mk_lazy (find_many_lazy r) (regex_err r) no_err 1.
(** parser/regex.rs:394-423 [Captures]. *)
Definition captures_lazy (r : regex) (i : input C) : outcome (PR (list (list T)) E * input C) :=
  obind (captures_iter Firstly (rx_captures r (rest i))) (fun x => match x with
  | (end_, value :: _) => take_end end_ value i
  | (_, []) => Done (PeekErr (to_trk (e_empty C (ipos i))), i)
  end).
Definition captures (r : regex) : parser C unit (list (list T)) := mk_lazy (captures_lazy r) (regex_err r) no_err 1.
(** parser/regex.rs:462-489 [CapturesMany]. *)
Definition captures_many_lazy (r : regex) (i : input C) : outcome (PR (list (list (list T))) E * input C) :=
  obind (captures_iter All (rx_captures r (rest i))) (fun x => take_end (fst x) (snd x) i).
Definition captures_many (r : regex) : parser C unit (list (list (list T))) := mk_lazy (captures_many_lazy r) (regex_err r) no_err 1.

End Regex.
Arguments rmatch : clear implicits.
Arguments regex : clear implicits.
