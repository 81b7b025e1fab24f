(** Range parsers (parser/range.rs). *)
From Coq Require Import String List Bool Arith NArith.
Import ListNotations.
From Verif Require Import Base Parser Token Combinator Sequence.
Set Implicit Arguments.

Section RangeP.
Context {C : Cfg}.
Notation T := (tok C).
Notation E := (Err C).

(** range.rs:259-274 [Take]. *)
Definition take_lazy (n : nat) (i : input C) : outcome (PR (list T) E * input C) := Done (s_uncons_range i n).
Definition take (n : nat) : parser C unit (list T) := mk_lazy (take_lazy n) no_err no_err 1.

(** range.rs:35-66 [Range].  On a mismatch the input stays advanced. *)
Definition range (r : list T) : parser C unit (list T) :=
  mk_lazy (fun i => match uncons_range (range_len r) i with
                    | (inl other, i') =>
                        if list_eqb (tok_eqb C) other r then Done (CommitOk other, i')
                        else Done (PeekErr (to_trk (e_empty C (ipos i))), i')
                    | (inr e, i') => Done (wrap_stream_error i' e, i')
                    end)
    (on_err (fun e => e_add_expected e (IRange r))) no_err 1.

(** range.rs:100-148 [parse_partial_range]. *)
Definition parse_partial_range (f g : input C -> PR (list T) E * input C) (first : bool) (i : input C) (dist : nat)
    : outcome (PR (list T) E * input C * nat) :=
  if negb (ipart i) then let (r, i') := f i in Done (r, i', dist)
  else if first || (dist =? 0) then
    let (r, i') := f i in
    match r with
    | CommitErr e => Done (CommitErr e, i, distance i' i)
    | _ => Done (r, i', dist)
    end
  else
    match uncons_range dist i with
    | (inr _, _) => Panic
    | (inl _, i1) =>
        let (r, i2) := g i1 in
        match r with
        | PeekErr e => Done (PeekErr e, i2, dist)
        | CommitErr e => Done (CommitErr e, i, distance i2 i)
        | CommitOk _ | PeekOk _ =>
            let (r2, i3) := s_uncons_range i (distance i2 i) in
            Done (r2, i3, if is_ok r2 then 0 else dist)
        end
    end.

(** range.rs:303-334 [TakeWhile]. *)
Definition take_while (f : T -> bool) : parser C nat (list T) :=
  mk_mode 0 (parse_partial_range (fun i => s_uncons_while i f) (fun i => s_uncons_while i f)) no_err no_err 1.

(** range.rs:361-392 [TakeWhile1]. *)
Definition take_while1 (f : T -> bool) : parser C nat (list T) :=
  mk_mode 0 (parse_partial_range (fun i => s_uncons_while1 i f) (fun i => s_uncons_while i f)) no_err no_err 1.

(** range.rs:150-199 [RecognizeWithValue].  ([take(distance).parse_lazy] cannot fail here; if it did the value would
    be dropped.) *)
Definition recognize_with_value_run {S A} (p : parser C S A) (first : bool) (i : input C) (st : nat * S)
    : outcome (PR (list T * A) E * input C * (nat * S)) :=
  let (dist, child) := st in
  obind (if first then Done i
         else match uncons_range dist i with (inl _, i1) => Done i1 | (inr _, _) => Panic end)
    (fun i1 =>
       obind (p_run p first i1 child) (fun x => match x with (r, i2, child') =>
         match r with
         | PeekErr e => Done (PeekErr e, i2, (dist, child'))
         | CommitErr e => Done (CommitErr e, i, (distance i2 i, child'))
         | CommitOk v | PeekOk v =>
             let (r2, i3) := s_uncons_range i (distance i2 i) in
             Done (pr_map (fun rg => (rg, v)) r2, i3, (if is_ok r2 then 0 else dist, child'))
         end end)).

Definition recognize_with_value {S A} (p : parser C S A) : parser C (nat * S) (list T * A) :=
  mk_mode (0, p_init p) (recognize_with_value_run p) (p_adderr p) no_err 1.

(** range.rs:68-97 [recognize]. *)
Definition recognize_range {S A} (p : parser C S A) : parser C (nat * S) (list T) :=
  parser_fn (map (recognize_with_value p) fst).

(** range.rs:422-505 [TakeUntilRange]: the search loop; [before] is the input at entry, [fe] the first stream error
    with its distance. *)
Fixpoint tur_loop (r : list T) (before : input C) (fe : option (SErr C * nat)) (to_consume : nat)
    (l : list T) (pos : Pos C) {struct l} : outcome (PR (list T) E * input C * nat) :=
  let i := Inp l pos (ipart before) in
  match uncons_range (range_len r) i with
  | (inl xs, i') =>
      if list_eqb (tok_eqb C) xs r then
        let dist := distance i' before - range_len r in
        match uncons_range dist before with
        | (inl committed, i2) =>
            if dist =? 0 then Done (PeekOk committed, i2, to_consume) else Done (CommitOk committed, i2, 0)
        | (inr _, _) => Panic
        end
      else match l with
           | [] => Panic
           | t :: l' => tur_loop r before fe to_consume l' (pos_step C pos t)
           end
  | (inr err, i') =>
      let fe' := match fe with None => (err, distance i' before) | Some x => x end in
      match l with
      | [] => Done (wrap_stream_error before (fst fe'), before, snd fe')
      | t :: l' => tur_loop r before (Some fe') to_consume l' (pos_step C pos t)
      end
  end.

Definition take_until_range_run (r : list T) (first : bool) (i : input C) (to_consume : nat)
    : outcome (PR (list T) E * input C * nat) :=
  match s_uncons_range i to_consume with
  | (PeekErr e, i') => Done (PeekErr e, i', to_consume)
  | (CommitErr e, i') => Done (CommitErr e, i', to_consume)
  | (CommitOk _, i') | (PeekOk _, i') => tur_loop r i None to_consume (rest i') (ipos i')
  end.

(** Only [parse_partial] is defined: both modes run it. *)
Definition take_until_range (r : list T) : parser C nat (list T) :=
  mk_mode 0 (take_until_range_run r) no_err no_err 1.

(** range.rs:529-549 [enum TakeRange]. *)
Inductive take_range : Type := Found (n : nat) | NotFound (n : nat).
Definition take_range_of_option (o : option nat) : take_range :=
  match o with Some i => Found i | None => NotFound 0 end.

(** range.rs:551-615 [TakeFn]. *)
Definition take_fn_run (searcher : list T -> take_range) (first : bool) (i : input C) (offset : nat)
    : outcome (PR (list T) E * input C * nat) :=
  let offset := if first then 0 else offset in
  let i1 := if first then i else snd (uncons_range offset i) in
  match searcher (rest i1) with
  | Found k =>
      let (r, i2) := s_uncons_range i (offset + k) in
      Done (r, i2, if is_ok r then 0 else offset)
  | NotFound next =>
      let err := e_from C (pos_after (ipos i1) (rest i1)) (se_eoi C) in
      if negb (ipart i) && (range_len (rest i1) =? 0) then Done (PeekErr (to_trk err), i, next)
      else Done (CommitErr err, i, next)
  end.

Definition take_fn (searcher : list T -> take_range) : parser C nat (list T) :=
  mk_mode 0 (take_fn_run searcher) no_err no_err 1.

(** range.rs:635-705 [length_prefix]: a [parser!] without [PartialState].  [to_usize] is [usize::try_from] with its
    error converted ([other] or [message_format]). *)
Definition length_prefix {S A} (len : parser C S A) (to_usize : A -> nat + SErr C) : parser C unit (list T) :=
  parser_fn0 (then_partial (and_then len to_usize) tt take).

End RangeP.
