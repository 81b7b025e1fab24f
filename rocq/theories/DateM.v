(** The date parser of examples/date.rs. *)
From Coq Require Import String List Bool Arith NArith ZArith.
Import ListNotations.
From Verif Require Import Base Parser Errors Token Combinator Sequence Choice Repeat RangeP ByteP Instances JsonM.
Set Implicit Arguments.

(** [i32::from_str]: an optional sign, then digits, at most 2^31 - 1 (-2^31). *)
Definition digits_number (ds : list N) : Z := fold_left (fun n c => 10 * n + (Z.of_N c - 48))%Z ds 0%Z.
Definition parse_i32 (cs : list N) : option Z :=
  let '(neg, ds) := match cs with
                    | c :: r => if (c =? 45)%N then (true, r) else if (c =? 43)%N then (false, r) else (false, cs)
                    | [] => (false, [])
                    end in
  match ds with
  | [] => None
  | _ =>
      if forallb is_ascii_digit ds then
        let v := if neg : bool then (- digits_number ds)%Z else digits_number ds in
        if ((- 2 ^ 31 <=? v) && (v <? 2 ^ 31))%Z then Some v else None
      else None
  end.

(** examples/date.rs:41-60 [Date], [Time], [DateTime]. *)
Record date_v : Type := DateV { d_year : Z; d_month : Z; d_day : Z }.
Record time_v : Type := TimeV { t_hour : Z; t_minute : Z; t_second : Z; t_zone : Z }.
Record date_time_v : Type := DateTimeV { dt_date : date_v; dt_time : time_v }.

Section Date.
Context {C : Cfg}.
Notation T := (tok C).

(** combinator.rs:382-425 [Map] with a closure that panics on some values ([None]). *)
Definition map_or_panic {S A B} (p : parser C S A) (f : A -> option B) : parser C S B :=
  mk_mode (p_init p)
    (fun first i st => obind (p_run p first i st) (fun x => match x with
       | (CommitOk a, i', s') => match f a with Some b => Done (CommitOk b, i', s') | None => Panic end
       | (PeekOk a, i', s') => match f a with Some b => Done (PeekOk b, i', s') | None => Panic end
       | (CommitErr e, i', s') => Done (CommitErr e, i', s')
       | (PeekErr e, i', s') => Done (PeekErr e, i', s')
       end))
    (p_adderr p) (p_addcexp p) (p_count p).

(** The tokens are characters. *)
Variable code : T -> N.
Variable lit : N -> T.

(** examples/date.rs:62-71.  [expect] is not reached on characters that [digit] accepts. *)
Definition to_digit10 (t : T) : Z := match char_to_digit (code t) with Some d => Z.of_N d | None => 0%Z end.
Definition two_digits := map (tuple (TC (c_digit code) (T1 (c_digit code)))) (fun x => to_digit10 (fst x) * 10 + to_digit10 (snd x))%Z.

(** examples/date.rs:78-98 *)
Definition date_utc := map (jchar lit 90) (fun _ => 0%Z).
Definition date_offset :=
  map (tuple (TC (choice_slice tt [jchar lit 45; jchar lit 43])
         (TC two_digits (T1 (optional (with_ (optional (jchar lit 58)) two_digits))))))
    (fun x => let offset := (fst (snd x) * 60 + match snd (snd x) with Some m => m | None => 0 end)%Z in
              if tok_eqb C (fst x) (lit 45) then (- offset)%Z else offset).
Definition time_zone := or_ date_utc date_offset.

(** examples/date.rs:102-121.  [year.parse().unwrap()] panics if the digits are no [i32]. *)
Definition date_p :=
  map_or_panic (tuple (TC (many (c_digit code)) (TC (jchar lit 45) (TC two_digits (TC (jchar lit 45) (T1 two_digits))))))
    (fun x => match x with (year, (_, (month, (_, day)))) =>
       match parse_i32 (List.map code year) with Some y => Some (DateV y month day) | None => None end end).

(** examples/date.rs:125-146 *)
Definition time_p :=
  map (tuple (TC two_digits (TC (jchar lit 58) (TC two_digits (TC (jchar lit 58) (TC two_digits (T1 time_zone)))))))
    (fun x => match x with (hour, (_, (minute, (_, (second, time_zone))))) => TimeV hour minute second time_zone end).

(** examples/date.rs:150-155 *)
Definition date_time := map (tuple (TC date_p (TC (jchar lit 84) (T1 time_p)))) (fun x => match x with (date, (_, time)) => DateTimeV date time end).
End Date.
