(** Combinators around one parser: parser/combinator.rs and parser/error.rs:96-245. *)
From Coq Require Import String List Bool Arith NArith.
Import ListNotations.
From Verif Require Import Base Parser.
Set Implicit Arguments.

Section Combinator.
Context {C : Cfg}.
Notation T := (tok C).
Notation E := (Err C).

(** error.rs:97-141 [Message]. *)
Definition message {S A} (p : parser C S A) (msg : info T) : parser C S A :=
  mk_mode (p_init p)
    (fun first i st =>
       omap (fun x => match x with
             | (CommitErr err, i', s') => (CommitErr (e_add_message err msg), i', s')
             | _ => x
             end) (p_run p first i st))
    (fun t => on_err (fun e => e_add_message e msg) (p_adderr p t)) (p_addcexp p) (p_count p).

(** error.rs:154-184 [Expected]. *)
Definition expected {S A} (p : parser C S A) (x : info T) : parser C S A :=
  mk_mode (p_init p) (p_run p)
    (fun t => e_set_expected C t (se_expected C x) (p_adderr p)) (p_addcexp p) (p_count p).

(** error.rs:200-234 [Silent]. *)
Definition silent {S A} (p : parser C S A) : parser C S A :=
  mk_mode (p_init p)
    (fun first i st => omap (fun x => match x with (r, i', s') => (pr_map_err (e_clear_expected C) r, i', s') end)
                            (p_run p first i st))
    no_err no_err (p_count p).

(** combinator.rs:23-58 [NotFollowedBy]. *)
Definition not_followed_by {S A} (p : parser C S A) : parser C S unit :=
  mk_mode (p_init p)
    (fun first i st =>
       omap (fun x => match x with (r, _, s') =>
               (if is_ok r then PeekErr (to_trk (e_empty C (ipos i))) else PeekOk tt, i, s') end)
            (p_run p first i st))
    no_err no_err (p_count p).

(** combinator.rs:91-148 [Try] ([attempt]).  [parse_committed_mode] is [parse_mode], [parse_stream] is
    [parse_lazy]. *)
Definition attempt_run {S A} (p : parser C S A) (first : bool) (i : input C) (st : S)
    : outcome (PR A E * input C * S) :=
  omap (fun x => match x with
        | (CommitErr err, i', s') =>
            if ipart i' && e_is_eoi C err then (CommitErr err, i', s') else (PeekErr (to_trk err), i', s')
        | _ => x
        end) (p_cmode p first i st).

Definition attempt {S A} (p : parser C S A) : parser C S A :=
  MkParser (p_init p) (attempt_run p) (default_lazy (p_init p) (attempt_run p)) (attempt_run p)
    (default_lazy (p_init p) (attempt_run p)) (p_adderr p) (p_addcexp p) (p_count p).

(** combinator.rs:170-190 [LookAhead]. *)
Definition look_ahead {S A} (p : parser C S A) : parser C unit A :=
  mk_lazy (fun i => omap (fun x => match x with
                    | (CommitOk o, _) | (PeekOk o, _) => (PeekOk o, i)
                    | (r, _) => (r, i)
                    end) (p_lazy p i))
    (p_adderr p) (p_addcexp p) (p_count p).

(** combinator.rs:216-246 [Map]. *)
Definition map {S A B} (p : parser C S A) (f : A -> B) : parser C S B :=
  mk_mode (p_init p)
    (fun first i st => omap (fun x => match x with (r, i', s') => (pr_map f r, i', s') end) (p_run p first i st))
    (p_adderr p) (p_addcexp p) (p_count p).

(** combinator.rs:261-292 [MapInput]; the closure may use the input. *)
Definition map_input {S A B} (p : parser C S A) (f : A -> input C -> B * input C) : parser C S B :=
  mk_mode (p_init p)
    (fun first i st => omap (fun x => match x with
        | (CommitOk a, i', s') => let (b, i2) := f a i' in (CommitOk b, i2, s')
        | (PeekOk a, i', s') => let (b, i2) := f a i' in (PeekOk b, i2, s')
        | (CommitErr e, i', s') => (CommitErr e, i', s')
        | (PeekErr e, i', s') => (PeekErr e, i', s')
        end) (p_run p first i st))
    (p_adderr p) (p_addcexp p) (p_count p).

(** combinator.rs:1448-1491 [InputConverter]: the inner parser reads another stream, of configuration [D].  The converter
    (combinator.rs:1493-1520) is two functions: [conv] makes the inner stream from the outer one, which it may move, and
    [cerr] turns an error of the inner stream into one of the outer, which it may also move.  [add_error] is the trait's. *)
Definition input_converter {D : Cfg} {S A} (p : parser D S A) (conv : input C -> (input D + E) * input C)
    (cerr : Err D -> input C -> E * input C) : parser C S A :=
  mk_mode (p_init p)
    (fun first i st =>
       match conv i with
       | (inr e, i1) => Done (PeekErr (to_trk e), i1, st)
       | (inl j, i1) => omap (fun x => match x with
           | (CommitOk a, _, s') => (CommitOk a, i1, s')
           | (PeekOk a, _, s') => (PeekOk a, i1, s')
           | (CommitErr e, _, s') => let (e', i2) := cerr e i1 in (CommitErr e', i2, s')
           | (PeekErr e, _, s') => let (e', i2) := cerr (terr e) i1 in (PeekErr (Trk e' (toff e)), i2, s')
           end) (p_run p first j st)
       end)
    no_err no_err 1.

(** combinator.rs:306-342 [FlatMap]. *)
Definition flat_map {S A B} (p : parser C S A) (f : A -> B + E) : parser C S B :=
  mk_mode (p_init p)
    (fun first i st => omap (fun x => match x with
        | (PeekOk o, i', s') => (match f o with inl b => PeekOk b | inr e => PeekErr (to_trk e) end, i', s')
        | (CommitOk o, i', s') => (match f o with inl b => CommitOk b | inr e => CommitErr e end, i', s')
        | (CommitErr e, i', s') => (CommitErr e, i', s')
        | (PeekErr e, i', s') => (PeekErr e, i', s')
        end) (p_run p first i st))
    (p_adderr p) (p_addcexp p) (p_count p).

(** combinator.rs:357-412 [AndThen]; the closure's error is already converted to a stream error. *)
Definition and_then {S A B} (p : parser C S A) (f : A -> B + SErr C) : parser C S B :=
  mk_mode (p_init p)
    (fun first i st => omap (fun x => match x with
        | (PeekOk o, i', s') =>
            match f o with
            | inl b => (PeekOk b, i', s')
            | inr se =>
                let err := e_from C (ipos i) se in
                if ipart i' && input_at_eof i' then (CommitErr err, i, s') else (PeekErr (to_trk err), i', s')
            end
        | (CommitOk o, i', s') =>
            match f o with
            | inl b => (CommitOk b, i', s')
            | inr se =>
                (CommitErr (e_from C (ipos i) se), if ipart i' && input_at_eof i' then i else i', s')
            end
        | (CommitErr e, i', s') => (CommitErr e, i', s')
        | (PeekErr e, i', s') => (PeekErr e, i', s')
        end) (p_run p first i st))
    (p_adderr p) (p_addcexp p) (p_count p).

(** combinator.rs:1296-1309 [from_str]: a [parser!] function around [and_then].  [utf8] is [StrLike::from_utf8]
    followed by [str::parse], given as one function: [None] for invalid UTF-8, otherwise the parse result. *)
Definition from_str {S A B} (p : parser C S A) (f : A -> option (B + string)) : parser C S B :=
  let q := and_then p (fun r => match f r with
                                | None => inr (se_expected C (IStatic "UTF-8"))
                                | Some (inl b) => inl b
                                | Some (inr msg) => inr (se_message C (IFormat msg))
                                end) in
  mk_mode (p_init q) (p_run q) (p_adderr q) (p_addcexp q) 1.

(** combinator.rs:431-497 [Recognize::recognize_result]: the replay loop "uncons until the position is
    [last]".  Returns the tokens read, the stream and [true], or [false] if the stream ended. *)
Fixpoint replay (last : Pos C) (l : list T) (p : Pos C) : list T * list T * Pos C * bool :=
  if pos_eqb C p last then ([], l, p, true)
  else match l with
       | [] => ([], [], p, false)
       | t :: r => match replay last r (pos_step C p t) with (a, l', p', ok) => (t :: a, l', p', ok) end
       end.

(** combinator.rs:431-497, 499-530 [Recognize]. *)
Definition recognize_run {S A} (p : parser C S A) (first : bool) (i : input C) (st : list T * S)
    : outcome (PR (list T) E * input C * (list T * S)) :=
  let (elements, child) := st in
  omap (fun x => match x with (r, i', child') =>
    let '(a, l', p', ok) := replay (ipos i') (rest i) (ipos i) in
    let j := Inp l' p' (ipart i) in
    let elements' := elements ++ a in
    let err := e_from C p' (se_eoi C) in
    match r with
    | PeekOk _ => if ok then (PeekOk elements', j, ([], child')) else (PeekErr (to_trk err), j, (elements', child'))
    | CommitOk _ => if ok then (CommitOk elements', j, ([], child')) else (CommitErr err, j, (elements', child'))
    | CommitErr e => (CommitErr (if ok then e else err), j, (elements', child'))
    | PeekErr e => (PeekErr e, i', (elements, child'))
    end end) (p_run p first i child).

Definition recognize {S A} (p : parser C S A) : parser C (list T * S) (list T) :=
  mk_mode ([], p_init p) (recognize_run p) (p_adderr p) no_err 1.

(** combinator.rs:556-630 [Either]. *)
Definition either_run {S1 S2 A} (p : parser C S1 A + parser C S2 A) (first : bool) (i : input C)
    (st : option (S1 + S2)) : outcome (PR A E * input C * option (S1 + S2)) :=
  match p with
  | inl x =>
      let s := match st with Some (inl s) => s | _ => p_init x end in
      omap (fun y => match y with (r, i', s') => (r, i', Some (inl s')) end) (p_run x first i s)
  | inr x =>
      let s := match st with Some (inr s) => s | _ => p_init x end in
      omap (fun y => match y with (r, i', s') => (r, i', Some (inr s')) end) (p_run x first i s)
  end.

Definition either {S1 S2 A} (p : parser C S1 A + parser C S2 A) : parser C (option (S1 + S2)) A :=
  mk_both None (either_run p)
    (fun i => match p with inl x => p_lazy x i | inr x => p_lazy x i end)
    (match p with inl x => p_adderr x | inr x => p_adderr x end) no_err 1.

(** combinator.rs:634-668 [NoPartial]. *)
Definition no_partial {S A} (p : parser C S A) : parser C unit A :=
  mk_both tt (fun _ i _ => omap (fun x => (fst x, snd x, tt)) (p_lazy p i)) (p_lazy p)
    (p_adderr p) (p_addcexp p) (p_count p).

(** combinator.rs:701-733 [Ignore]. *)
Definition ignore {S A} (p : parser C S A) : parser C S unit :=
  mk_both (p_init p)
    (fun first i st => omap (fun x => match x with (r, i', s') => (pr_map (fun _ => tt) r, i', s') end)
                            (p_run p first i st))
    (fun i => omap (fun x => (pr_map (fun _ => tt) (fst x), snd x)) (p_lazy p i))
    (p_adderr p) (p_addcexp p) (p_count p).

(** combinator.rs:753-810 [AnyPartialStateParser] (and the [Send]/[Sync] copies 856-929, 959-1032): the boxed
    state is [option S]; [downcast] always finds the type stored before, as the box is only written here. *)
Definition any_partial_run {S A} (p : parser C S A) (first : bool) (i : input C) (st : option S)
    : outcome (PR A E * input C * option S) :=
  match st with
  | None =>
      omap (fun x => match x with (r, i', s') =>
              (r, i', match r with CommitErr _ => Some s' | _ => None end) end) (p_run p first i (p_init p))
  | Some s => omap (fun x => match x with (r, i', s') => (r, i', Some s') end) (p_run p first i s)
  end.

Definition any_partial_state {S A} (p : parser C S A) : parser C (option S) A :=
  mk_both None (any_partial_run p) (p_lazy p) (p_adderr p) (p_addcexp p) (p_count p).

(** combinator.rs:1052-1104 [Lazy].  [parse_committed_mode] calls [parse_mode] of the inner parser. The closure has
    no argument, so it is the parser it returns. *)
Definition lazy {S A} (p : parser C S A) : parser C S A :=
  MkParser (p_init p) (p_run p) (p_lazy p) (p_run p) (p_stream p) (p_adderr p) (p_addcexp p) 1.

(** combinator.rs:1137-1176 [Factory], for a closure that does not look at the input; the parser cached in [self]
    is then always the same.  The caching of an input-dependent parser: [ObjM.factory_obj]. *)
Definition factory {S A} (p : parser C S A) : parser C S A :=
  mk_mode (p_init p) (p_run p) (p_adderr p) (p_addcexp p) 1.

(** combinator.rs:1314-1366 [Opaque]. *)
Definition opaque {S A} (p : parser C S A) : parser C S A :=
  MkParser (p_init p) (p_run p) (p_lazy p) (default_cmode (p_run p) (p_adderr p)) (p_stream p)
    (p_adderr p) (p_addcexp p) 1.

(** combinator.rs:1537-1572 [Spanned].  Positions are spans: [sp_start], [sp_end], [mk_span] are the fields and
    constructor of [Span<Q>] (stream/span.rs:10-13).  [parser_count] is not forwarded. *)
Definition spanned {Q S A} (q_eqb : Q -> Q -> bool) (sp_start sp_end : Pos C -> Q) (mk_span : Q -> Q -> Pos C)
    (p : parser C S A) : parser C S A :=
  mk_mode (p_init p)
    (fun first i st =>
       omap (fun x => match x with (r, i', s') =>
          (pr_map_err (fun err =>
             let es := e_position C err in
             if q_eqb (sp_start es) (sp_end es)
             then e_setpos C err (mk_span (sp_start (ipos i)) (sp_end (ipos i'))) else err) r, i', s') end)
         (p_run p first i st))
    (p_adderr p) (p_addcexp p) 1.

End Combinator.
