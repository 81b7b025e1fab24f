# Formal model of `combine` 4.6.7

All Coq files live in `rocq/theories` (logical name `Verif`).  This document says what is modelled, how each
property of `properties.jsonl` is proved, and what is trusted.

## Trusted base

* The Coq 8.16.1 kernel (including its `vm_compute` conversion) and the standard library.
* What `Print Assumptions` lists.  The `Properties*.v` files print it after every theorem; the answer is "Closed under
  the global context" for all of them: no axiom is used, not even from the standard library.  (A scan of the compiled
  environment may show seven constants of `Coq.ssr.ssrunder`: they are fields of a module type of the library loaded by
  `lia`'s dependencies, and no theorem depends on them.)
* The faithfulness of the hand-written model to the Rust source.  Every definition of the model carries a comment
  with the file and lines it models and the simplifications made.  `ModelTests.v` runs examples from the
  library's own tests on the model, `ModelTests2.v` all examples of the documentation of `src` (tests, not proofs).
* The oracles: things outside the library are parameters of the theorems, with the properties assumed of them stated as
  hypotheses.  These are the reader (any function answering reads), the growth of buffers (at least as large as asked),
  the regex engine (`honest_regex`), user closures (pure functions), `PartialEq`/`Ord` of tokens and positions (`lawful`,
  `tok_laws`, shown to hold for the concrete streams), `Display` of tokens, and the Unicode tables.

## Shape of the model

* **Streams for the parsers** (`Base.v`).  Parsers run over a clone-resettable cursor `input` = remaining tokens, current
  position, `is_partial` flag.  A configuration record `Cfg` abstracts over the token type, token equality, the
  position type with its per-token update, the width of a token (1 for slices, UTF-8 length for `&str`), the error
  type with its operations (`ParseError` trait), the loop fuel and whether debug assertions are on.  This covers `&[T]`, `&str`,
  `PartialStream`/`MaybePartialStream`/`CompleteStream` over them, `position::Stream` and `easy::Stream` around them.
  Checkpoints are copies and `reset` never fails for this family.
* **The streams themselves** are modelled separately, at the level of their own fields: `StreamM.v` (UTF-8 slicing of
  `&str`, the scanning loops, positioners, `position::Stream`), `BufferedM.v` (`buffered::Stream`), `DecodeM.v` (`decode`,
  `decode_tokio`, the `decode!` loop, `Decoder`, buffers, `BufReader`, `read::Error`), `WrapM.v` (pointer positions and
  every wrapper).  `RefineProofs.v` links the concrete `&str`/slice functions with the cursor the parsers run on.
* **Errors** (`Errors.v`): `Tracked`, `UnexpectedParse`, `StringStreamError`, `easy::{Info,Error,Errors}`; `FmtM.v`: their
  text and the `map_*` functions.
* **Parsers** (`Parser.v`): a record with one field per overridable trait method: `parse_mode_impl` (with
  `mode.is_first()` as a boolean: the three mode values behave identically otherwise), `parse_lazy`,
  `parse_committed_mode`, `parse_stream`, `add_error`, `add_committed_expected_error`, `parser_count`, and the default partial
  state `p_init`.  The partial state is a type parameter.
* Panics and undefined behaviour are the explicit outcome `Panic`.  Loops without structural bound take
  the configuration's fuel and yield `OOF` when it runs out.  `OOF` is not a result: theorems about results have a run that
  returns `Done`, and C12, C52 and C53 show when fuel larger than the number of tokens is enough, so that `OOF` stands
  for an endless loop.
* `Extend`/`Default` collections are lists; `Sink` is `unit`.  Tuples are right-nested pairs.

## Specification style

Theorems are stated against small independent specifications (`*Spec.v`): inductive relations and list functions that only
mention what running a sub-parser on an input yields, never the model's loops.  `LibSpec.v` defines the class `lib` of all
parsers that can be built from the modelled library, over which the general theorems (C09, C25–C29, C52) quantify.
Each theorem has an `Example` beside it that meets its hypotheses.

The library re-uses partial states in "first" mode, so a parser's behaviour is a function of its input only if abandoned runs
leave no trace.  `TidySpec.v` states this; it is proved for the combinators that have it and refuted for those that have not.

Where the claim turned out to be false of the code, the theorem is named `…_refuted` and gives a witness, checked by
computation; the remaining true part is proved beside it.

## Simplifications and what is not modelled

* Integer types: positions and counters are unbounded numbers (`i32` line/column counters: C50 bounds them by the length
  of the text); sizes of allocations are not bounded.
* Closures with side effects; closures of `factory` and `iterate` that inspect the input; `then_partial`'s access to the output
  by reference.
* `std`'s UTF-8 functions are written as arithmetic; floats are bit patterns; the Unicode tables behind `char` classes.
* Wakers and executors (C68 quantifies over every order of polls), and the branch of
  `BufReader::read` and `poll_read` for a buffer of `usize::MAX` bytes (unreachable).
* Performance, allocation and `Send`/`Sync` properties.

## Wrong programs

`seeded/LOG.jsonl` lists edits of the model that mimic realistic bugs with the theorems that caught them, and the theorems
that were added or tightened after an edit survived.

## Per property

* **C01** Committed-ness is a sticky, associative effect. *Status: proved, in `Properties1.v`, `Properties28.v`.*
  Modelled: `Base.v`: `commit`, `presult`, `and_then`, `combine`, `merge`, conversions.
  Proved: Case analysis; `chain` by induction over a list of steps of any length.
* **C02** Single-token parsers accept exactly their token set. *Status: proved, in `Properties1.v`.*
  Modelled: `Token.v`.
  Proved: One complete characterisation per parser (success, failure, value, commitment), against sets of tokens.
* **C03** Literal sequences match exactly, and only commit after the first match. *Status: proved, in `Properties1.v`.*
  Modelled: `Token.v`: `tokens`, `tokens_cmp` and the loop behind them.
  Proved: Induction on the literal. `cases_cover` shows that the three cases of the statement are exhaustive.
* **C04** Tuple sequencing runs parsers in order and threads the input. *Status: proved, in `Properties1.v`.*
  Modelled: `Sequence.v`: tuples as heterogeneous lists of parsers of any length, with the macro's state machine.
  Proved: Induction on the list, against the inductive relation of `SeqSpec.v`; `tuple_error` covers which parser is blamed.
* **C05** with, skip, between, then, map and friends are the expected derived sequences. *Status: proved, in `Properties1.v`.*
  Modelled: `Combinator.v`, `Sequence.v`.
  Proved: Derived from C04 or directly.
* **C06** Ordered choice tries alternatives left to right and stops at the first commitment. *Status: proved, in `Properties2.v`.*
  Modelled: `Choice.v`: tuples of alternatives of any length, `or`.
  Proved: Induction on the alternatives against `ChoiceSpec.v`; also for any left-over state.
* **C07** Choice over arrays and slices is the same ordered choice. *Status: proved, in `Properties2.v`, `Properties25.v`.*
  Modelled: `Choice.v`: slices and arrays.
  Proved: Induction; refuted for slices whose alternatives have a state that an abandoned use leaves dirty, because all alternatives share one state. `C07_slice_calls`, `C07_slice_next` (`SliceProofs.v`): a choice whose alternative failed committed goes on as that alternative until it succeeds, and then chooses anew; induction over the calls.
  Refuted parts: `C07_slice_sharing_refuted`.
* **C08** optional never fails where its parser merely does not match. *Status: proved, in `Properties2.v`.*
  Modelled: `Choice.v`: `optional`.
  Proved: Direct.
* **C09** attempt makes every failure backtrackable on complete input. *Status: proved, in `Properties4.v`.*
  Modelled: `Combinator.v`: `attempt`.
  Proved: Direct; the failure half over the class `lib` of all library parsers.
* **C10** look_ahead and not_followed_by never consume. *Status: proved, in `Properties4.v`.*
  Modelled: `Combinator.v`: `look_ahead`, `not_followed_by`.
  Proved: Direct.
* **C11** many / many1 / skip_many are greedy maximal repetition. *Status: proved, in `Properties3.v`.*
  Modelled: `Repeat.v`: `Iter`, `many`, `many1`, `skip_many(1)`.
  Proved: Fuel induction against the inductive relation `reps` of `RepeatSpec.v`.
* **C12** Repetition terminates exactly when the repeated parser makes progress. *Status: proved, in `Properties3.v`.*
  Modelled: `Repeat.v`.
  Proved: Bound on the fuel by the number of tokens left; divergence shown for a parser that succeeds without consuming.
* **C13** count and count_min_max honour their bounds. *Status: proved, in `Properties3.v`.*
  Modelled: `Repeat.v`: `count_min_max` and relatives.
  Proved: As C11, with counters; `min > max` panics.
* **C14** sep_by / sep_by1 parse p (sep p)* . *Status: proved, in `Properties3.v`.*
  Modelled: `Repeat.v`: `sep_by(1)`.
  Proved: As C11.
* **C15** sep_end_by / sep_end_by1 additionally allow a trailing separator. *Status: proved, in `Properties3.v`.*
  Modelled: `Repeat.v`: `sep_end_by(1)`.
  Proved: As C11.
* **C16** chainl1 folds to the left. *Status: proved, in `Properties3.v`.*
  Modelled: `Repeat.v`: `chainl1`.
  Proved: As C11, with the accumulated value.
* **C17** chainr1 folds to the right. *Status: proved, in `Properties3.v`.*
  Modelled: `Repeat.v`: `chainr1`.
  Proved: As C11; `right_fold` relates the result to a right fold.
* **C18** take_until / skip_until / repeat_until stop at the first place the end parser matches. *Status: proved, in `Properties3.v`.*
  Modelled: `Repeat.v`: `take_until`, `skip_until`, `repeat_until`.
  Proved: As C11, with the stop condition at every place passed.
* **C19** iterate runs one parser per item. *Status: proved, in `Properties3.v`.*
  Modelled: `Repeat.v`: `iterate`.
  Proved: Induction on the items.
* **C20** recognize returns exactly what was consumed. *Status: proved, in `Properties4.v`.*
  Modelled: `Combinator.v`, `RangeP.v`: `recognize`, `recognize_with_value`.
  Proved: List lemmas on what lies between two positions of the input.
* **C21** take, take_while, take_while1, range return the right prefix without copying more or less. *Status: proved, in `Properties5.v`.*
  Modelled: `RangeP.v`.
  Proved: Against `units`/`take_spec` of `RangeSpec.v` (units are bytes for `&str`, elements for slices).
* **C22** take_until_range and take_until_byte(s) find the first occurrence. *Status: proved, in `Properties5.v`.*
  Modelled: `RangeP.v`, `ByteP.v`.
  Proved: Against an independent definition of first occurrence.
* **C23** Numeric parsers decode exactly their bytes. *Status: proved, in `Properties5.v`.*
  Modelled: `ByteP.v`: `be_*`, `le_*`.
  Proved: Positional notation, two's complement; floats are their bit patterns.
* **C24** Character and byte classes denote exactly the documented sets. *Status: proved, in `Properties5.v`.*
  Modelled: `ByteP.v`.
  Proved: Exhaustive over the 256 bytes where the classes are on bytes; for `char` the Unicode tables are parameters and only the ASCII part is fixed.
* **C25** Parsers only ever move forward along the input. *Status: proved, in `Properties2.v`.*
  Modelled: all parser files.
  Proved: The property is shown of every primitive and preserved by every combinator (`ForwardProofs.v`), over the inductive class `lib`.
* **C26** Entry points report non-matching input without moving it. *Status: proved, in `Properties4.v`.*
  Modelled: `Parser.v`: `parse`, `parse_with_state`, `parse_stream`.
  Proved: From agreement of the calling methods (`AgreeSpec.v`, `AgreeProofs.v`).
  Refuted parts: `C26_attempt_refuted`.
* **C27** A success reported as not committed has not consumed anything. *Status: proved, in `Properties9.v`.*
  Modelled: all parser files.
  Proved: Closure under the combinators (`StillSpec.v`, `StillProofs.v`); refuted for `escaped`, and three counterexamples for the converse.
  Refuted parts: `C27_escaped_refuted`, `C27_escaped_loses_refuted`, `C27_converse_take_until_refuted`, `C27_converse_repeat_until_refuted`, `C27_converse_range_refuted`.
* **C28** A parser's result does not depend on earlier, abandoned uses. *Status: proved, in `Properties3.v`, `Properties9.v`.*
  Modelled: all parser files.
  Proved: Closure (`TidySpec.v`, `TidyProofs.v`); refutations by computation for the combinators that leave a trace.
  Refuted parts: `C28_attempt_count_refuted`, `C28_attempt_many_refuted`, `C28_attempt_many1_refuted`, `C28_take_until_refuted`, `C28_repeat_until_refuted`.
* **C29** Incremental parsing gives the same answer as parsing everything at once. *Status: proved, in `Properties8.v`.*
  Modelled: all parser files.
  Proved: Simulation between a resumed and an uninterrupted run (`ChunkSpec.v`, `ChunkProofs*.v`), then induction over the chunks.  The class includes `recognize` and `range::recognize`.  It includes `parser!` functions without state around parsers that wait without consuming (`char::digit`), and `string`, `bytes` and their `_cmp` forms inside `no_partial`.  `take`, `range`, `take_fn`, `take_until_range` and `take_until_bytes` of two bytes or more are in the class for slices only: on strings a size that ends inside a character is another error than missing data (C30).
* **C30** Incremental parsing is NOT chunk invariant for these parsers. *Status: proved, in `Properties27.v`, `Properties8.v`.*
  Modelled: the same.
  Proved: Refutations by computation of concrete sessions: library parsers outside the class of C29.
  Refuted parts: `C30_chainl1_refuted`, `C30_sep_by_refuted`, `C30_sep_by1_refuted`, `C30_attempt_refuted`, `C30_many_refuted`, `C30_optional_refuted`, `C30_tokens_refuted`, `C30_eof_refuted`, `C30_not_followed_by_refuted`, `C30_parser_fn_refuted`, `C30_take_until_refuted`, `C30_repeat_until_refuted`, `C30_chainr1_refuted`, `C30_choice_slice_refuted`, `C30_stale_refuted`, `C30_length_prefix_refuted`, `C30_count_refuted`, `C30_take_until_byte_refuted`, `C30_range_str_refuted`, `C30_take_until_range_str_refuted`, `C30_take_until_byte_str_refuted`.
* **C31** decode classifies outcomes and counts removed bytes exactly. *Status: proved, in `Properties7.v`.*
  Modelled: `DecodeM.v`: `decode`, `decode_tokio`.
  Proved: Direct, over all parsers that only move forward.
* **C32** The decode loop neither loses, duplicates nor reorders bytes for any read schedule. *Status: proved, in `Properties7.v`.*
  Modelled: `DecodeM.v`: `decode!` loop, `Decoder`, buffer.
  Proved: Invariant over the read schedule (reader and buffer growth are oracles).
  Refuted parts: `C32_error_state_refuted`.
* **C33** any_partial_state is transparent. *Status: proved, in `Properties4.v`.*
  Modelled: `Combinator.v`: `any_partial_state`.
  Proved: Simulation over call histories.
* **C34** Line and column positions are exact. *Status: proved, in `Properties11.v`, `Properties6.v`.*
  Modelled: `StreamM.v`: positioners.
  Proved: Induction over histories; `determined`: the position determines the text consumed up to line structure.
* **C35** Token-wise and range-wise consumption agree on positions. *Status: proved, in `Properties6.v`.*
  Modelled: `StreamM.v`: range positioners.
  Proved: Induction; refuted for index positions on strings.
  Refuted parts: `C35_index_str_refuted`.
* **C36** buffered::Stream replays exactly the last tokens. *Status: proved, in `Properties6.v`.*
  Modelled: `BufferedM.v`.
  Proved: Refinement between the stream with a bounded buffer and one with an unbounded log (`BufferedSpec.v`), over all histories.
* **C37** &str streams never split a character. *Status: proved, in `Properties6.v`.*
  Modelled: `StreamM.v`: byte-level `&str` functions over an arithmetic UTF-8 encoder.
  Proved: Induction on characters.
* **C38** The unrolled slice scanning loop equals the obvious loop. *Status: proved, in `Properties6.v`.*
  Modelled: `StreamM.v`: the loop unrolled eight times.
  Proved: Induction in steps of eight.
* **C39** Merging easy errors keeps the furthest position and the union of what is known. *Status: proved, in `Properties4.v`.*
  Modelled: `Errors.v`.
  Proved: List lemmas; refuted for `Other`.
  Refuted parts: `C39_other_refuted`.
* **C40** expected / message / silent / unexpected rewrite error reports as documented. *Status: proved, in `Properties4.v`.*
  Modelled: `Combinator.v` error combinators, `Errors.v`.
  Proved: From the behaviour of `add_error` (`ErrProofs2.v`).
* **C41** A failed choice of tokens reports every expected alternative. *Status: proved, in `Properties4.v`.*
  Modelled: `Choice.v`, `Errors.v`.
  Proved: Induction on the alternatives (`ErrProofs3.v`, `ErrProofs4.v`); the refutation by computation.
  Refuted parts: `C41_all_alternatives_refuted`.
* **C42** A failed sequence reports what the failing element expected at the failure position. *Status: proved, in `Properties4.v`.*
  Modelled: `Sequence.v`, `Errors.v`.
  Proved: Induction on the parts (`ErrProofs3.v`, `ErrProofs4.v`); the refutations by computation.
  Refuted parts: `C42_nesting_refuted`.
* **C43** Converting errors between representations preserves kind and position. *Status: proved, in `Properties4.v`.*
  Modelled: `Errors.v` conversions.
  Proved: Direct; four refutations.
  Refuted parts: `C43_message_refuted`, `C43_last_only_refuted`, `C43_easy_eoi_refuted`, `C43_boundary_refuted`.
* **C44** The minimal error types remember end-of-input and are otherwise forgetful. *Status: proved, in `Properties11.v`, `Properties4.v`.*
  Modelled: `Errors.v`, `DecodeM.v`: `UnexpectedParse`, `StringStreamError`, `read::Error`.
  Proved: Induction on the list of errors added.
* **C45** escaped accepts alternating runs of plain text and escapes. *Status: proved, in `Properties3.v`.*
  Modelled: `Repeat.v`: `escaped`.
  Proved: As C11; refuted for plain parsers that do not restore the input on failure.
  Refuted parts: `C45_satisfy_refuted`.
* **C46** Reading errors are not mistaken for the end of the data. *Status: proved, in `Properties7.v`.*
  Modelled: `DecodeM.v`: `read::Stream`, decode loop.
  Proved: Direct; refuted for repetition over `read::Stream`.
  Refuted parts: `C46_many_refuted`.
* **C47** length_prefix consumes the announced number of items. *Status: proved, in `Properties5.v`.*
  Modelled: `ByteP.v`: `length_prefix`.
  Proved: Direct.
* **C48** spanned reports the span of the failing parser. *Status: proved, in `Properties4.v`.*
  Modelled: `Combinator.v`: `spanned`.
  Proved: Direct.
* **C49** A sequence of parsers with state cannot reach the unchecked unwrap with a missing value. *Status: proved, in `Properties1.v`.*
  Modelled: `Sequence.v`.
  Proved: Invariant of the tuple state machine over all states and modes.
* **C50** Whatever the grammar, no input makes the stream layer read out of bounds or panic. *Status: proved, in `Properties6.v`.*
  Modelled: `StreamM.v`, `BufferedM.v`.
  Proved: Panic freedom over all call histories.
* **C51** BufReader neither loses, duplicates nor reorders bytes. *Status: proved, in `Properties7.v`.*
  Modelled: `DecodeM.v`: `BufReader`.
  Proved: Invariant over call histories.
* **C52** Well-formed parsers always return. *Status: proved, in `Properties10.v`.*
  Modelled: all parser files.
  Proved: Closure under the combinators (`TotalSpec.v`, `TotalProofs*.v`); side conditions shown necessary.
  Refuted parts: `C52_unproductive_refuted`, `C52_many1_refuted`, `C52_then_refuted`.
* **C53** Guarded recursive grammars terminate. *Status: proved, in `Properties10.v`.*
  Modelled: `ByteP.v`: function parsers, `TotalSpec.v`: unfolding of a recursive grammar to any depth.
  Proved: Induction on the number of tokens left.
  Refuted parts: `C53_left_recursion_refuted`.
* **C54** Stream wrappers are transparent. *Status: proved, in `Properties11.v`.*
  Modelled: `WrapM.v`: the stream traits as a record, one wrapper at a time.
  Proved: Induction on the client program (`WrapSpec.v`: free programs over the trait methods).
* **C55** Pointer positions count what was consumed. *Status: proved, in `Properties11.v`.*
  Modelled: `WrapM.v`: pointers and sizes.
  Proved: Invariant over client programs.
  Refuted parts: `C55_index_refuted`.
* **C56** Error reports say everything that is known, in the documented form. *Status: proved, in `Properties11.v`.*
  Modelled: `FmtM.v`.
  Proved: Induction on the list of errors.
* **C57** Regex parsers consume up to the end of the match. *Status: proved, in `Properties11.v`.*
  Modelled: `RegexP.v`; the regex engine is an oracle.
  Proved: Against the oracle's specification `honest_regex` in `FmtSpec.v`.
  Refuted parts: `C57_chunks_refuted`.
* **C58** A grammar written with the combinators means what its operational semantics says. *Status: proved, in `Properties12.v`.*
  Modelled: the parser expression of a grammar over the modelled combinators; rules unfolded to a stack depth.
  Proved: Soundness by induction on depth and expression, completeness by induction on the big-step derivation (`GrammarSpec.v`, `GrammarProofs*.v`).
* **C59** With attempt in the right places a grammar is a parsing expression grammar. *Status: proved, in `Properties12.v`.*
  Modelled: as C58.
  Proved: Equivalence of the semantics with commitment and the one of parsing expression grammars under the syntactic condition.
  Refuted parts: `C59_no_attempt_refuted`.
* **C60** LL(1) grammars need no attempt. *Status: proved, in `Properties12.v`.*
  Modelled: as C58.
  Proved: First/follow argument by induction on derivations; prediction lemma by rank of rules.
  Refuted parts: `C60_not_ll1_refuted`.
* **C61** Grammars without left recursion always give a result. *Status: proved, in `Properties12.v`.*
  Modelled: as C58.
  Proved: Well-founded induction on input length, rank of the rule and expression.
  Refuted parts: `C61_left_recursion_refuted`.
* **C62** The language server decoder of examples/async.rs gives back the messages, however the bytes arrive. *Status: proved, in `Properties13.v`.*
  Modelled: `examples/async.rs` (`LspM.v`); tokio's `FramedRead` is the relation `fed` of `LspSpec.v`, `str::from_utf8` a parameter.
  Proved: C29's simulation for the decoder's parser, a decomposition of the text by the frame grammar, invariant over the calls. Assumes each call returns (`Done`), the statement is about what it returns.
  Refuted parts: `C62_bad_bytes_panic_refuted`.
* **C63** The JSON parser of benches/json.rs reads exactly the texts of its grammar. *Status: proved, in `Properties14.v`.*
  Modelled: `benches/json.rs` lines 32-179 (`JsonM.v`). `f64` is a record of operations (`f64_ops`), no floating point semantics; the statement about values is in exact rational arithmetic (`q_ops`). `HashMap` is the list of fields in order of the text.
  Proved: Compositional lemmas from parsers to the texts they read (`LangProofs.v`: `lang n b P Q`), then induction on the call depth. The RFC texts by mutual induction on their grammar. Totality by C53.
  Refuted parts: `C63_sign_refuted`, `C63_rfc_only_refuted`.
* **C64** The date parser of examples/date.rs reads exactly the date texts; where its unwrap panics. *Status: proved, in `Properties15.v`.*
  Modelled: `examples/date.rs` lines 41-155 (`DateM.v`); `main` (reading a file) is not. `i32::from_str` is written out (`parse_i32`); the closure that panics is `map_or_panic`.
  Proved: The `lang` lemmas of `LangProofs.v` (C63) for each function of the example; the panic by comparing the run with that of a parser whose year conversion is total, which returns by C52.
  Refuted parts: `C64_unwrap_refuted`.
* **C65** The INI parser of examples/ini.rs reads exactly the INI texts of its grammar; files written from values are read back. *Status: proved, in `Properties16.v`.*
  Modelled: `examples/ini.rs` lines 35-91 (`IniM.v`); `main` is not. A `HashMap` is the list of entries inserted.
  Proved: The `lang` lemmas of `LangProofs.v` for each function, the runs of white space and comments by induction; totality by C52. Files that are not read to the end without an error: `C65_eof_refuted`.
  Refuted parts: `C65_eof_refuted`.
* **C66** The HTTP parser of benches/http.rs reads exactly the request texts of its grammar. *Status: proved, in `Properties17.v`.*
  Modelled: `benches/http.rs` lines 34-117 and the loop of `http_requests_bench` (`HttpM.v`); the expansion of `struct_parser!` is the tuple and the map it stands for; byte ranges of `is_token` above 127 are read as all numbers above 127.
  Proved: `lang` lemmas as in C63-C65, with new ones for `take_while1` (longest run) and `range`; the loop by induction on its length; RFC 9112 requests as an independent grammar (`HttpSpec.v`) included by construction; the counterexamples by computation.
  Refuted parts: `C66_all_rfc_refuted`, `C66_pieces_refuted`.
* **C67** The MP4 parser of benches/mp4.rs: the files it reads, refuses, and panics on. *Status: proved, in `Properties18.v`.*
  Modelled: `benches/mp4.rs` lines 19-66 (`Mp4M.v`); `usize` of 64 bits; the subtraction of line 52 panics or wraps with `dbg`; `from_utf8` is any function; the positions of inner errors are counted from the box.
  Proved: The box parser by `lang` lemmas; every file is covered by boxes and one of the three ways to stop (`file_cover`, strong induction on the length), each of which determines what `many` does (C24-C26 lemmas, a new one for panics). `C67_error_kept` was added after a seeded bug survived: the reported error is that of the box alone.
  Refuted parts: `C67_no_panic_refuted`, `C67_complete_refuted`.
* **C68** Asynchronous decoding: neither not-ready polls nor dropped futures nor repeated calls change what is decoded. *Status: proved, in `Properties19.v`.*
  Modelled: The four asynchronous macros (`stream/mod.rs:1464-1847`), `Decoder::__before_parse_async` and siblings, the asynchronous functions of `buf_reader.rs` (`AsyncM.v`). One poll of the future is a function: run the loop until the reader is not ready or there is a result; the suspended future is one bit, everything else is in the decoder and the reader. Callers are a relation: poll on, drop and call again, call again after an I/O error. Wakers are not modelled. The `reserve(8 * 1024)` of the asynchronous functions never runs (`has_remaining_mut` compares with `usize::MAX`): 64 bytes are reserved when the buffer is full, as in the model..
  Proved: One lemma about a poll, for any relation with the rules of sessions, instantiated with sessions and with interrupted sessions (`AsyncProofs.v`); the invariant of C29 holds at an interruption, so that the proof for sessions extends (`AsyncProofs2.v`). `BufReader`: induction on the history.
* **C69** dispatch! behaves as the selected branch, fresh or resumed, whatever state another branch left. *Status: proved, in `Properties20.v`.*
  Modelled: The enum of parsers of `dispatch_parser_impl!` as a value `disp` that says which branch was selected, over the sum of the states of all branches; `parse_mode` and `add_error` (`Choice.v`). The `match` is Gallina's..
  Proved: Induction on the number of branches (`DispProofs.v`); `dispatch` is a rule of the classes `lib`, `tidy`, `honest`, `solid` and `chunkable`, with its case in each of their proofs. `C69_expected_refuted` is the missing `add_committed_expected_error`.
  Refuted parts: `C69_expected_refuted`.
* **C70** input_converter runs the inner parser on the converted stream; only the converter moves the outer one. *Status: proved, in `Properties20.v`.*
  Modelled: `InputConverter` with two stream configurations; the converter is two functions that may move the outer input (`Combinator.v`)..
  Proved: Case analysis on the conversion and the inner result (`DispProofs.v`); the endless loop is C12's theorem; the sessions in pieces are computed.
  Refuted parts: `C70_pieces_refuted`, `C70_expected_refuted`.
* **C71** What each parser contributes to an error report. *Status: proved, in `Properties21.v`.*
  Modelled: `p_adderr`, `p_addcexp`, `p_count` of every combinator (the model files of the parsers).
  Proved: Independent table `asks` (`ReportSpec.v`); mutual induction over it (`ReportProofs.v`), together with C42's description of sequences and C41's of choices. Parsers that nest a sequence directly in a sequence (or in `skip_count` etc.) are outside the table: their counts are off in the code, see C42. `C71_attempt_lazy_refuted` is the report lost by `Lazy::parse_committed_mode`.
  Refuted parts: `C71_attempt_lazy_refuted`.
* **C72** Iterators driven by hand: next, into_result, iter and partial_iter. *Status: proved, in `Properties22.v`.*
  Modelled: `iter`, `iter_new`, `iter_next`, `into_result`, `iter_extend`, `doc_number` (`ObjM.v`).
  Proved: `C72_many`: a run of `many` is a sequence of `next` calls and `into_result` (`ObjProofs.v`); `C72_elements`, `C72_end`: against `reps` of C24; `C72_chunks`: a user collecting in chunks is a C29 session of `many`. `C72_again_refuted`: `Iter` is not fused, a call after a committed error can overwrite it. `reset` failing is not modelled.
  Refuted parts: `C72_again_refuted`.
* **C73** factory builds the parser for each fresh parse and resumes the one it built. *Status: proved, in `Properties22.v`.*
  Modelled: `machine` (the trait with an explicit `&mut self`), `factory_obj`, `many_obj` (`ObjM.v`).
  Proved: Unfolding for single runs, induction over the items against `built` (`ObjSpec.v`) for `many`, over the calls for resumption. Two refutations with witnesses: next message on the same object, object rebuilt between chunks. Closures are taken not to panic; other combinators over an object are not modelled (they are over values).
  Refuted parts: `C73_next_message_refuted`, `C73_rebuilt_refuted`.
* **C74** Decoding in pieces comes to an end. *Status: proved, in `Properties23.v`.*
  Modelled: The models of C29, C32 and C68; the class `steady` (`SteadySpec.v`) is C29's with `solid` (C52) asked of what `many`, `many1`, `sep_end_by`, `sep_end_by1` and `chainl1` repeat.
  Proved: `ret_by` (`SteadyProofs.v`): runs from the states C29's proof speaks of return; one lemma per combinator, induction over the class (`steady_sound`); induction over the chunks for sessions, over the rounds for `decode!` and polls (`SteadyProofs4.v`). Strengthens C32 and C68, whose no-panic and termination theorems assume that no run of the parser panics or loops, from any state. `C74_ex_loop`: without the extra premise a parser of C29's class never returns
* **C75** The error type never changes what is parsed. *Status: proved, in `Properties24.v`.*
  Modelled: All parsers of the model at two configurations that share tokens and positions (`retype`, `TwinSpec.v`).
  Proved: Relation `twin` between a parser and the same parser at the other error type, one rule per combinator; `sim` (`TwinProofs.v`): same kind of answer, value, stream and state from all four methods; one congruence lemma per combinator, induction over `twin`. Sessions by C29 on both sides. `C75_attempt_refuted` shows that the restriction on `attempt` is needed. What user closures (`flat_map`, `and_then`, `parser(..)`, converters) answer must not depend on the error type, except for the error itself. Sharing of fuel between the two sides is part of `retype`.
  Refuted parts: `C75_attempt_refuted`.
* **C76** Searching a text that arrives in pieces. *Status: proved, in `Properties25.v`.*
  Modelled: `RangeP.v`: `take_fn`; `ByteP.v`: `take_until_byte*`, `take_until_bytes`; `ExamplesM.v`: `bf_parser` (benches/buffers.rs).
  Proved: Spec `finds_in_pieces`, `ends_in_pieces` (`SearchSpec.v`). `search_laws` (`SearchProofs.v`) says what a search must answer (first place, nothing before it, the skip length safe for every continuation) and is proved for byte sets and for needles; the parsers keep an invariant on the stored offset relating it to the text searched so far; induction over the session. `C76_half_again` computes the stored offsets; `C76_str_byte_refuted`, `C76_str_bytes_refuted` are sessions over `&str` with a wrong value, because the failure to skip to an offset inside a character is ignored. memchr is modelled as what it is specified to do.
  Refuted parts: `C76_str_byte_refuted`, `C76_str_bytes_refuted`.
* **C77** The small example programs: number.rs and readme.rs. *Status: proved, in `Properties26.v`.*
  Modelled: `ExamplesM.v`: `nm_number` (examples/number.rs), `rm_word` (examples/readme.rs).
  Proved: Spec `SmallSpec.v`: `longest_decimal`, `sentence`. The two parsers are taken apart with the `lang` lemmas (`LangProofs.v` and a new one for `recognize`); every text is in exactly one of the cases; returning is C52, pieces are C29. `C77_number_safe`: two closures that agree on decimal texts give equal results, so that the unchecked conversion only ever sees ASCII. `str::parse::<f64>`, `char::is_alphabetic` and `char::is_whitespace` are arbitrary functions (the last two without a common character).
* **C78** Lists ended by separators and operator chains read in pieces. *Status: proved, in `Properties27.v`.*
  Modelled: `Repeat.v`: `sep_end_by1_rest`, `sep_end_by1_run`, `sep_end_by`, `chainl_loop`, `chainl1`.
  Proved: `ChunkProofs12.v` (`chunk_sep_end_by1`, `chunk_sep_end_by`) and `ChunkProofs13.v` (`chunk_chainl1`) add three cases to the induction behind C29; `C78_sep_end_by1` and `C78_chainl1` combine it with the grammars of C15 and C16. `C78_stays_committed` (`StayProofs.v`): invariant that the saved commitment is `Commit` from the first suspension on. `C30_chainl1_refuted` is the counterexample for an operand that needs a token.
* **C79** Laws for rewriting parsers. *Status: proved, in `Properties28.v`.*
  Modelled: The combinators of `Sequence.v`, `Choice.v`, `Combinator.v`, `Repeat.v`, used from their default state.
  Proved: `eqn` (`EqSpec.v`): inductive equational theory with reflexivity, symmetry, transitivity, about fifty laws and the congruences. Soundness (`eqn_sound`, `EqProofs2.v`) by induction over the derivation: each combinator is reduced to an operation on what can be observed of a run (`obs`, `EqProofs.v`), using the characterisations of C05 to C16. `C79_factor` and `C79_unfold` are derivations in the theory, the first by induction over the alternatives. Error reports are not compared: nested sequences report fewer expectations than flat ones. Repetition laws ask that the repeated parser does not mind its history (C28). Five refutations delimit the theory.
  Refuted parts: `C79_or_comm_refuted`, `C79_factor_no_attempt_refuted`, `C79_factor_right_refuted`, `C79_attempt_or_refuted`.
* **C80** The decoders of tests/async.rs give the messages back however the data is cut. *Status: proved, in `Properties29.v`, `Properties30.v`, `Properties33.v`.*
  Modelled: `decode_stream`, `framed_items`, `run_decoder` and the parsers of tests/async.rs in `FramedM.v`, over tokens of one byte; `FramedRead` of tokio_util is modelled by its loop: decode until nothing comes, read, and at the end decode_eof until nothing comes.
  Proved: `C80_decoder`: invariant of the loop of `framed_items` (`finv`, `FramedProofs.v`): the state of the decoder is one that C29's class allows after the part read of the current message, and the buffer with what is still to be read is the rest of the messages. `C80_end_kept` by induction over the class: `add_error` of every combinator keeps the end of input if `set_expected` does. The parsers of the tests are shown to be in the class and to take one message off any text (`FramedProofs3.v`). `sep_end_by_test` (a tuple of digits as element) and `take_until` are not in the class, see the end. `C80_prefix_many_then` and `C80_content_length` (`FramedM2.v`, `FramedSpec2.v`, `FramedProofs4.v`) need `count_min_max` with bounds taken from the message: rules `ck_count_by`, `sd_count_by` of the classes of C30 and C74. `C80_take_until_bytes` needs the rules `ck_take_until_bytes`, `sd_take_until_bytes` (`ChunkProofs15.v`): a search for at least two bytes resumed where it stopped finds what the search from the beginning finds. `FramedM3.v` has the three tests outside the class of C74. `UntilProofs.v`, `UntilProofs2.v`: invariants of the loop for texts ended by a comma or two colons. The last one is C83
  Refuted parts: `C80_end_refuted`.
* **C81** A decoder of tests/async.rs on any text: no message is made up, none is lost, and what is reported. *Status: proved, in `Properties31.v`, `Properties33.v`.*
  Modelled: the same definitions as C80, with `prefix_many_then_parser` and `content_length` of `FramedM2.v`.
  Proved: `any_step`, `reads_items`, `items_end` in `FramedProofs5.v`: invariant of the loop (`ginv`) without assuming that the text is made of messages; the specification is the relation `reads` of `FramedSpec2.v`, which knows nothing of pieces. `C81_whole` uses that an atomic parser of the class keeps nothing in its state. Finding: `C81_silent_refuted`, a truncated last message can vanish without an error; `C81_sep_end_by_refuted`, a half-read element vanishes inside a message; `C81_take_until_refuted`, `TakeUntil` puts back the input but not the state of its end parser.
  Refuted parts: `C81_silent_refuted`, `C81_take_until_refuted`, `C81_sep_end_by_refuted`.
* **C82** Decoders that never see the end of the input (impl_byte_decoder! of tests/async.rs). *Status: proved, in `Properties32.v`.*
  Modelled: `byte_decode`, `byte_items`, `run_byte_decoder` and `num_test_parser` in `FramedM2.v`: `decode` of `DecodeM.v` on a partial stream, and the default `decode_eof` of tokio_util (crate outside the repository, modelled by its documented behaviour: an error if bytes remain).
  Proved: `byte_decode_eq` reduces a step to that of C81 before the end, `begins_items`, `byte_items_end` by induction over the loop; the specification is the relation `begins` (messages one after the other, nothing said of the rest) of `FramedSpec2.v`. `counted_items` for messages of fixed length: how many tokens the state has taken is an invariant, so a suspended parser has less than one message. `C82_lost_refuted` has the messages that are dropped
  Refuted parts: `C82_lost_refuted`.
* **C83** The decoder of sep_end_by_test in tests/async.rs gives its lists back however the data is cut. *Status: partial, in `Properties33.v`.*
  Modelled: `sep_end_parser` in `FramedM3.v`, and the definitions of C80.
  Proved: `C83_text_partial`, `C83_lists_partial` by `closed_runs` in `FinProofs.v`: the situations (decoder, unread text, values to come) reachable by reading any prefix are finitely many, computed, and checked to be closed; so the theorems hold for every cut into any number of reads. Missing: texts other than the two; the element is a tuple of digits, which is not whole-or-nothing, so the classes of C74 and C78 do not apply.
