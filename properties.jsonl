{"id": "C01", "title": "Committed-ness is a sticky, associative effect", "statement": "Chaining parse results (ParseResult::and_then, Commit::merge, Commit::combine, Commit::combine_commit) marks the final result as committed exactly when some executed step was committed; a failure that happens after a committed step is never reported as backtrackable, a value is never changed by chaining, and chaining is associative with 'peek' as unit.", "quantifier": "all result values, all error values, all continuations", "why_tests_cant": "The laws range over arbitrary continuations and over chains of any length; unit tests exercise a few combinations.", "anchors": ["src/error.rs: Commit::merge, Commit::combine, Commit::combine_commit", "src/error.rs: ParseResult::and_then, map, map_err, into_result"]}
{"id": "C02", "title": "Single-token parsers accept exactly their token set", "statement": "any, satisfy, satisfy_map, token, one_of, none_of succeed iff there is a next token and it is in the parser's set, then consume exactly that token, return it (or its image) and report commitment; otherwise they fail without committing on complete input, and on a partial (streaming) input with nothing left they report a committed 'end of input' so that more data can be requested. eof succeeds iff no token is left; value/produce/position always succeed without consuming.", "quantifier": "every token type, predicate, token list and input (complete or partial)", "why_tests_cant": "Predicates and token alphabets are unbounded; tests fix a few literals.", "anchors": ["src/parser/token.rs: Any, Satisfy, SatisfyMap, Token, OneOf, NoneOf, Eof, Value, Produce, Position, satisfy_impl", "src/stream/mod.rs: uncons, wrap_stream_error"]}
{"id": "C03", "title": "Literal sequences match exactly, and only commit after the first match", "statement": "tokens / tokens_cmp (and string, bytes built on them) succeed iff the input starts with a sequence that matches the literal element-wise; then exactly that many tokens are consumed and the literal is returned; an empty literal succeeds without committing; failure at the first token is backtrackable, failure after one or more matched tokens is committed; the error is positioned at the start of the literal.", "quantifier": "every comparison function, literal of any length, and input", "why_tests_cant": "Literal and input lengths are unbounded; every split point between matched and unmatched prefix matters.", "anchors": ["src/parser/token.rs: Tokens, TokensCmp", "src/parser/char.rs: string, string_cmp", "src/parser/byte.rs: bytes, bytes_cmp"]}
{"id": "C04", "title": "Tuple sequencing runs parsers in order and threads the input", "statement": "A tuple of n parsers succeeds iff each parser, in order and starting where the previous one stopped, succeeds; the output is the tuple of outputs in order; the result is committed iff one of the parts committed. If part k fails, later parts are not run; the failure is committed if part k failed committed or any earlier part was committed, and otherwise is backtrackable.", "quantifier": "tuples of every arity, all component parsers, all inputs", "why_tests_cant": "Arity, component behaviour and inputs are unbounded; the macro has 20 arities and a mutable per-position state.", "anchors": ["src/parser/sequence.rs: tuple_parser!, add_sequence_error, SequenceState"]}
{"id": "C05", "title": "with, skip, between, then, map and friends are the expected derived sequences", "statement": "with keeps the second value, skip the first, between the middle one, and each accepts exactly the concatenation; then/then_partial/then_ref run the second parser chosen from the first one's value at the position where the first stopped, with the failure committed if the first part was; map, map_input, and_then, flat_map change only the value (and_then/flat_map may turn a success into a failure with the same commitment and no change of the consumed input on complete input).", "quantifier": "all parsers, functions and inputs", "why_tests_cant": "Ranges over arbitrary user parsers and closures.", "anchors": ["src/parser/sequence.rs: With, Skip, between, Then, ThenPartial, ThenRef", "src/parser/combinator.rs: Map, MapInput, AndThen, FlatMap, Ignore"]}
{"id": "C06", "title": "Ordered choice tries alternatives left to right and stops at the first commitment", "statement": "choice over a tuple (and or) gives the result of the first alternative which does not fail in a backtrackable way; every alternative is started on the same input; no alternative after one that succeeded or failed committed has any effect; if all fail backtrackably the choice fails backtrackably.", "quantifier": "tuples of every arity, all alternative parsers, all inputs", "why_tests_cant": "Unbounded number of alternatives and arbitrary parsers.", "anchors": ["src/parser/choice.rs: do_choice!, tuple_choice_parser_inner!, Choice, Or"]}
{"id": "C07", "title": "Choice over arrays and slices is the same ordered choice", "statement": "choice over an array/slice of parsers behaves as the ordered choice above for every parser list whose parsers keep no leftover partial state; an empty list always fails backtrackably. Without the side condition the claim is false: alternatives share one partial state, so a failed alternative can change what the next one returns.", "quantifier": "parser lists of any length, all inputs", "why_tests_cant": "The shared state only shows up for particular combinations of stateful parsers and failures.", "anchors": ["src/parser/choice.rs: slice_parse_mode, array_choice_parser!"]}
{"id": "C08", "title": "optional never fails where its parser merely does not match", "statement": "optional(p) returns Some(v) exactly when p succeeds with v, None with the input unchanged and no commitment exactly when p fails in a backtrackable way, and fails (committed) exactly when p fails committed.", "quantifier": "all parsers and inputs", "why_tests_cant": "Arbitrary parsers including those that move the input before failing.", "anchors": ["src/parser/choice.rs: Optional"]}
{"id": "C09", "title": "attempt makes every failure backtrackable on complete input", "statement": "On complete input attempt(p) succeeds exactly when p does with the same value, commitment and remaining input, and when p fails attempt(p) fails in a backtrackable way, so a following alternative is always tried from the original position. On a partial input a failure caused by the end of the available data stays committed so that parsing can be resumed.", "quantifier": "all parsers and inputs", "why_tests_cant": "Arbitrary parsers that consumed any amount of input before failing.", "anchors": ["src/parser/combinator.rs: Try, attempt"]}
{"id": "C10", "title": "look_ahead and not_followed_by never consume", "statement": "look_ahead(p) returns p's value with the input where it was before; if p fails the failure (and its commitment) is passed on with the input restored. not_followed_by(p) succeeds with the input unchanged iff p fails, and fails without commitment iff p succeeds.", "quantifier": "all parsers and inputs", "why_tests_cant": "Arbitrary parsers with arbitrary look-ahead distance.", "anchors": ["src/parser/combinator.rs: LookAhead, NotFollowedBy"]}
{"id": "C11", "title": "many / many1 / skip_many are greedy maximal repetition", "statement": "many(p) returns the longest list of consecutive p results, stopping at the first backtrackable failure of p with the input just after the last success; it fails only if p fails committed, with that error; many1 additionally fails like p if p does not match once. skip_many/skip_many1 accept the same inputs and return ().", "quantifier": "all parsers, inputs of every length", "why_tests_cant": "Loop length is unbounded.", "anchors": ["src/parser/repeat.rs: Many, Many1, Iter, skip_many, skip_many1, into_result_fast"]}
{"id": "C12", "title": "Repetition terminates exactly when the repeated parser makes progress", "statement": "If every success of p consumes at least one token then many(p), many1(p), sep_by, sep_end_by, chainl1, repeat_until and escaped finish within (remaining length + 1) iterations on every input; if p succeeds without consuming on some reachable input then many(p) never returns there.", "quantifier": "all parsers and inputs", "why_tests_cant": "Non-termination and unbounded termination can not be observed by running examples.", "anchors": ["src/parser/repeat.rs: Iter::next, Many, Many1, SepBy1, SepEndBy1, Chainl1, RepeatUntil, Escaped"]}
{"id": "C13", "title": "count and count_min_max honour their bounds", "statement": "count_min_max(min,max,p) runs p at most max times, greedily; it succeeds with the collected values iff at least min were parsed and no run failed committed; otherwise it fails, committed iff something was committed. count(n,p)=count_min_max(0,n,p); skip variants accept the same inputs. Constructing with min>max panics.", "quantifier": "all bounds min, max, all parsers and inputs", "why_tests_cant": "Bounds and inputs are unbounded.", "anchors": ["src/parser/repeat.rs: CountMinMax, count, skip_count, skip_count_min_max, Iter::fail"]}
{"id": "C14", "title": "sep_by / sep_by1 parse p (sep p)* ", "statement": "sep_by1(p,sep) accepts one p followed by as many (sep p) pairs as possible and returns the p values in order; a separator that is matched and committed must be followed by p (otherwise committed failure); sep_by additionally accepts nothing without committing when p does not match.", "quantifier": "all parsers and inputs", "why_tests_cant": "Loop length is unbounded, arbitrary element and separator parsers.", "anchors": ["src/parser/repeat.rs: SepBy, SepBy1"]}
{"id": "C15", "title": "sep_end_by / sep_end_by1 additionally allow a trailing separator", "statement": "sep_end_by1(p,sep) accepts p (sep p)* optionally followed by one trailing sep, returns the p values in order and stops after the first separator that is not followed by p; sep_end_by also accepts nothing.", "quantifier": "all parsers and inputs", "why_tests_cant": "Loop length is unbounded.", "anchors": ["src/parser/repeat.rs: SepEndBy, SepEndBy1"]}
{"id": "C16", "title": "chainl1 folds to the left", "statement": "chainl1(p,op) on x1 op1 x2 op2 ... xn returns (..(x1 op1 x2) op2 ..) opn-1 xn, greedily, and fails committed if a committed operator is not followed by an operand.", "quantifier": "all operand/operator parsers, chains of any length", "why_tests_cant": "Chain length is unbounded.", "anchors": ["src/parser/repeat.rs: Chainl1"]}
{"id": "C17", "title": "chainr1 folds to the right", "statement": "chainr1(p,op) on x1 op1 x2 op2 ... xn returns x1 op1 (x2 op2 (.. xn)); an operator that is not followed by an operand is consumed and dropped (it does not fail, unlike chainl1).", "quantifier": "all operand/operator parsers, chains of any length", "why_tests_cant": "Recursion depth is unbounded.", "anchors": ["src/parser/repeat.rs: Chainr1"]}
{"id": "C18", "title": "take_until / skip_until / repeat_until stop at the first place the end parser matches", "statement": "take_until(end) returns exactly the tokens before the first position at which end succeeds and leaves the input there (end is not consumed); it fails committed if end fails committed at an earlier position and fails if the input runs out. repeat_until(p,end) is the same with p instead of single tokens.", "quantifier": "all end parsers and inputs", "why_tests_cant": "Distance to the first match is unbounded.", "anchors": ["src/parser/repeat.rs: TakeUntil, RepeatUntil, skip_until, repeat_skip_until"]}
{"id": "C19", "title": "iterate runs one parser per item", "statement": "iterate(items, f) succeeds iff f(item1), f(item2), ... succeed one after the other over consecutive input, and returns the values in order; a failure is committed iff the failing parser's failure or an earlier success was committed.", "quantifier": "item lists of any length, all parser-producing functions, all inputs", "why_tests_cant": "List length is unbounded.", "anchors": ["src/parser/repeat.rs: Iterate"]}
{"id": "C20", "title": "recognize returns exactly what was consumed", "statement": "recognize(p) succeeds iff p does and returns precisely the tokens between the start and the place where p stopped, leaving the input where p left it; range::recognize and recognize_with_value return the same as a borrowed range (plus p's value).", "quantifier": "all parsers and inputs", "why_tests_cant": "Consumed length is unbounded.", "anchors": ["src/parser/combinator.rs: Recognize", "src/parser/range.rs: recognize, recognize_with_value, parse_partial_range"]}
{"id": "C21", "title": "take, take_while, take_while1, range return the right prefix without copying more or less", "statement": "take(n) returns exactly the first n elements or fails; take_while(f) returns the longest prefix satisfying f; take_while1 additionally needs it to be non-empty; range(r) succeeds iff the input starts with r. The remaining input is exactly what follows, and the commitment flag tells whether anything was consumed (range(\"\") being the exception: it reports commitment although nothing is consumed).", "quantifier": "all sizes, predicates, ranges and inputs", "why_tests_cant": "Sizes and inputs are unbounded.", "anchors": ["src/parser/range.rs: Take, TakeWhile, TakeWhile1, Range", "src/stream/mod.rs: uncons_range, uncons_while, uncons_while1"]}
{"id": "C22", "title": "take_until_range and take_until_byte(s) find the first occurrence", "statement": "take_until_range(r), take_until_byte{,2,3} and take_until_bytes(needle) return the part of the input strictly before the first occurrence of the needle and leave the input at the needle; they fail iff the needle does not occur.", "quantifier": "all needles and haystacks (slices)", "why_tests_cant": "Search over unbounded haystacks; overlap cases between a partially matching prefix and the real occurrence.", "anchors": ["src/parser/range.rs: TakeUntilRange, TakeFn, take_fn", "src/parser/byte.rs: take_until_byte, take_until_bytes, memslice"]}
{"id": "C23", "title": "Numeric parsers decode exactly their bytes", "statement": "Each be_*/le_* number parser consumes exactly size_of::<type>() bytes and returns the number whose big/little-endian (two's complement for signed) encoding they are; encoding the result gives the bytes back; with fewer bytes available it fails with the input restored to where it started.", "quantifier": "all widths and byte strings", "why_tests_cant": "2^64 and 2^128 values and all truncation points.", "anchors": ["src/parser/byte.rs: num::integer_parser!, be_u8..le_f64"]}
{"id": "C24", "title": "Character and byte classes denote exactly the documented sets", "statement": "digit, space, newline, tab, upper, lower, letter, alpha_num, oct_digit, hex_digit (byte module) accept exactly the documented ASCII sets; crlf accepts exactly \"\\r\\n\"; newline is accepted by space etc. (set inclusions).", "quantifier": "all 256 byte values", "why_tests_cant": "Tests pick a few representatives.", "anchors": ["src/parser/byte.rs: digit, space, spaces, newline, crlf, tab, upper, lower, alpha_num, letter, oct_digit, hex_digit"]}
{"id": "C25", "title": "Parsers only ever move forward along the input", "statement": "For every parser built from the library's combinators, whatever the outcome, the input afterwards is a suffix of the input before, its position is the position obtained by advancing over the consumed prefix, and the consumed prefix plus the rest is the original input.", "quantifier": "all parsers of the modelled library (closed under composition), all inputs, states and modes", "why_tests_cant": "A structural invariant over an infinite family of parsers.", "anchors": ["src/stream/mod.rs: ResetStream, Positioned", "src/parser/*.rs"]}
{"id": "C26", "title": "Entry points report non-matching input without moving it", "statement": "Parser::parse returns Ok with the value and the remaining input exactly when the parser succeeds; when the top-level parser fails backtrackably the returned error mentions the first token of the input as unexpected (or end of input if there is none) and the input is left at the start; parse_stream_partial behaves the same from a given state.", "quantifier": "all parsers and inputs", "why_tests_cant": "Arbitrary parsers which may have moved the input before failing.", "anchors": ["src/parser/mod.rs: Parser::parse, parse_stream, parse_stream_partial, parse_with_state, ParseMode::parse_committed"]}
{"id": "C27", "title": "A success reported as not committed has not consumed anything", "statement": "For parsers built from the library, PeekOk is only returned when no token was consumed. (False for escaped, whose escape branch consumes without committing when the escape parser peeks; the converse, CommitOk implies consumption, is false for take_until, repeat_until and range.)", "quantifier": "all parsers of the modelled library, all inputs", "why_tests_cant": "An invariant over an infinite family of parsers; the counterexamples need specific combinations.", "anchors": ["src/parser/repeat.rs: Escaped, TakeUntil, RepeatUntil", "src/parser/range.rs: Range"]}
{"id": "C28", "title": "A parser's result does not depend on earlier, abandoned uses", "statement": "Re-running the same parser at the same input within one parse gives the same result whatever was parsed before: leftover partial state from an abandoned attempt has no effect. Holds for parsers whose failures leave a clean state (all parsers without attempt/not_followed_by/array choice around a stateful repetition); false in general: e.g. a counted repetition abandoned inside attempt leaks already collected elements into the next use.", "quantifier": "all parsers, all inputs, all histories of earlier uses within the parse", "why_tests_cant": "Depends on the history of failed attempts inside loops, which tests do not enumerate.", "anchors": ["src/parser/repeat.rs: CountMinMax, Many, Many1, SepEndBy1, Chainl1, TakeUntil, RepeatUntil, Iterate", "src/parser/combinator.rs: Try, NotFollowedBy", "src/parser/choice.rs: slice_parse_mode"]}
{"id": "C29", "title": "Incremental parsing gives the same answer as parsing everything at once", "statement": "Feeding the input to a parser in arbitrary pieces (parse_with_state on a partial stream, keeping the state and the unconsumed rest, then a final complete call) yields the same value and the same remaining input as one parse of the whole input. Proved for the combinators for which it holds, refuted with concrete inputs for those for which it does not.", "quantifier": "every way of splitting every input into chunks, all parsers in the class", "why_tests_cant": "There are exponentially many chunkings of every input.", "anchors": ["src/parser/mod.rs: parse_with_state, parse_partial", "src/parser/sequence.rs: tuple_parser!", "src/parser/repeat.rs", "src/parser/choice.rs", "src/parser/range.rs", "src/stream/mod.rs: MaybePartialStream"]}
{"id": "C30", "title": "Incremental parsing is NOT chunk invariant for these parsers", "statement": "sep_by1 (and sep_by), attempt inside or, repetition of a sequence, bare tokens/string, eof, and parsers declared with parser! without a partial state (among them count and length_prefix) can return a different value, a spurious success or a spurious error depending on where the input is cut. So can take_until_byte at the end of the input and, on strings, range, take_until_range and take_until_byte, whose offsets need not fall between characters.", "quantifier": "existence of inputs and cut points", "why_tests_cant": "The existing tests never cut these parsers at the relevant point.", "anchors": ["src/parser/repeat.rs: SepBy1, Iter", "src/parser/combinator.rs: Try", "src/parser/sequence.rs: tuple_parser!", "src/parser/token.rs: Tokens, Eof", "src/lib.rs: combine_parse_partial!"]}
{"id": "C31", "title": "decode classifies outcomes and counts removed bytes exactly", "statement": "decode / decode_tokio return (Some(v), n) on success, (None, n) exactly when a partial stream ran out of data, and the error otherwise, where n is the exact number of input bytes consumed, so that dropping n bytes from the front leaves exactly the unconsumed input.", "quantifier": "all parsers, states and inputs", "why_tests_cant": "Bookkeeping for every consumption length and outcome.", "anchors": ["src/stream/mod.rs: decode, decode_tokio"]}
{"id": "C32", "title": "The decode loop neither loses, duplicates nor reorders bytes for any read schedule", "statement": "For every sequence of reads (any sizes, including one byte at a time, until end of file) the bytes seen by the parser over the successive calls of a decode! loop, plus those left in the buffer, are exactly the bytes delivered by the reader in order; end of input is only signalled to the parser after the reader returned 0; a failed parse leaves the buffer untouched.", "quantifier": "all read schedules and all parsers", "why_tests_cant": "Schedules are unbounded.", "anchors": ["src/stream/mod.rs: decode!", "src/stream/decoder.rs: Decoder, __before_parse, advance", "src/stream/buf_reader.rs: extend_buf_sync, CombineSyncRead, Buffer, Bufferless, BufReader::read/fill_buf/consume"]}
{"id": "C33", "title": "any_partial_state is transparent", "statement": "Wrapping a parser with any_partial_state (or the Send/Sync versions) changes neither results nor consumption of a parse, including over any sequence of partial calls as long as calls end in success, or in failure with need of more data.", "quantifier": "all parsers, inputs and call histories", "why_tests_cant": "Histories of resumed calls are unbounded.", "anchors": ["src/parser/combinator.rs: AnyPartialStateParser, AnySendPartialStateParser, AnySendSyncPartialStateParser"]}
{"id": "C34", "title": "Line and column positions are exact", "statement": "After consuming any text through position::Stream with SourcePosition, line = 1 + number of newlines consumed and column = 1 + number of characters since the last newline, however the text was consumed (token by token, by range, by take_while) and however often the stream was reset; IndexPositioner counts consumed items.", "quantifier": "all texts, all interleavings of consumption and resets", "why_tests_cant": "Unbounded texts and operation histories.", "anchors": ["src/stream/position.rs: Stream, SourcePosition, IndexPositioner, Positioner, RangePositioner"]}
{"id": "C35", "title": "Token-wise and range-wise consumption agree on positions", "statement": "Consuming a prefix by uncons, uncons_range, uncons_while or uncons_while1 leads to the same position and rest. True for SourcePosition and for slices with IndexPositioner; false for IndexPositioner over &str, where ranges count bytes and tokens count characters.", "quantifier": "all inputs and prefixes", "why_tests_cant": "Needs non-ASCII data in the right places.", "anchors": ["src/stream/position.rs: RangePositioner for IndexPositioner, Stream::uncons_range, uncons_while"]}
{"id": "C36", "title": "buffered::Stream replays exactly the last tokens", "statement": "A buffered stream over a non-resettable source with look-ahead k behaves, for every sequence of uncons / checkpoint / reset / position calls, like a stream that can be reset to any of the last k tokens: replayed tokens and positions are the ones first seen, resetting further back than the buffer fails with 'Backtracked to far', and the source is read exactly once per token.", "quantifier": "all call histories, all sources, all look-ahead sizes k>0", "why_tests_cant": "Histories of calls are unbounded.", "anchors": ["src/stream/buffered.rs: Stream::uncons, reset, checkpoint, position"]}
{"id": "C37", "title": "&str streams never split a character", "statement": "On a &str stream uncons, uncons_range, uncons_while and uncons_while1 always split at a character boundary of the UTF-8 text: a size inside a character is refused with an error and nothing is consumed, an accepted size gives two valid strings whose concatenation is the original, and uncons_while's manual eight-fold unrolled loop returns exactly the longest prefix of characters satisfying the predicate.", "quantifier": "all valid UTF-8 strings, sizes and predicates", "why_tests_cant": "Unbounded strings; every alignment of multi-byte characters against the unrolled loop.", "anchors": ["src/stream/mod.rs: str_uncons_while, is_char_boundary, &str RangeStreamOnce"]}
{"id": "C38", "title": "The unrolled slice scanning loop equals the obvious loop", "statement": "slice_uncons_while / slice_uncons_while_ref (eight-way unrolled with unchecked indexing) return exactly the longest prefix satisfying the predicate, call it on no index outside the slice, and leave exactly the rest, for both start modes.", "quantifier": "all slices and predicates", "why_tests_cant": "Every length modulo 8 and failure index in combination, for unbounded lengths; memory safety of get_unchecked.", "anchors": ["src/stream/mod.rs: slice_uncons_while, slice_uncons_while_ref, UnconsStart"]}
{"id": "C39", "title": "Merging easy errors keeps the furthest position and the union of what is known", "statement": "easy::Errors::merge keeps only the information of the furthest position, and for equal positions the union without duplicates in order of first appearance; it is associative and idempotent (for errors without opaque 'Other' entries), and add_error never stores an equal error twice.", "quantifier": "all error values", "why_tests_cant": "Algebraic laws over unbounded lists.", "anchors": ["src/stream/easy.rs: Errors::merge, add_error, Error::eq, Info::eq"]}
{"id": "C40", "title": "expected / message / silent / unexpected rewrite error reports as documented", "statement": "expected(msg) replaces what the wrapped parser would report as expected at its failure position by msg alone and keeps earlier entries; silent removes its expected entries; message adds its text; unexpected fails without committing with the given info. None of them changes success, value, consumption or commitment.", "quantifier": "all parsers, messages, inputs and pre-existing errors", "why_tests_cant": "Arbitrary nested parsers and pre-existing error lists.", "anchors": ["src/parser/error.rs: Expected, Silent, Message, Unexpected", "src/stream/easy.rs: Errors::set_expected, clear_expected"]}
{"id": "C41", "title": "A failed choice of tokens reports every expected alternative", "statement": "easy_parse of choice(token(t1),...,token(tn)) on input starting with none of them yields an error at the start position containing exactly: the unexpected token (or end of input) and 'expected ti' for every i in order without duplicates. For any alternatives that fail in their first part, the report is the merged errors, the found token and the expectations of all alternatives in order. Refuted in general: next to an alternative that is a sequence failing in its second part, single-token alternatives are left out.", "quantifier": "any number of alternatives and any tokens, any non-matching input", "why_tests_cant": "Number of alternatives is unbounded.", "anchors": ["src/parser/choice.rs: do_choice!, add_error_choice, Choice::add_error", "src/parser/mod.rs: parse_stream", "src/parser/token.rs: Token::add_error"]}
{"id": "C42", "title": "A failed sequence reports what the failing element expected at the failure position", "statement": "For (token(t1),...,token(tn)) failing at element k>1 the error is at the position of the k-th token, names that token (or end of input) as unexpected and tk as the only expected token. For any plain parts, the parts from the last commitment to the failing one are reported; if the failing part is itself a sequence, its parts up to the failing one. Refuted: the report does not depend on nesting (a nested sequence passed without commitment makes the failing part disappear, or a later part appear).", "quantifier": "sequences of any length, all inputs", "why_tests_cant": "Length and failure index are unbounded.", "anchors": ["src/parser/sequence.rs: add_errors, add_sequence_error"]}
{"id": "C43", "title": "Converting errors between representations preserves kind and position", "statement": "into_other keeps end-of-input as end-of-input and unexpected/expected entries as such for all error types. (False for message entries of easy::Error, which are turned into expected entries, and easy::Errors keeps only its last entry.)", "quantifier": "all error values", "why_tests_cant": "Conversion table has many cases, tests cover one.", "anchors": ["src/stream/easy.rs: StreamError::into_other, ParseError::into_other", "src/error.rs: UnexpectedParse::into_other, StringStreamError::into_other"]}
{"id": "C44", "title": "The minimal error types remember end-of-input and are otherwise forgetful", "statement": "For UnexpectedParse and StringStreamError, adding further errors never turns an end-of-input error into another one; an error is end-of-input iff it was created as such or an end-of-input was added to it; setting the expectation replaces it.", "quantifier": "all sequences of error operations", "why_tests_cant": "Sequences of operations are unbounded.", "anchors": ["src/error.rs: UnexpectedParse, StringStreamError (ParseError impls)"]}
{"id": "C45", "title": "escaped accepts alternating runs of plain text and escapes", "statement": "escaped(p, c, q) repeatedly runs p, and when p does not match requires c followed by q; it stops at the first place where neither p nor c matches, and fails committed when c is not followed by q.", "quantifier": "all parsers and inputs", "why_tests_cant": "Loop length is unbounded.", "anchors": ["src/parser/repeat.rs: Escaped"]}
{"id": "C46", "title": "Reading errors are not mistaken for the end of the data", "statement": "If the underlying reader fails in the middle of the data the parse does not succeed as if the data had ended there. (False: a read error is a backtrackable failure, so many(any()) returns Ok with the tokens read so far.)", "quantifier": "all read schedules with failures", "why_tests_cant": "Fault injection at every read.", "anchors": ["src/stream/read.rs: Stream::uncons", "src/stream/mod.rs: wrap_stream_error", "src/parser/repeat.rs: Iter::next"]}
{"id": "C47", "title": "length_prefix consumes the announced number of items", "statement": "length_prefix(p) parses a length with p and then returns exactly that many following elements, failing (committed if the length was) when fewer are available or the length is not convertible.", "quantifier": "all length parsers, lengths and inputs", "why_tests_cant": "Lengths are unbounded.", "anchors": ["src/parser/range.rs: length_prefix"]}
{"id": "C48", "title": "spanned reports the span of the failing parser", "statement": "spanned(p) changes nothing on success; on failure with a point position it sets the error's span to from where p started to where the input is; an already attached (inner) span is kept.", "quantifier": "all parsers and inputs", "why_tests_cant": "Arbitrary nesting.", "anchors": ["src/parser/combinator.rs: Spanned", "src/stream/span.rs"]}
{"id": "C49", "title": "A sequence of parsers with state cannot reach the unchecked unwrap with a missing value", "statement": "In a tuple parser every component value is present when the final 'unwrap_unchecked' style access happens, for every state the parser can be called with and every mode.", "quantifier": "all arities, parsers, states, modes and inputs", "why_tests_cant": "Undefined behaviour can not be observed reliably by tests; the state space is unbounded.", "anchors": ["src/parser/sequence.rs: SequenceState::unwrap_value, tuple_parser!"]}
{"id": "C50", "title": "Whatever the grammar, no input makes the stream layer read out of bounds or panic", "statement": "uncons, uncons_range, uncons_while(1), reset and position on slices, strings, buffered and position streams never panic on any call sequence.", "quantifier": "all call histories and inputs", "why_tests_cant": "Panic freedom over unbounded histories.", "anchors": ["src/stream/mod.rs", "src/stream/buffered.rs", "src/stream/position.rs"]}
{"id": "C51", "title": "BufReader neither loses, duplicates nor reorders bytes", "statement": "For every history of read, fill_buf, consume and buffer-extending calls on a BufReader, over any inner reader (short reads, failing reads), the bytes handed to the caller followed by the buffer are the initial buffer followed by the bytes the inner reader delivered, in order; read returns 0 for a non-empty destination only if the buffer was empty and the inner reader returned 0.", "quantifier": "all call histories, all inner readers, all buffer contents", "why_tests_cant": "Unbounded interleavings of calls and short reads.", "anchors": ["src/stream/buf_reader.rs: BufReader, extend_buf_sync, Bufferless"]}
{"id": "C52", "title": "Well-formed parsers always return", "statement": "A parser built from the library in which everything repeated consumes input (many, many1, sep_by, chains, repeat_until, escaped, ...), with min <= max in count_min_max and no many1/then inside attempt or not_followed_by in debug builds, returns on every input: no panic, no unreachable_unchecked, no endless loop, also when it is used again with the state an earlier use left; and the parsers classified as consuming do consume when they succeed. The side conditions are necessary.", "quantifier": "all parsers of an inductively defined class closed under the combinators, all inputs (complete or partial), all left-over states", "why_tests_cant": "Quantifies over all parser expressions; a hang or a debug_assert panic needs a particular nesting and input to show up.", "anchors": ["src/parser/repeat.rs", "src/parser/sequence.rs: then, tuples", "src/parser/choice.rs", "src/parser/combinator.rs"]}
{"id": "C53", "title": "Guarded recursive grammars terminate", "statement": "A grammar that calls itself through a function (parser(f)) or through the parser! macro returns on every input if each recursive use comes after something has been consumed: the call stack is never deeper than the number of tokens left plus one. Left recursion never returns.", "quantifier": "all guarded grammar bodies, all inputs, all stack depths", "why_tests_cant": "Recursion depth grows with the input; tests see a few nestings.", "anchors": ["src/parser/function.rs: FnParser", "src/lib.rs: parser! macro, tests::expr, tests::term"]}
{"id": "C54", "title": "Stream wrappers are transparent", "statement": "For every program over the stream traits (any sequence of uncons, checkpoint, reset, uncons_range, uncons_while, distance, position, is_partial whose continuation depends on the answers): easy::Stream and span::Stream only convert errors and positions; PartialStream, CompleteStream and MaybePartialStream only answer is_partial; state::Stream ignores and preserves the user state; position::Stream can not be noticed by a program that does not ask for positions; the order of position and easy or partial wrappers does not matter.", "quantifier": "all programs over the stream interface, all stacks of wrappers over slices and strings, all positioners, all states", "why_tests_cant": "Quantifies over all clients and all nestings of wrappers.", "anchors": ["src/stream/easy.rs: Stream", "src/stream/span.rs", "src/stream/state.rs", "src/stream/mod.rs: PartialStream, CompleteStream, MaybePartialStream", "src/stream/position.rs: Stream"]}
{"id": "C55", "title": "Pointer positions count what was consumed", "statement": "Whatever is done with a stream over a slice or string, its position and every checkpoint is the base address plus the size of what was consumed; translate_position gives the consumed bytes; distance to an earlier checkpoint is the number of elements (bytes for strings) in between. For elements larger than a byte translate_position is not an index, for zero-sized ones positions never move.", "quantifier": "all programs over the stream interface, all slices, strings and element sizes", "why_tests_cant": "Arbitrary interleavings of consumption and backtracking; tests use one-byte elements.", "anchors": ["src/stream/mod.rs: PointerOffset, translate_position, slice and str instances"]}
{"id": "C56", "title": "Error reports say everything that is known, in the documented form", "statement": "The displayed text of an error is: position line, one line per unexpected item, one line enumerating what was expected as English list, one line per message; every error is on a line; map_position, map_token and map_range are functorial and commute with displaying; the text after a failed choice of tokens is determined.", "quantifier": "all errors, all display functions, all mapping functions", "why_tests_cant": "Unbounded number of error items.", "anchors": ["src/stream/easy.rs: Error::fmt_errors, Display, map_token, map_range, map_position"]}
{"id": "C57", "title": "Regex parsers consume up to the end of the match", "statement": "For any regex engine answering with ordered non-overlapping parts of the haystack: find, find_many, captures and captures_many return the first (all) matches or groups that took part, consume up to the end of the last match used, commit exactly when that is not empty; find and captures fail without committing when there is no match, the many-versions never fail; match_ consumes nothing. On partial input the parsers do not wait for more data.", "quantifier": "all engines meeting the specification, all inputs", "why_tests_cant": "The engine is a parameter.", "anchors": ["src/parser/regex.rs"]}
{"id": "C58", "title": "A grammar written with the combinators means what its operational semantics says", "statement": "For every grammar (named mutually recursive rules over satisfy, value, pairs, or, many, attempt, not_followed_by, look_ahead), with rules as functions or as parser! macros: on complete input the parser succeeds with a tree leaving l, or fails, and commits, exactly as a big-step semantics on token lists says, given enough call stack; the result does not depend on the stack depth or on how rules are called.", "quantifier": "all grammars, all inputs, all stack depths", "why_tests_cant": "Quantifies over all grammars; tests fix a few.", "anchors": ["src/parser/combinator.rs", "src/parser/choice.rs", "src/parser/repeat.rs", "src/parser/sequence.rs", "src/parser/function.rs", "src/lib.rs: parser!"]}
{"id": "C59", "title": "With attempt in the right places a grammar is a parsing expression grammar", "statement": "If every alternative but the last and everything repeated can only fail without committing (under attempt, or a single token), the parser computes the parsing expression grammar (Ford) of the same shape; without attempt it need not.", "quantifier": "all grammars meeting the syntactic condition, all inputs", "why_tests_cant": "Quantifies over all grammars and inputs.", "anchors": ["src/parser/combinator.rs: attempt", "src/parser/choice.rs", "src/lib.rs: documentation on LL(1) and attempt"]}
{"id": "C60", "title": "LL(1) grammars need no attempt", "statement": "For every grammar meeting the LL(1) conditions (first/follow sets apart, no left recursion) the parser followed by eof accepts exactly the words the context free grammar derives, with the derivation tree, and always returns; it commits exactly if the word is not empty; such grammars are unambiguous. Any grammar only accepts words it derives. Grammars that are not LL(1) can lose words without attempt.", "quantifier": "all LL(1) grammars, all inputs", "why_tests_cant": "The documentation claims the library is LL(1) by default; no finite set of grammars shows it.", "anchors": ["src/lib.rs: documentation on LL(1) parsing", "src/parser/choice.rs", "src/parser/repeat.rs"]}
{"id": "C61", "title": "Grammars without left recursion always give a result", "statement": "If no rule calls itself before consuming and nothing nullable is repeated, every expression of the grammar has exactly one result on every input and the parser returns it; so the corresponding parsing expression grammar is total. A left recursive rule has no result.", "quantifier": "all well-founded grammars, all inputs", "why_tests_cant": "Termination for all grammars and inputs.", "anchors": ["src/parser/repeat.rs", "src/parser/function.rs", "src/lib.rs: parser!"]}
{"id": "C62", "title": "The language server decoder of examples/async.rs gives back the messages, however the bytes arrive", "statement": "For any text of framed messages (blank lines, Content-Length header, empty line, message) cut into chunks anywhere: the decoder hands out exactly the messages sent, in order, never fails on such a text, and asks for more input only if the next message is not in the buffer in full. On bytes that are no such text and not UTF-8 it panics instead of returning the parse error.", "quantifier": "all message lists, all ways of cutting the bytes, all sequences of decode calls", "why_tests_cant": "The number of ways to cut a byte stream is unbounded; the example program tries one.", "anchors": ["examples/async.rs: decode_parser, LanguageServerDecoder::decode", "src/stream/decoder.rs", "src/parser/range.rs", "src/parser/sequence.rs: then_partial", "src/parser/combinator.rs: any_partial_state"]}
{"id": "C63", "title": "The JSON parser of benches/json.rs reads exactly the texts of its grammar", "statement": "For every input: the parser succeeds with value v after reading w exactly if w is a value text (independent grammar of texts: strings with the eight escapes, numbers with their i64/f64 arithmetic, arrays, objects, words, white space after each lexeme) with value v; it fails without reading exactly if the text does not begin like a value; it always returns. Every RFC 8259 text without backslash-u escapes and + exponents is read to the end with its value. In exact arithmetic a number has the value written, except that the sign is lost when the integer part is zero (-0.5 is read as 0.5); it also reads texts that are no JSON (0123, 1 5).", "quantifier": "all inputs of any length and nesting, all floating point operations", "why_tests_cant": "The language is infinite and nested; json_test tries one document.", "anchors": ["benches/json.rs: json_value, object, json_string, json_char, number, integer, lex", "src/parser/char.rs", "src/parser/choice.rs", "src/parser/repeat.rs: sep_by", "src/parser/sequence.rs: between", "src/lib.rs: parser!"]}
{"id": "C64", "title": "The date parser of examples/date.rs reads exactly the date texts; where its unwrap panics", "statement": "For every input: date_time succeeds with value v after reading w exactly if w is year digits, two digit month and day, T, hour, minute, second, and a zone (Z or signed hours with optional minutes; without minutes neither digit nor colon may follow), with the values of the digits; it fails without reading exactly if the text begins with neither digit nor minus. It panics exactly if the text begins with a date whose year has no digits or is 2^31 or more, although the comment says the unwrap is safe; otherwise it returns.", "quantifier": "all inputs of any length", "why_tests_cant": "The years are unbounded digit strings; the example's test has two dates, and the panic needs an input without year or with a huge one.", "anchors": ["examples/date.rs: two_digits, time_zone, date, time, date_time", "src/parser/choice.rs: choice on slices, or", "src/parser/sequence.rs", "src/parser/combinator.rs: map, optional"]}
{"id": "C65", "title": "The INI parser of examples/ini.rs reads exactly the INI texts of its grammar; files written from values are read back", "statement": "For every input: ini succeeds with entries v after reading w exactly if w is white space and comments, properties (key, =, longest value, each followed by white space and comments), and sections (bracketed name, white space and comments, properties), with those entries in that order. It always returns. A file written from keys, values and names without the special characters is read to the end with the same entries. It stops before the end of the text only at an = sign, without reporting the rest.", "quantifier": "all inputs of any length, all writable entries", "why_tests_cant": "Infinitely many texts; the example has one valid file and one error.", "anchors": ["examples/ini.rs: property, whitespace, properties, section, ini", "src/parser/repeat.rs: many, many1, skip_many, skip_many1", "src/parser/error.rs: message", "src/parser/sequence.rs: between, skip"]}
{"id": "C66", "title": "The HTTP parser of benches/http.rs reads exactly the request texts of its grammar", "statement": "For every input: parse_http_request succeeds with value v after reading w exactly if w is a request text (method, spaces, target, spaces, HTTP/ and version, line end, header fields with one or more value lines, line end), each part the longest run of its characters, with value v; it fails without reading exactly if there is no method. It always returns. The benchmark's loop ends exactly on series of requests and panics on all other buffers. No request is the beginning of another, or readable in two ways. Every RFC 9112 request whose fields have a blank after the colon and a value is read, with the blanks after the value as part of it; fields without blank or value are refused although the standard allows them; read in pieces, such a request can be accepted with the field dropped.", "quantifier": "all inputs of any length, all series of requests", "why_tests_cant": "Infinitely many texts; the benchmark has one file of well-formed requests.", "anchors": ["benches/http.rs: is_token, end_of_line, message_header, parse_http_request, http_requests_bench", "src/lib.rs: struct_parser!", "src/parser/range.rs: range, take_while1", "src/parser/repeat.rs: many, many1", "src/parser/sequence.rs: tuples, with"]}
{"id": "C67", "title": "The MP4 parser of benches/mp4.rs: the files it reads, refuses, and panics on", "statement": "For every file: parse_mp4 succeeds with boxes bs exactly if the file is boxes (size of four bytes that counts itself, data whose first bytes decide the kind; file type boxes with UTF-8 brands) followed by fewer than four bytes, which are left unread without report; it fails exactly if boxes are followed by a box that is longer than the rest of the file or is a file type box that is too short or has a brand that is not UTF-8; it panics exactly if boxes are followed by a size below four, with arithmetic checked (otherwise it fails). The boxes are determined by the file. If the data of a box are refused, the error is the one the box parser gives for these data alone, with positions counted from the box.", "quantifier": "all byte sequences of any length, all UTF-8 validation functions", "why_tests_cant": "Infinitely many files; the benchmarks use two well-formed videos, no small sizes.", "anchors": ["benches/mp4.rs: parse_mp4", "src/parser/byte.rs: num::be_u32", "src/parser/range.rs: take, range", "src/parser/sequence.rs: then", "src/parser/combinator.rs: flat_map, and_then", "src/parser/repeat.rs: many", "src/parser/choice.rs"]}
{"id": "C68", "title": "Asynchronous decoding: neither not-ready polls nor dropped futures nor repeated calls change what is decoded", "statement": "A future of decode_futures_03! or decode_tokio! polled to its end is a decode! session over the data that came out of the reader, however often a poll found it not ready. If futures are dropped while they wait and the macro is called again, or it is called again after an I/O error (also decode!), nothing is lost, duplicated or reordered, and for the parsers of C29's class the message is the one parse reads from the whole data, the rest being in the buffer. No poll panics, every poll ends. poll_read, poll_fill_buf and consume of BufReader lose nothing whatever polls find it not ready or fail.", "quantifier": "all parsers of the library (C29's class for the answer), all readers, all interleavings of polls, drops and retries of any length, all histories of polls of a BufReader", "why_tests_cant": "The interleavings of polls, not-ready answers, errors and cancellations are unbounded; the tests use readers that are always ready.", "anchors": ["src/stream/mod.rs: decode_futures_03!, decode_tokio_02!, decode_tokio_03!, decode_tokio!, decode!", "src/stream/decoder.rs: __before_parse_async, __before_parse_tokio", "src/stream/buf_reader.rs: poll_extend_buf, ExtendBuf, tokio_read_buf, poll_read, poll_fill_buf, consume"]}
{"id": "C69", "title": "dispatch! behaves as the selected branch, fresh or resumed, whatever state another branch left", "statement": "For every match and every branch: the parser made by dispatch! does on every input what the selected branch does; resumed with the state it stored it continues that branch with its own state; a state stored when another branch was selected, or none, is replaced by the branch's default. It keeps the branch's properties (forward, free of history, honest about commitment, total, chunkable), and then with dispatch! is the first parser followed by the branch its value selects. In a sequence it does not report what else the branch could have accepted, although the branch alone does.", "quantifier": "all numbers and types of branches, all selections, inputs and stored states", "why_tests_cant": "The stored state is that of any branch left by any earlier run; the documentation's example parses four short texts from the start.", "anchors": ["src/parser/choice.rs: dispatch!, dispatch_parser_impl!, dispatch_inner!", "src/parser/sequence.rs: then", "src/parser/mod.rs: parse_mode!"]}
{"id": "C70", "title": "input_converter runs the inner parser on the converted stream; only the converter moves the outer one", "statement": "For every inner parser and converter: success and failure, commitment, value and error of input_converter are those of the inner parser on the converted stream, errors mapped by convert_error, a failed conversion being a backtrackable failure. The outer input is left where the converter left it: with a converter that only looks, a committed success consumes nothing and many over it never ends. Read in pieces with such a converter the parser reads consumed data twice, and with one that takes everything it loses what it had not consumed. What the inner parser expected is not reported.", "quantifier": "all inner parsers, converters, inputs and states", "why_tests_cant": "The converter is any pair of functions; no test of the project uses input_converter.", "anchors": ["src/parser/combinator.rs: InputConverter, Converter, input_converter"]}
{"id": "C71", "title": "What each parser contributes to an error report", "statement": "For every parser of the library over easy errors whose sequences are not directly nested in sequences: parser_count, add_error and add_committed_expected_error are those of an independent table (its named expectations, messages and unexpected items, in which order, and what it could have gone on with after committing). A failed parse reports the error, the token found and that wording, each said once. A committed failed sequence reports the token found, what the last committed part could have gone on with, and the wordings of the parts after it up to the failing one; an uncommitted one the wordings of all its parts up to the failing one; a failed choice the first wording of each alternative. attempt reports the same, except attempt(lazy(p)), which reports nothing.", "quantifier": "all parsers built from the combinators (any nesting of other combinators), all sequences of up to 255 parts, all inputs and earlier errors", "why_tests_cant": "The report depends on an unbounded history of which parts committed; the project's tests compare a handful of error texts.", "anchors": ["src/parser/mod.rs: add_error, add_committed_expected_error, parser_count, parse_committed_mode", "src/parser/sequence.rs: add_errors, add_sequence_error", "src/parser/choice.rs", "src/parser/combinator.rs: Lazy, Attempt", "src/parser/error.rs", "src/parser/repeat.rs", "src/error.rs: Tracked"]}
{"id": "C72", "title": "Iterators driven by hand: next, into_result, iter and partial_iter", "statement": "For every parser: calling next until it gives nothing and then into_result is many, in every mode and from every state. A user who stops earlier has read exactly the elements so far, and into_result tells whether one of them committed. After a backtrackable failure any number of further calls of next give nothing and change neither input nor result; after a committed failure the result is that error - unless next is called again, which can turn it into a success although input was consumed. Elements collected with partial_iter over chunks are those of many on the whole text. The parser number of the documentation panics wherever there is no digit.", "quantifier": "all parsers (history-free ones for single elements, C29's class for chunks), all inputs, modes and states, all numbers of calls, all cuts into chunks", "why_tests_cant": "The user decides how often next is called and where to stop; the one documentation example drains one iterator on three numbers.", "anchors": ["src/parser/repeat.rs: Iter, Iter::new, next, into_result", "src/parser/mod.rs: iter, partial_iter"]}
{"id": "C73", "title": "factory builds the parser for each fresh parse and resumes the one it built", "statement": "For every closure, also one with state or looking at or reading from the input: a fresh parse through factory is the parser the closure builds there, with that parser's expectations in the report; many(factory(f)) reads every item with the parser built where the item starts and ends where the parser built there fails; resumed on the same object the parser first built is used by all calls. After a finished resumable parse the same object reads the next message with the old parser, and an object built anew between two chunks may resume another parser.", "quantifier": "all closures, all parsers, inputs and states, all numbers of items and calls", "why_tests_cant": "The closure is an arbitrary function with arbitrary state; the tests have one closure that ignores its input.", "anchors": ["src/parser/combinator.rs: Factory, Factory::parser, factory", "src/parser/repeat.rs: Many, Iter"]}
{"id": "C74", "title": "Decoding in pieces comes to an end", "statement": "For every parser of the class for which decoding in pieces is proved equal to parsing at once (C29), with everything repeated without limit consuming something: however the text is cut into pieces, after finitely many of them, the end of the input at the latest, the session ends with the value or the failure of parsing all at once, and parsing at once returns. decode! over a reader that carries finitely much data returns at every call, message after message and again after I/O errors; every poll of the asynchronous versions returns, whatever futures were dropped in between, and if the reader is found not ready finitely often polling comes to an end. No panic and no endless loop.", "quantifier": "all parsers of the class, all texts, cuts, readers, buffer growths, histories of messages, polls, cancellations and I/O errors", "why_tests_cant": "Neither the cuts nor the histories nor the nesting are bounded; a test that passes shows that one run ended.", "anchors": ["src/stream/mod.rs: decode!, decode_futures_03!, decode_tokio!, decode", "src/stream/decoder.rs", "src/stream/buf_reader.rs", "src/parser/mod.rs: parse_with_state", "src/parser/repeat.rs", "src/parser/sequence.rs", "src/parser/choice.rs", "src/parser/range.rs", "src/parser/combinator.rs"]}
{"id": "C75", "title": "The error type never changes what is parsed", "statement": "The same parser instantiated with two error types (easy::Errors, easy::Error, UnexpectedParse, StringStreamError or a user's own): on a complete text both succeed with the same value and rest, or both fail, or both panic, whatever method is called, in whatever mode and with whatever state; the state left is the same too. Without attempt this holds on partial streams as well. In the class of C29, with error types that do not forget the end of input, sessions with the two error types and different cuts agree also with attempt. Outside these bounds attempt on a partial stream does tell error types apart: easy::Error forgets the end of input when a message is added.", "quantifier": "all parsers built from the library, all pairs of error types, all inputs, modes, states and cuts", "why_tests_cant": "Error types are arbitrary types with arbitrary methods; a test compares finitely many parsers at the types it names.", "anchors": ["src/error.rs: ParseError, StreamError, UnexpectedParse, StringStreamError", "src/stream/easy.rs: Error, Errors", "src/parser/combinator.rs: attempt", "src/parser/mod.rs"]}
{"id": "C76", "title": "Searching a text that arrives in pieces", "statement": "On byte slices take_until_byte, take_until_byte2, take_until_byte3 and take_until_bytes (any needle, also the empty one), resumed piece after piece from a fresh parser or one that has already read messages: they give exactly the text before the first occurrence in all of the text, as soon as a piece makes the occurrence certain and not before, use up nothing until then, fail at the end of the input exactly if there is no occurrence, and always come to an end. The benchmark buffers.rs counts the bytes before the first '1'; its second and later iterations read nothing. About half of what was searched is searched again with each piece, because the offset is stored relative to the last start. On str the same resumption gives wrong values (refuted).", "quantifier": "all needles, texts, cuts into pieces, earlier messages and ways the session can end", "why_tests_cant": "An occurrence may be cut anywhere by any piece boundary and the stored offset depends on all earlier cuts; the tests use a few fixed partial inputs in ASCII.", "anchors": ["src/parser/range.rs: TakeFn, take_fn, TakeRange", "src/parser/byte.rs: take_until_byte, take_until_byte2, take_until_byte3, take_until_bytes, memslice", "benches/buffers.rs"]}
{"id": "C77", "title": "The small example programs: number.rs and readme.rs", "statement": "examples/number.rs reads exactly the longest decimal text (digits, at least one, then perhaps a point and further digits) at the beginning of the input and gives what the closure makes of it; it fails exactly if no digit comes first or the closure rejects that text, and always returns. The closure, which uses from_utf8_unchecked, is never given anything but such an ASCII text. Fed in pieces, also after earlier numbers, it gives the value for the longest decimal text in the whole of the text. examples/readme.rs reads words separated by single blanks and gives the last word, nothing if there is none; it fails exactly if the words are followed by a blank with no letter after it, and always returns.", "quantifier": "all texts, all closures in place of str::parse::<f64>, all predicates in place of is_alphabetic and is_whitespace that have no character in common, all cuts into pieces", "why_tests_cant": "Each example asserts one input; soundness of an unsafe conversion is a claim about every input.", "anchors": ["examples/number.rs: main", "examples/readme.rs: main", "src/parser/range.rs: recognize", "src/parser/repeat.rs: skip_many, skip_many1, sep_by, many1", "src/parser/choice.rs: optional", "src/parser/combinator.rs: and_then"]}
{"id": "C78", "title": "Lists ended by separators and operator chains read in pieces", "statement": "sep_end_by1 and sep_end_by whose element and separator are whole-or-nothing, and chainl1 whose operand accepts every text, belong to the class for which decoding in pieces equals parsing at once: in whatever pieces the text comes, the list is the first element and one further element per separator, the last separator being optional, and the chain is its operators applied from the left, with what follows left over. Once a list has consumed something in its first call every answer of the resumed parser is committed. With an operand that needs a token chainl1 is not in the class: suspended after an operator it forgets that it owes an operand and accepts what parsing at once rejects.", "quantifier": "all elements, separators, operands and operators of the class, all texts, cuts and numbers of resumptions", "why_tests_cant": "The saved element list, the saved commitment and the saved left operand only matter across calls, at cut points the tests do not enumerate.", "anchors": ["src/parser/repeat.rs: SepEndBy1, SepEndBy, Chainl1, parse_mode", "src/stream/mod.rs: decode!"]}
{"id": "C79", "title": "Laws for rewriting parsers", "statement": "Parsers may be rewritten by the expected laws, inside any other combinators, without changing what is accepted, the value, the rest or the commitment on any complete text: map composes; with, skip, tuples and then associate and have value as unit; alternatives associate, value on the left ends them and unexpected is their unit; optional, many, many1, sep_by, sep_by1, sep_end_by and chainl1 are their unfoldings; between is with and skip; attempt and look_ahead are idempotent; two not_followed_by make a look_ahead of an attempt; expected, message, silent, lazy and the partial-state wrappers do not matter; a common beginning can be taken out of any number of alternatives if all but the last are attempted, and a common end if the first alternative commits when it succeeds. Not laws: exchanging alternatives, taking out a beginning without attempt, taking out an end after a success without commitment or moving attempt into a choice.", "quantifier": "all parsers of the library the laws mention, all nestings of equal parsers in the combinators, all complete texts shorter than the loop bound", "why_tests_cant": "A law relates infinitely many pairs of parsers on infinitely many texts, and refactorings chain laws in any number and at any depth.", "anchors": ["src/parser/sequence.rs", "src/parser/choice.rs", "src/parser/combinator.rs", "src/parser/repeat.rs", "src/parser/error.rs"]}
{"id": "C80", "title": "The decoders of tests/async.rs give the messages back however the data is cut", "statement": "A decoder built like impl_decoder! of tests/async.rs (any_partial_state around a parser, decode! in a tokio Decoder, driven by FramedRead) gives, for a text that is a sequence of messages of its parser, exactly these messages in order and then ends without an error, for every way of cutting the text into reads, empty ones included. This holds for every parser of the class of C74 over a stream whose errors never forget the end of the input, and in particular for the parsers of the tests: numbers and words by lines, decimals by recognize and recognize_with_value, lines by take_while and take_while1, texts ended by '::' with take_until_range, lines by take_fn with a search for the line end, lines by take_until_bytes, underscores counted by skip_count_min_max, and messages that begin with their length ('#' and a number, Content-Length). So do texts ended by commas and texts without colons ended by two colons with take_until. The remaining test, sep_end_by_test, is C83. With UnexpectedParse the claim is false: naming what was expected replaces the end of the input, and the decoder ends with an error where the text just ends (refuted).", "quantifier": "all parsers of the class, all lists of messages, all cuts into reads, all searches that find the first line end", "why_tests_cant": "The quickcheck tests of async.rs try random cuts of a few texts; the claim is about all cuts of all texts.", "anchors": ["tests/async.rs: impl_decoder, run_decoder, basic_parser, choice_parser, take_while, recognize", "src/stream/mod.rs: decode_tokio", "src/parser/combinator.rs: any_partial_state"]}
{"id": "C81", "title": "A decoder of tests/async.rs on any text: no message is made up, none is lost, and what is reported", "statement": "For any text at all, however it is cut into reads, the decoder of C80 gives exactly the values that reading the text message after message gives, up to the place where the parser fails; two cuts that both end without error give the same values; an error that says the input came to an end is never given between two messages; and the decoder comes to an end if every message takes a token. If the parser leaves an unfinished message in the buffer (take, recognize_with_value, ...) the decoder ends without error only if nothing is left of the text. For parsers that keep what they have read in their state that is false: '12' without the line end, or '#3a', is dropped without an error, since decode! at the end of the input looks only at the buffer (refuted). Outside the class, the decoder of sep_end_by_test drops half an element: '123::45' and a line end is an error at once, but gives ['123'] if a read ends behind the 5 (refuted); and that of take_until_committed takes a single colon at the end of a read for two (refuted). The decoder of the test take_until gives, on any text, the parts that a comma ends and drops what follows the last comma.", "quantifier": "all parsers of the class, all texts, all cuts into reads", "why_tests_cant": "The tests only feed well-formed texts; what happens to a truncated last message depends on where the parser had put it, which no test of async.rs looks at.", "anchors": ["src/stream/mod.rs: decode_tokio", "tests/async.rs: impl_decoder, run_decoder, prefix_many_then_parser, content_length", "src/parser/combinator.rs: any_partial_state"]}
{"id": "C82", "title": "Decoders that never see the end of the input (impl_byte_decoder! of tests/async.rs)", "statement": "A decoder that calls combine::stream::decode on a PartialStream also at the end of the input gives, on any text and for every cut into reads, the values of reading the text message after message, maybe not up to the last one; these come first among the values of the decoder of C81. An error of the parser is given only where the parser fails on the whole text for another reason than its end, 'bytes remaining' only if something is left; if the parser leaves unfinished messages in the buffer, no error means nothing is left; and it comes to an end if every message takes a token. num_test gives back all numbers of two bytes for every cut, and on any other text, as for a number of any width followed by a field of any length, less than one message is left over; of the values of two cuts one list begins with the other. That no message is lost is false in general: the last one, if it ends where the text ends (digits '12'), and one cut short after its number are dropped without an error.", "quantifier": "all parsers of the class of C74, all texts, all lists of numbers, all cuts into reads", "why_tests_cant": "num_test feeds whole messages only, with random cuts; no test has a parser that looks ahead at the end of the input or a text cut short.", "anchors": ["tests/async.rs: impl_byte_decoder, run_decoder, num_test", "src/stream/mod.rs: decode, PartialStream", "src/parser/byte.rs: be_u16"]}
{"id": "C83", "title": "The decoder of sep_end_by_test in tests/async.rs gives its lists back however the data is cut", "statement": "The decoder of sep_end_by_test gives, for every text made of lists of elements of three digits, with '::' between the elements and perhaps behind the last, each list ended by a line end, exactly these lists in order and no error, for every way of cutting the text into reads, empty ones included.", "quantifier": "all lists of lists of elements, all cuts into reads (proved: two texts, all cuts of each)", "why_tests_cant": "The test tries random cuts of one text; the claim is about all cuts of all texts.", "anchors": ["tests/async.rs: sep_end_by_test", "src/parser/repeat.rs: SepEndBy, SepEndBy1", "src/parser/combinator.rs: no_partial, any_partial_state"]}
