{"id": "C01", "title": "or is ordered choice on the original input", "statement": "a.or(b): if a succeeds the result is exactly a's output (tagged First) and a's remainder; if a fails with a non-terminating error, b is run on exactly the sequence that was given to a (position restored), and its success is returned tagged Last with b's remainder.", "quantifier": "all rewindable sequences whose rewind restores an anchored position, all inputs, all sub-parsers a, b (however far a moved before failing)", "why_tests_cant": "a test fixes two parsers and a few inputs; the claim is about every pair of parsers and every failure location", "anchors": ["crates/parcom-parsers/src/combinator/or.rs: Or::parse, Or::parse_once", "crates/parcom-core/src/sequence.rs: RewindSequence"]}
{"id": "C02", "title": "or reports exactly which branches failed and whether it is fatal", "statement": "a.or(b) fails with First(e) iff a failed with terminating e (b is then not run); with Last(e) iff a missed and b failed with terminating e; with Both(e0,e1) iff both missed. The resulting error asks for termination iff it is First or Last.", "quantifier": "all sequences, inputs, parsers and error types", "why_tests_cant": "error-classification must hold for every combination of sub-results", "anchors": ["crates/parcom-parsers/src/combinator/or.rs", "crates/parcom-util/src/either_both.rs: should_terminate"]}
{"id": "C03", "title": "optional never misses and restores the position", "statement": "p.optional() succeeds with Ok(v) and p's remainder when p succeeds, succeeds with Err(e) and the sequence exactly as it was before p ran when p fails with non-terminating e, and fails with e only when e is terminating.", "quantifier": "all rewindable sequences, inputs and parsers", "why_tests_cant": "must hold for every parser however much it consumed before missing", "anchors": ["crates/parcom-parsers/src/combinator/optional.rs: Optional::parse, Optional::parse_once"]}
{"id": "C04", "title": "join runs its parsers in sequence", "statement": "a.join(b) succeeds with (x,y) and remainder r iff a succeeds with x leaving m and b succeeds on m with y leaving r; it fails with First(e) iff a fails with e (b not run) and with Last(e) iff a succeeds and b fails with e. Joining is associative up to re-bracketing of outputs.", "quantifier": "all sequences, inputs and parsers", "why_tests_cant": "associativity and sequencing are laws over all parsers", "anchors": ["crates/parcom-parsers/src/combinator/join.rs"]}
{"id": "C05", "title": "mapping combinators touch only what they say", "statement": "map changes only the success value, map_err/unify_err only the error, unify only the success value (injecting either side), and_then only turns a success value into success or failure at the same remainder; as_ref and boxed change nothing. None of them changes the remainder. map(g) after map(f) equals map(g.f).", "quantifier": "all sequences, inputs, parsers and mapping functions", "why_tests_cant": "functor-style laws range over all functions and parsers", "anchors": ["crates/parcom-parsers/src/combinator/map.rs", "crates/parcom-parsers/src/combinator/and_then.rs", "crates/parcom-parsers/src/combinator/unify.rs", "crates/parcom-parsers/src/combinator/reference.rs", "crates/parcom-parsers/src/util.rs"]}
{"id": "C06", "title": "parse_once and parse agree", "statement": "For every combinator, if for each sub-parser consuming it once (parse_once) gives the same result as borrowing it (parse), then so does the combinator; likewise parse_iterative_once and parse_iterative of every iterative adaptor produce the same runs.", "quantifier": "all combinators, all sub-parsers, all inputs", "why_tests_cant": "the two code paths are written separately; agreement must hold on all inputs", "anchors": ["crates/parcom-parsers/src/combinator/*.rs", "crates/parcom-parsers/src/iterative/*.rs", "crates/parcom-parsers/src/util.rs: Boxed"]}
{"id": "C07", "title": "repeat is maximal munch", "statement": "p.repeat() returns the list v1..vn of all consecutive successes of p starting at the input together with the error of the first failing attempt, and leaves the sequence exactly at the start of that failing attempt; it fails iff the attempt that ends the run fails with a terminating error, and then with that error.", "quantifier": "all rewindable sequences, inputs, and parsers; any number of repetitions", "why_tests_cant": "unbounded iteration count and arbitrary item parser", "anchors": ["crates/parcom-parsers/src/combinator/repeat.rs: Repeat::parse"]}
{"id": "C08", "title": "repeat terminates exactly when the item parser makes progress", "statement": "If every success of p strictly consumes input then p.repeat() always returns, after at most (input length)+1 attempts; if p succeeds without consuming at some reached position, p.repeat() never returns.", "quantifier": "all inputs of any length and all item parsers", "why_tests_cant": "non-termination cannot be observed by a test, and the bound is for all lengths", "anchors": ["crates/parcom-parsers/src/combinator/repeat.rs"]}
{"id": "C09", "title": "BinExprParser consumes the longest term (op term)* chain", "statement": "On success the terms and operators of the produced tree, read left to right, are exactly the maximal chain term (op term)* found at the input; the remainder is the position right after the last complete (op term) pair - an operator that is not followed by a term is given back; the returned reason is the non-terminating error that ended the chain. It fails iff the first term fails or a terminating error is met in the chain.", "quantifier": "all rewindable sequences, inputs, term/operator parsers and expression types", "why_tests_cant": "chains of any length and any give-back position", "anchors": ["crates/parcom-parsers/src/combinator/bin_expr.rs: BinExprParser::parse, parse_impl"]}
{"id": "C10", "title": "BinExprParser builds the unique precedence-respecting tree", "statement": "The produced tree is the only binary tree over the chain in which every left child operator binds tighter than its parent (higher precedence, or equal precedence and left-associative) and every right child operator binds tighter (higher precedence, or equal precedence and the parent is right-associative). Precedences below usize::MAX.", "quantifier": "all chains of any length, all precedence/associativity assignments", "why_tests_cant": "the number of operator sequences is unbounded; tests only try an all-right-assoc chain", "anchors": ["crates/parcom-parsers/src/combinator/bin_expr.rs: parse_impl, next_precedence, Operator, Associativity"]}
{"id": "C11", "title": "BinExprParser never hits its unreachable! and never panics by itself", "statement": "BinExprParser::parse never reaches its unreachable!() and never panics when its sub-parsers do not, provided no left-associative operator has precedence usize::MAX.", "quantifier": "all inputs, parsers and operator tables", "why_tests_cant": "absence of panic over all inputs", "anchors": ["crates/parcom-parsers/src/combinator/bin_expr.rs: parse (line 56), next_precedence (line 156)"]}
{"id": "C12", "title": "a precedence of usize::MAX is handled like any other", "statement": "A left-associative operator of precedence usize::MAX groups to the left like any other left-associative operator.", "quantifier": "all operator tables over the full usize range", "why_tests_cant": "boundary of the integer range; tests use precedences 0..2", "anchors": ["crates/parcom-parsers/src/combinator/bin_expr.rs: next_precedence"]}
{"id": "C13", "title": "terminating errors are never swallowed by the parser combinators", "statement": "If running any sub-parser of or, optional, repeat, join, map, and BinExprParser during a parse fails with a terminating error, the whole parse fails with an error that is terminating and that carries that error.", "quantifier": "all inputs, sub-parsers and combinators listed, at any repetition", "why_tests_cant": "must hold at whichever of unboundedly many attempts the fatal error shows up", "anchors": ["crates/parcom-parsers/src/combinator/*.rs", "crates/parcom-util/src/error.rs", "crates/parcom-core/src/parse_error.rs"]}
{"id": "C14", "title": "collect reports terminating errors as failure", "statement": "If the underlying iterative parser fails with a terminating error, p.collect() fails with that error.", "quantifier": "all iterative parsers and inputs", "why_tests_cant": "must hold for an error at any iteration", "anchors": ["crates/parcom-parsers/src/iterative/collect.rs: parse"]}
{"id": "C15", "title": "collect gathers every item in order and stops at the last good position", "statement": "p.collect() returns all items the iterative parser produced, in order, up to its first end or error, the error if any, and the sequence at the position where the last (ending or failing) step started.", "quantifier": "all iterative parsers, inputs, any number of items", "why_tests_cant": "unbounded number of items; arbitrary underlying iterator", "anchors": ["crates/parcom-parsers/src/iterative/collect.rs"]}
{"id": "C16", "title": "fold is the left fold of the items", "statement": "p.fold(init,f) returns f(..f(f(init,v1),v2)..,vn) for the items v1..vn produced up to the end, with the remainder the ending step left; it fails iff a step fails, with that step's error and location.", "quantifier": "all iterative parsers, accumulators and functions", "why_tests_cant": "unbounded number of items", "anchors": ["crates/parcom-parsers/src/iterative/fold.rs"]}
{"id": "C17", "title": "map_each, scan, map_while, try_map_each correspond to the list functions", "statement": "The items produced by map_each(f) are map f of the underlying items with the same end, error and remainder; scan threads its state through the items in order; map_while/try_map_each produce the mapped longest prefix on which f accepts and end right after the first rejected item; try_map_each fails with the mapped terminating error. Chaining map_each composes functions.", "quantifier": "all iterative parsers, functions, inputs; any number of steps", "why_tests_cant": "unbounded number of steps; arbitrary functions", "anchors": ["crates/parcom-parsers/src/iterative/map_each.rs", "crates/parcom-parsers/src/iterative/scan.rs", "crates/parcom-parsers/src/iterative/map_while.rs", "crates/parcom-parsers/src/iterative/try_map_each.rs"]}
{"id": "C18", "title": "take(n) yields the first n items and then leaves the input alone", "statement": "take(n) produces the first n items of the underlying run (or all if fewer), with the same positions, and once n items were produced every later step reports the end and returns its input untouched without running the underlying parser.", "quantifier": "all n, iterative parsers and inputs", "why_tests_cant": "all counts and all call histories", "anchors": ["crates/parcom-parsers/src/iterative/take.rs"]}
{"id": "C19", "title": "fold and collect leave the same remainder", "statement": "For every iterative parser that ends without error, p.fold(..) and p.collect() leave the sequence at the same position.", "quantifier": "all iterative parsers and inputs", "why_tests_cant": "adaptor chains are unbounded; the disagreement only shows with particular adaptors", "anchors": ["crates/parcom-parsers/src/iterative/fold.rs: parse", "crates/parcom-parsers/src/iterative/collect.rs: parse", "crates/parcom-parsers/src/iterative/map_while.rs"]}
{"id": "C20", "title": "optional and repeat as iterative parsers", "statement": "optional used iteratively yields p's value at most once, then reports the end forever leaving inputs untouched; a miss ends at the original position. repeat used iteratively and collected gives the same items and remainder as repeat parsed directly, whenever the latter succeeds.", "quantifier": "all parsers, inputs, call histories", "why_tests_cant": "unbounded histories", "anchors": ["crates/parcom-parsers/src/combinator/optional.rs: IterationState", "crates/parcom-parsers/src/combinator/repeat.rs: IterationState", "crates/parcom-parsers/src/iterative/collect.rs"]}
{"id": "C21", "title": "the location of a failed attempt is unobservable", "statement": "Two parsers that differ only in where they leave the sequence when they fail are interchangeable below or, optional, repeat, join, map and BinExprParser: same outputs, same errors, same success remainders.", "quantifier": "all parsers, inputs and failure locations", "why_tests_cant": "a parametricity-style claim over all failure locations", "anchors": ["crates/parcom-core/src/unknown.rs: UnknownLocation", "crates/parcom-parsers/src/combinator/*.rs"]}
{"id": "C22", "title": "combinators only move forward inside the input", "statement": "If every sub-parser leaves the sequence at a position reachable from its input by advancing (for slices and str: a suffix of the input), so does every combinator, on success and on failure.", "quantifier": "all combinators, parsers, inputs", "why_tests_cant": "closure property over all compositions", "anchors": ["crates/parcom-parsers/src/combinator/*.rs", "crates/parcom-core/src/primitive/slice.rs", "crates/parcom-core/src/primitive/str.rs"]}
{"id": "C23", "title": "any_char and any_item take the next element under any segmentation", "statement": "any_item/any_char succeed with the first element of the remaining content and advance by exactly that element, and miss leaving the input unchanged iff the remaining content is empty - no matter how the content is cut into segments, including empty segments.", "quantifier": "all contents and all segmentations", "why_tests_cant": "the number of segmentations is unbounded; existing tests use single segments", "anchors": ["crates/parcom-parsers/src/primitive/any.rs"]}
{"id": "C24", "title": "the_char and the_item under any segmentation", "statement": "the_item(x)/the_char(c) succeed iff the first element of the remaining content equals x, then advance past exactly that element; otherwise they miss leaving the input unchanged - for every segmentation.", "quantifier": "all contents, segmentations and expected elements", "why_tests_cant": "unbounded segmentations", "anchors": ["crates/parcom-parsers/src/primitive/the.rs"]}
{"id": "C25", "title": "atom decides prefix match under any segmentation", "statement": "On sequences of items, atom(pat) succeeds iff pat is a prefix of the remaining content, for every segmentation (an empty pattern additionally needs at least one segment).", "quantifier": "all contents, patterns, segmentations", "why_tests_cant": "unbounded segmentations", "anchors": ["crates/parcom-parsers/src/primitive/atom.rs: Atom::parse"]}
{"id": "C26", "title": "atom consumes exactly the pattern", "statement": "When atom(pat) succeeds, the remainder is the input content without its prefix pat, for every segmentation.", "quantifier": "all contents, patterns, segmentations", "why_tests_cant": "only visible when a match spans segments", "anchors": ["crates/parcom-parsers/src/primitive/atom.rs: line 46"]}
{"id": "C27", "title": "atom on str never panics", "statement": "atom(pat) on a &str either succeeds (pat is a prefix) or misses; it never panics.", "quantifier": "all strings and patterns", "why_tests_cant": "needs every combination of multi-byte characters", "anchors": ["crates/parcom-parsers/src/primitive/atom.rs: lines 42, 52", "crates/parcom-core/src/primitive/str.rs: split_at"]}
{"id": "C28", "title": "slice sequences: advance drops a prefix, rewind restores", "statement": "For &[T] (T not zero-sized): advancing by n within the length drops exactly n items, advancing beyond the length panics; advancing by n then m equals advancing by n+m; rewinding to an anchor taken earlier restores the anchored slice after any in-range advances; rewinding to an anchor taken later than the current position panics.", "quantifier": "all slices, counts and histories of advances", "why_tests_cant": "unbounded histories", "anchors": ["crates/parcom-core/src/primitive/slice.rs: advance, anchor, rewind"]}
{"id": "C29", "title": "str sequences: advance saturates", "statement": "For &str: advancing by n bytes to a character boundary drops exactly those bytes; advancing past the end gives the empty string; the remainder is always valid text of the original; advance composes additively at boundaries.", "quantifier": "all strings, all byte counts", "why_tests_cant": "all multi-byte mixes", "anchors": ["crates/parcom-core/src/primitive/str.rs: advance", "crates/parcom-core/src/primitive.rs: BytesDelta"]}
{"id": "C30", "title": "rewind on str restores the anchored position after any advances", "statement": "After any series of advances, rewinding a &str sequence to an anchor taken at its start gives back the anchored string.", "quantifier": "all strings and all histories of advances, including past the end", "why_tests_cant": "needs histories that run past the end", "anchors": ["crates/parcom-core/src/primitive/str.rs: advance, rewind"]}
{"id": "C31", "title": "a measured sequence behaves like the plain one and its metrics describe exactly the consumed text", "statement": "into_measured: segments and in-range advance agree with the plain sequence; after any history of in-range advances the meter equals the initial meter advanced over exactly the consumed prefix; rewinding to an anchor restores both text position and metrics.", "quantifier": "all texts, meters whose advance is compositional, and histories of advance/anchor/rewind", "why_tests_cant": "unbounded histories", "anchors": ["crates/parcom-core/src/primitive/slice.rs: Measured", "crates/parcom-core/src/primitive/str.rs: Measured", "crates/parcom-core/src/sequence/measured.rs"]}
{"id": "C32", "title": "a measured str handles every advance the plain str handles", "statement": "Measured &str gives the same remainder as plain &str for every byte count.", "quantifier": "all strings and byte counts, also inside a multi-byte character", "why_tests_cant": "corner counts", "anchors": ["crates/parcom-core/src/primitive/str.rs: Measured::advance line 101"]}
{"id": "C33", "title": "LineColumn metering does not depend on how text is cut", "statement": "Advancing the LineColumn meter over a text in any number of pieces gives the same result as advancing over it at once, for LF, CR and CRLF; the total count is the number of characters.", "quantifier": "all texts, all cuts, all end-of-line conventions", "why_tests_cant": "number of cuts is unbounded; a line terminator may be cut in the middle", "anchors": ["crates/parcom-metrics/src/line_colmn.rs: advance", "crates/parcom-metrics/src/end_of_line.rs"]}
{"id": "C34", "title": "LineColumn with LF or CR counts lines and columns", "statement": "Starting from the default meter, after a text the line is the number of lines (a line includes its terminator) and the column is the length of the last line, (0,0) for the empty text.", "quantifier": "all texts", "why_tests_cant": "all texts", "anchors": ["crates/parcom-metrics/src/line_colmn.rs", "crates/parcom-metrics/src/end_of_line.rs: LF, CR"]}
{"id": "C35", "title": "LineColumn with CRLF counts lines and columns", "statement": "The same with lines terminated by the two characters CR LF.", "quantifier": "all texts", "why_tests_cant": "needs CR CR LF sequences", "anchors": ["crates/parcom-metrics/src/end_of_line.rs: CRLF"]}
{"id": "C36", "title": "LineColumn comparison agrees with equality and with text order", "statement": "Along one text, metrics taken later compare greater, and two metrics compare equal iff they are ==; comparison is a total preorder.", "quantifier": "all texts and pairs of positions; for arbitrary LineColumn values, Ord and Eq agree", "why_tests_cant": "all pairs", "anchors": ["crates/parcom-metrics/src/line_colmn.rs: Ord, PartialEq"]}
{"id": "C37", "title": "a meter can be resumed from its metrics", "statement": "LineColumnMeter::new(m) with m the metrics after text a, advanced over text b, gives the metrics after a followed by b.", "quantifier": "all texts a, b", "why_tests_cant": "all splits", "anchors": ["crates/parcom-metrics/src/line_colmn.rs: LineColumnMeter::new"]}
{"id": "C38", "title": "ShortVec behaves as a stack", "statement": "Any sequence of push, pop, reserve, reserve_exact, as_slice and is_empty on a ShortVec gives the results a plain growable stack gives, across the stack-to-heap transition, for every inline size N (also 0), and never performs an invalid memory access, for element types of non-zero size.", "quantifier": "all N, all operation sequences of any length, all capacities", "why_tests_cant": "unbounded operation histories around spills", "anchors": ["crates/parcom-internals/src/shortvec.rs"]}
{"id": "C39", "title": "ShortVec frees everything exactly once", "statement": "After drop, every pushed value has been either popped or dropped exactly once and every heap block allocated was freed exactly once with the layout it was allocated with.", "quantifier": "all operation sequences", "why_tests_cant": "leaks and double frees over all histories", "anchors": ["crates/parcom-internals/src/shortvec.rs: Drop, reserve_exact"]}
{"id": "C40", "title": "ShortVec only spills when it must", "statement": "A ShortVec created empty performs no heap allocation as long as its length and requested capacities stay at most N; capacity never shrinks, is at least N, and pushing n values performs at most logarithmically many (re)allocations.", "quantifier": "all N and operation sequences", "why_tests_cant": "all histories", "anchors": ["crates/parcom-internals/src/shortvec.rs: reserve, with_capacity"]}
{"id": "C41", "title": "ShortVec is safe for every element type", "statement": "Pushing more than N values is memory-safe for every element type, including zero-sized ones.", "quantifier": "all element sizes including 0", "why_tests_cant": "undefined behaviour is not observable by tests", "anchors": ["crates/parcom-internals/src/shortvec.rs: reserve_exact line 143, with_capacity line 36"]}
{"id": "C42", "title": "Notify: a wait completes iff a send happened since", "statement": "Polling a Wait returns ready iff at least one send has begun since the wait was created (fewer than 2^64 sends in between), in every interleaving of concurrent sends, waits and polls; once ready, it stays ready.", "quantifier": "all interleavings of any number of threads at the granularity of atomic operations and lock operations", "why_tests_cant": "thread schedules cannot be enumerated by tests", "anchors": ["crates/parcom-internals/src/future/notify.rs"]}
{"id": "C43", "title": "Notify: no lost wake-up", "statement": "In every interleaving, when a poll returned pending and a send that began after the wait was created has returned, the waker passed to that poll has been woken after it was registered.", "quantifier": "all interleavings, any number of threads", "why_tests_cant": "lost wake-ups are schedule-dependent", "anchors": ["crates/parcom-internals/src/future/notify.rs: send, Wait::poll"]}
{"id": "C44", "title": "Notify: no deadlock, no slab misuse", "statement": "At most one thread is inside the waker list at any time, removing the just-inserted waker never fails, and in every reachable state with an operation in progress some thread can make a step; every operation in progress can be completed.", "quantifier": "all interleavings", "why_tests_cant": "schedule-dependent", "anchors": ["crates/parcom-internals/src/future/notify.rs"]}
{"id": "C45", "title": "GenericSequenceBuffer refines a flat list", "statement": "segments() enumerates exactly the not-yet-consumed committed items in order; advance(n) drops min(n, available) items and returns the number that could not be dropped; consumed data never comes back; commits made meanwhile only append.", "quantifier": "all histories of commits, advances and iterations", "why_tests_cant": "unbounded interleaved histories", "anchors": ["crates/parcom-sequences/src/generic/buffer.rs", "crates/parcom-sequences/src/generic/loader.rs: commit_to"]}
{"id": "C46", "title": "an exhausted segment iterator resumes", "statement": "After the buffer's segment iterator returned None, a later next() returns exactly the segment committed next; over its life it yields every segment committed after its start exactly once, in order.", "quantifier": "all interleavings of next() and commits", "why_tests_cant": "interleavings", "anchors": ["crates/parcom-sequences/src/generic/buffer.rs: Iter::next"]}
{"id": "C47", "title": "the loader neither reorders nor duplicates what the source wrote", "statement": "After any history of loads and forced commits (with no cancellation), committed items followed by the loader's uncommitted buffer equal the items accepted by the writers, in order; the commit assertion never fires; LoadInfo.commited is the number of items appended by that load, uncommited/buffer_capacity describe the buffer (uncommited <= capacity) and are 0 when done.", "quantifier": "all sources, buffer strategies and load/force_commit histories", "why_tests_cant": "unbounded histories and arbitrary strategies", "anchors": ["crates/parcom-sequences/src/generic/loader.rs", "crates/parcom-sequences/src/generic/control.rs", "crates/parcom-sequence-core/src/load_info.rs"]}
{"id": "C48", "title": "IteratorSource loses no items", "statement": "Loading an IteratorSource through the generic loader until done commits exactly the concatenation of the iterator's chunks.", "quantifier": "all chunk lists and buffer strategies that return at least the requested capacity", "why_tests_cant": "depends on chunk length versus capacity parity", "anchors": ["crates/parcom-sequence-sources/src/iterator_source.rs: next", "crates/parcom-sequences/src/generic/control.rs: Request::capacity", "crates/parcom-sequence-core/src/buffer_writer.rs: push_item"]}
{"id": "C49", "title": "push_item is bounds-checked", "statement": "push_item on the generic writer stores the item or returns it; it never writes outside the buffer.", "quantifier": "all capacities and numbers of pushes", "why_tests_cant": "undefined behaviour is not observable by tests", "anchors": ["crates/parcom-sequence-core/src/buffer_writer.rs: push_item", "crates/parcom-sequences/src/generic/control.rs: Request::capacity"]}
{"id": "C50", "title": "a cancelled write leaves earlier data intact", "statement": "Cancelling a writer undoes that write only: committed and previously buffered items are unchanged.", "quantifier": "all loader states and writes", "why_tests_cant": "only visible when the cancelled write had to grow the buffer", "anchors": ["crates/parcom-sequences/src/generic/control.rs: Request::cancel, request_writer"]}
{"id": "C51", "title": "Utf8Validator only ever passes on valid UTF-8, in order", "statement": "Over any conforming control, everything a Utf8Validator has committed at any time is valid UTF-8 and is a prefix of the bytes the source produced; committed bytes followed by the held-back bytes equal the bytes produced (at most 3 held back), up to the first error.", "quantifier": "all byte sources, all chunkings, valid or not", "why_tests_cant": "all byte strings and all chunk boundaries", "anchors": ["crates/parcom-sequence-sources/src/utf8_validator.rs"]}
{"id": "C52", "title": "Utf8Validator accepts every valid text under every chunking", "statement": "If the source's bytes are the UTF-8 encoding of a text, no validation error is reported and when the source ends exactly those bytes were committed, however they were cut into chunks.", "quantifier": "all texts, all chunkings (also inside a character, also empty chunks)", "why_tests_cant": "tests try one text and two chunks", "anchors": ["crates/parcom-sequence-sources/src/utf8_validator.rs: Writer::advance"]}
{"id": "C53", "title": "Utf8Validator detects invalid bytes soundly and promptly", "statement": "It reports InvalidSequence only if the bytes so far are not a prefix of any valid UTF-8 text, and at the latest when 4 bytes starting at the offending position have been produced.", "quantifier": "all byte streams and chunkings", "why_tests_cant": "all byte strings", "anchors": ["crates/parcom-sequence-sources/src/utf8_validator.rs: Writer::advance lines 196-205"]}
{"id": "C54", "title": "Utf8Validator reports a truncated text at end of input", "statement": "If the source ends with an incomplete or invalid trailing sequence, an error is reported.", "quantifier": "all byte streams", "why_tests_cant": "needs truncated inputs", "anchors": ["crates/parcom-sequence-sources/src/utf8_validator.rs: Control::finish"]}
{"id": "C55", "title": "Utf8Validator works over the generic sequence", "statement": "A Utf8Validator feeding the generic loader does not panic and commits all valid text.", "quantifier": "all chunkings", "why_tests_cant": "depends on held-back byte counts and capacities", "anchors": ["crates/parcom-sequence-sources/src/utf8_validator.rs: Writer::capacity", "crates/parcom-sequences/src/generic/control.rs: Request::capacity"]}
{"id": "C56", "title": "DefaultSegments delivers segments in order, none lost or repeated, also under cancellation", "statement": "In every interleaving with a loader thread, the segments returned by successive next() futures (some possibly dropped before completion) are a prefix of the appended segments, in order.", "quantifier": "all interleavings and cancellation points", "why_tests_cant": "schedules", "anchors": ["crates/parcom-runners/src/default_runner/sequence/segments.rs"]}
{"id": "C57", "title": "DefaultSegments reports the end only after everything was delivered", "statement": "next() returns None only if the loader is done and every appended segment has been returned.", "quantifier": "all interleavings in which the loader appends, then sets done", "why_tests_cant": "race between two checks", "anchors": ["crates/parcom-runners/src/default_runner/sequence/segments.rs: lines 95-101"]}
{"id": "C58", "title": "DefaultSegments never sleeps through an append", "statement": "Whenever a pending next() would stay pending if polled, every append (or done) whose signal was sent has already been seen by it; so it cannot sleep forever while data is available.", "quantifier": "all interleavings", "why_tests_cant": "lost wake-ups are schedule-dependent", "anchors": ["crates/parcom-runners/src/default_runner/sequence/segments.rs", "crates/parcom-internals/src/future/notify.rs"]}
{"id": "C59", "title": "DefaultSequence::advance advances by the requested amount", "statement": "Awaiting sequence.advance(n) yields the sequence advanced by exactly n (or to the end if the source is done first).", "quantifier": "all n and interleavings with the loader", "why_tests_cant": "needs data to arrive between polls", "anchors": ["crates/parcom-runners/src/default_runner/sequence/advance.rs: poll lines 50-64"]}
{"id": "C60", "title": "error classification is a boolean algebra", "statement": "Miss is never terminating, Fatal always; Either takes the verdict of the side it holds; EitherBoth terminates iff one of the errors it holds does; None never terminates, Some(e)/&e as e.", "quantifier": "all nested error types and values", "why_tests_cant": "nesting is unbounded", "anchors": ["crates/parcom-util/src/error.rs", "crates/parcom-util/src/either.rs", "crates/parcom-util/src/either_both.rs", "crates/parcom-core/src/parse_error.rs"]}
{"id": "C61", "title": "parsers built from the combinators have PEG semantics", "statement": "Every parser built from any_item, the_item, atom, join, or, optional, repeat and a fatal-cut marker over a slice computes exactly the (extended) PEG big-step semantics of the corresponding grammar expression: same success/failure/fatal verdict and same remainder.", "quantifier": "all grammar expressions of any size and all inputs", "why_tests_cant": "infinitely many grammars and inputs", "anchors": ["crates/parcom-parsers/src/combinator/*.rs", "crates/parcom-parsers/src/primitive/*.rs", "README.md"]}
{"id": "C62", "title": "the example expression grammar round-trips", "statement": "Printing any expression of the example grammar (integers, + - * /, parentheses where precedence requires them) and parsing the text gives the expression back and consumes exactly the text.", "quantifier": "all expressions of any size and nesting", "why_tests_cant": "infinitely many expressions", "anchors": ["example/src/bin_expr.rs: expr, term, op, integer, space", "crates/parcom-parsers/src/combinator/bin_expr.rs"]}
{"id": "C63", "title": "reactive filter forwards exactly the matching items", "statement": "An observer subscribed through filter(p) receives, in order, exactly the items satisfying p; chained filters receive the items satisfying both.", "quantifier": "all item streams and predicates", "why_tests_cant": "unbounded streams", "anchors": ["crates/parcom-internals/src/reactive/extension/filter.rs"]}
{"id": "C64", "title": "A pending advance future is woken by the next signal and then finishes", "statement": "Once advance(n) has gone pending, a send after its wait() leaves it woken (or about to be woken by the send still running), and polled after such a send it returns Ready.", "quantifier": "all n, starting sequences and interleavings with loaders (fewer than 2^64 sends between wait and poll)", "why_tests_cant": "A lost wake-up is a hang that needs a particular interleaving of fetch_add, registration and wake.", "anchors": ["crates/parcom-runners/src/default_runner/sequence/advance.rs:38-65", "crates/parcom-internals/src/future/notify.rs:24-70"]}
{"id": "C65", "title": "the example's display text can be read back", "statement": "The text printed by the example's display for any expression is accepted whole by its parser, and what is read prints the same text and has the same value.", "quantifier": "all expressions with numbers up to usize::MAX, on any text sequence without empty segments", "why_tests_cant": "infinitely many expressions and ways of cutting the text", "anchors": ["example/src/bin_expr.rs:42-106"]}
{"id": "C66", "title": "the example's parser never panics", "statement": "The expression parser of the example answers Done or Fail on every text, and never panics.", "quantifier": "all texts", "why_tests_cant": "the panicking inputs (a character outside ASCII where a term or ')' is expected, a numeral above usize::MAX) are not among the tested ones", "anchors": ["example/src/bin_expr.rs:57-69, 193-232", "crates/parcom-parsers/src/primitive/atom.rs", "crates/parcom-core/src/primitive/str.rs"]}
{"id": "C67", "title": "how the text is cut does not change what the example reads", "statement": "The same text delivered in different segments gives the same expression and leaves the same rest, or is refused, alike.", "quantifier": "all texts and all pairs of cuts into segments, including empty segments", "why_tests_cant": "exponentially many cuts per text", "anchors": ["example/src/bin_expr.rs:154-232"]}
{"id": "C68", "title": "dropping a load loses nothing", "statement": "Dropping the future of a load before it is done (as select! or a timeout does) keeps the committed items and loses none of the items that were buffered by earlier loads.", "quantifier": "all sources, all growth strategies, all histories of finished and dropped loads and forced commits, and every point at which the load may be dropped", "why_tests_cant": "the loss depends on where the source is suspended and on whether the requested size fits the buffer; a test that polls to completion never sees it", "anchors": ["crates/parcom-sequences/src/generic/loader.rs:29-38, 57-105", "crates/parcom-sequences/src/generic/control.rs:29-121", "crates/parcom-sequence-sources/src/iterator_source.rs:43-63"]}
{"id": "C69", "title": "grammar refactorings keep what is accepted", "statement": "a/(b/c) = (a/b)/c; a(b/c) = ab/ac; p/p = p; p? = p/nothing; p* = p p*/nothing; p* p accepts nothing and p* p* is p*; what (a/b)c accepts, ac/bc accepts with the same value and rest. Equal means: same success value up to re-bracketing, same rest, miss for miss, termination for termination, panic for panic.", "quantifier": "all lawfully rewindable sequences, all parsers that only advance, all inputs", "why_tests_cant": "equivalence of two grammars is a statement about all inputs and all parsers plugged in", "anchors": ["crates/parcom-parsers/src/combinator/or.rs:22-66", "crates/parcom-parsers/src/combinator/join.rs", "crates/parcom-parsers/src/combinator/optional.rs:22-45", "crates/parcom-parsers/src/combinator/repeat.rs:34-59"]}
{"id": "C70", "title": "suspension does not change what a parser returns", "statement": "Polling the future of any combinator, iterative adaptor or bin_expr to the end gives exactly the result the direct style gives on the ends of its parts' futures, however often those were pending; a combinator is pending exactly as often as the parts it runs; and if neither the sequence nor the parts are ever pending (borrowed input) a parse is ready at its first poll.", "quantifier": "all sequences, all parsers, all numbers of pending polls, all inputs", "why_tests_cant": "the interleavings of Pending and Ready are unbounded and a test executor shows only one of them", "anchors": ["crates/parcom-parsers/src/combinator", "crates/parcom-parsers/src/iterative", "crates/parcom-parsers/src/combinator/bin_expr.rs"]}
{"id": "C71", "title": "always_first and always_last cannot panic", "statement": "On a type whose other side is marked ShouldNever (never.rs, either.rs, either_both.rs), Either::always_first/always_last and EitherBoth::always_first/always_last return the value held and never panic; unwrap_first/unwrap_last panic exactly when the other side is held.", "quantifier": "all types that the repository's impls mark, nested in any way; all values", "why_tests_cant": "the marker is implemented for infinitely many types; a test picks a few", "anchors": ["crates/parcom-core/src/never.rs:3-19", "crates/parcom-util/src/either.rs:10-71", "crates/parcom-util/src/either_both.rs:10-34"]}
{"id": "C72", "title": "every waker is woken at most once and the waker list does not leak", "statement": "A waker handed to a Wait is woken at most once, and only if its poll returned Pending; a poll that returned Ready leaves no waker behind; when send returns, every poll that had returned Pending by then has been woken; whenever the list is unlocked it holds exactly one entry for each poll that returned Pending and was not woken since; a Wait never has more than one waker in the list.", "quantifier": "all interleavings of any number of threads calling wait, poll and send any number of times", "why_tests_cant": "leaks and double wakes depend on the interleaving; tests run a handful of schedules", "anchors": ["crates/parcom-internals/src/future/notify.rs:25-31", "crates/parcom-internals/src/future/notify.rs:48-71"]}
{"id": "C73", "title": "texts behave as their UTF-8 bytes", "statement": "On &str and its measured form: lengths count UTF-8 bytes; a position is a boundary iff str::is_char_boundary says so of the bytes; advance(n) leaves bytes[n..] on a boundary and the empty text elsewhere; split_at cuts the bytes on boundaries and panics elsewhere; two texts are equal iff their bytes are; atom succeeds iff the pattern's bytes are a prefix of the bytes, and otherwise misses, or panics when the shorter length is not a boundary of the longer.", "quantifier": "all texts of Unicode scalar values, all byte counts, all patterns", "why_tests_cant": "1.1 million characters of four encoded lengths in all combinations", "anchors": ["crates/parcom-core/src/primitive/str.rs:16-44", "crates/parcom-core/src/primitive/str.rs:94-142", "crates/parcom-parsers/src/primitive/atom.rs:22-80"]}
{"id": "C74", "title": "send returns although wakers run code", "statement": "Notify::send returns for any wakers, including ones whose wake runs further calls on the same Notify or panics; afterwards the Notify is usable.", "quantifier": "all histories of calls on one thread, all registered wakers, all lists of calls run inside wake", "why_tests_cant": "the wakers of the tests only set a flag; what runs inside wake is the executor's choice", "anchors": ["crates/parcom-internals/src/future/notify.rs:25-31", "crates/parcom-internals/src/future/notify.rs:51-70"]}
{"id": "C75", "title": "the Wait stored beside its sequence never dangles", "statement": "In the default runner's Advance future, which keeps a Wait<'static> next to the sequence whose Arc<Notify> it points into: whenever a Wait is alive (stored or local) the future still owns the sequence, so no poll, panic, completion, early drop or release of other handles makes it read or keep a freed Notify; once the sequence was handed back no Wait is left; and, for any order of dropping the fields, the future is safe iff fut is dropped before sequence.", "quantifier": "all interleavings of polls (any answers, any panics), drops, clones and releases of other handles, all numbers of handles; all field orders", "why_tests_cant": "undefined behaviour need not show in a run, and which runs expose it depends on when other handles are released", "anchors": ["crates/parcom-runners/src/default_runner/sequence/advance.rs:9-17", "crates/parcom-runners/src/default_runner/sequence/advance.rs:39-65"]}
{"id": "C76", "title": "repeating a fixed word", "statement": "repeat of map(atom(w)) on a text returns one item per leading copy of w, exactly as many as there are, and leaves the rest; it panics iff the rest cannot be cut at the shorter of the two lengths; an empty word never ends. The repeat example prints exactly the leading copies of \"text\" and the rest, and never reaches its unreachable!().", "quantifier": "all words, mapping functions and texts", "why_tests_cant": "the example runs one ASCII input; the number of copies is unbounded", "anchors": ["example/src/repeat.rs:1-19", "crates/parcom-parsers/src/combinator/repeat.rs:28-60", "crates/parcom-parsers/src/primitive/atom.rs:22-80"]}
{"id": "C77", "title": "the grammar of the cache example", "statement": "The parser of example/src/cache.rs (0, parentheses, spaced + - * /) reads back every written expression and exactly its text, accepts nothing but written expressions and always the longest, refuses exactly the texts that start with none, and panics exactly where a character outside ASCII stands in place of a term or a closing parenthesis; the answer is the same however the text is cut into segments, empty ones included; (^n 0 )^n is read completely for every n; no text writes two expressions.", "quantifier": "all texts, all lawful rewindable sequences and segmentations, all nesting depths, both overflow modes", "why_tests_cant": "the example never awaits the parser, so no test runs it at all; texts and nestings are unbounded", "anchors": ["example/src/cache.rs:29-36", "example/src/cache.rs:81-188", "crates/parcom-parsers/src/combinator/bin_expr.rs:40-155"]}
{"id": "C78", "title": "the example's eval computes the value of the expression written", "statement": "For every expression the example's eval, built with overflow checks, returns the value of the expression in the integers (division rounding down) exactly when every intermediate result exists and is a usize, and panics otherwise; built without them it returns the value with each result reduced modulo usize::MAX + 1 and panics exactly when a divisor comes out as zero, so without division it is the integer value modulo usize::MAX + 1. From text to number: a text that writes an expression gives its value.", "quantifier": "all expressions with numbers up to usize::MAX, every usize::MAX, overflow checks on and off; for the text part every text sequence without empty segments", "why_tests_cant": "The example's test prints one result; overflow, underflow and division by zero depend on every intermediate value of unboundedly many expressions.", "anchors": ["example/src/bin_expr.rs:17-40", "example/src/bin_expr.rs:89-106"]}
{"id": "C79", "title": "primitive parsers on a buffer that is still being filled", "statement": "any_item, the_item and atom, awaited on the default runner's sequence while a loader appends segments and finally says done, in any interleaving and from any point of the buffer's life: a success consumes exactly what the parser matched from the text that was there and was appended, later segments included and nothing lost or duplicated; a miss leaves the buffer and everything in it in place, and happens only if the text really does not match, nothing appended being overlooked; on a source that was done the answer is that of the same parser on the segments given all at once; neither await panics, and once the source is done and has signalled after that, the parser must reach its answer within a number of its own steps linear in the segments, whatever the loader does.", "quantifier": "all interleavings of the parser's polls with the loader, all segments, version widths, starting points, items and patterns", "why_tests_cant": "The repository has no test with a loader running beside a parser; the interleavings and the segments appended are unbounded.", "anchors": ["crates/parcom-parsers/src/primitive/any.rs:69-84", "crates/parcom-parsers/src/primitive/the.rs:62-80", "crates/parcom-parsers/src/primitive/atom.rs:22-80", "crates/parcom-runners/src/default_runner/sequence.rs:15-73", "crates/parcom-runners/src/default_runner/sequence/segments.rs:50-109", "crates/parcom-runners/src/default_runner/sequence/advance.rs:20-66"]}
{"id": "C80", "title": "rewind refuses an anchor of another sequence", "statement": "Rewinding a slice, string or measured sequence to an anchor that is not one of its own (it was not reached from it by advancing) panics with \"the anchor is not an anchor of this stream\"; it never succeeds and never is undefined behaviour, since rewind is a safe method. Its own anchors are accepted.", "quantifier": "all pairs of sequences and anchors over all memory contents", "why_tests_cant": "undefined behaviour is not observable by tests, and which foreign anchors slip through depends on all pairs of views", "anchors": ["crates/parcom-core/src/primitive/slice.rs:33-42", "crates/parcom-core/src/primitive/str.rs:35-44", "crates/parcom-core/src/primitive/slice.rs:117-132", "crates/parcom-core/src/primitive/str.rs:107-122"]}
{"id": "C81", "title": "the provided methods of BufferWriter behave like a bounded Vec", "statement": "For every implementation whose capacity, len, pointer and set_len mean what the trait's comments say, as_slice is exactly what was written, storing over as_mut_slice replaces exactly the items stored over and leaves the length, push_item appends while there is room and hands the item back otherwise, spare_capacity is exactly the room left, shrink_to keeps the first items and panics when asked for more than there are; so any program of such calls runs as on an ideal bounded buffer, without undefined behaviour. The Utf8Validator's writer keeps that meaning over any writer that does.", "quantifier": "all implementations, buffers, items and programs of calls reacting to the replies", "why_tests_cant": "trait-level claim over all implementations; the methods write through raw pointers and undefined behaviour is not observable", "anchors": ["crates/parcom-sequence-core/src/buffer_writer.rs:3-81", "crates/parcom-sequence-sources/src/utf8_validator.rs:163-191"]}
{"id": "C82", "title": "joined parsers on a buffer that is still being filled", "statement": "A parser built from any_item, the_item, atom (with a non-empty pattern) and parsers of the user's own that look through the segments, decide, and advance by no more than they saw or miss (never succeeding on the end alone, passing over empty segments) by join, map, map_err, and_then, unify, unify_err, as_ref, boxed and async functions that go on with whatever parser they pick by the output, running on the runner's sequence while loaders append, answers as it would on everything that was there and has come by then, given at once: same output or error, and the sequence handed back has exactly the rest ahead, cut in the same places. On a source that is done the same holds with parsers of the user's own that may also succeed on hearing the end (taking all there is). No part of it panics, and once the source is done it gets to its answer within a number of its own steps that is known beforehand, whatever loaders do meanwhile.", "quantifier": "all parsers so built, all points of the sequence's life at which it starts, all interleavings with loaders, all widths of the version counter", "why_tests_cant": "unbounded interleavings and segmentations, and every way to nest the combinators", "anchors": ["crates/parcom-parsers/src/combinator/join.rs:43-58", "crates/parcom-parsers/src/combinator/map.rs:35-40", "crates/parcom-parsers/src/combinator/map.rs:77-82", "crates/parcom-parsers/src/combinator/and_then.rs:57-75", "crates/parcom-runners/src/default_runner/sequence.rs:50-78", "crates/parcom-parsers/src/combinator/unify.rs:50-62", "crates/parcom-core/src/parser.rs:9-28"]}
{"id": "C83", "title": "a build without overflow checks loads like one with them", "statement": "Building without overflow checks (the default of a release build) does not change what the loader of the generic sequence does, with or without a Utf8Validator in front of it.", "quantifier": "all sources, their programs of writer calls reacting to the replies, histories of loads, buffer strategies, chunkings and widths of usize", "why_tests_cant": "Tests run with overflow checks and on chosen sizes; that no run differs without them is a claim about all sources and states.", "anchors": ["crates/parcom-sequence-core/src/buffer_writer.rs:34-41", "crates/parcom-sequence-core/src/buffer_writer.rs:50-63", "crates/parcom-sequences/src/generic/control.rs:29-51", "crates/parcom-sequences/src/generic/control.rs:82-88", "crates/parcom-sequence-sources/src/utf8_validator.rs:119-134", "crates/parcom-sequence-sources/src/utf8_validator.rs:173-179"]}
{"id": "C84", "title": "the answer depends on the text only, not on its chunks or on timing", "statement": "A parser built from any_item, the_item, atom and parsers of the user's own that read the items whatever segments they are in by join, map, map_err, and_then, unify, unify_err, as_ref, boxed and async functions that go on with whatever parser they pick by the output, running on the runner's sequence while the generic loader loads the chunks of an IteratorSource, gives the answer that it gives on the concatenation of the chunks and leaves the same items, however the source is cut, however the buffer grows and whenever the loader runs; in particular a parser of the user's own that takes items while they are wanted takes exactly the longest run of wanted items at the front of the text.", "quantifier": "all parsers so built, all lists of chunks, all growth functions of the buffer, all interleavings of the loader with the parser", "why_tests_cant": "The chunkings, growth functions and interleavings are unbounded in number, and the defects show only for particular free-space parities, cuts inside a pattern, and one narrow race.", "anchors": ["crates/parcom-sequence-sources/src/iterator_source.rs:47-63", "crates/parcom-sequences/src/generic/loader.rs:40-105", "crates/parcom-sequences/src/generic/control.rs:23-121", "crates/parcom-runners/src/default_runner/sequence/segments.rs:78-108", "crates/parcom-runners/src/default_runner/sequence/advance.rs:36-66", "crates/parcom-parsers/src/primitive/atom.rs:36-64"]}
{"id": "C85", "title": "once a load reports done nothing more is added", "statement": "After a call of load of the generic loader has returned an info with is_done true, no later load or forced commit adds an item to the sequence, and every later load reports done again.", "quantifier": "all sources, in particular IteratorSource over every Rust iterator, all histories of loads and forced commits before and after", "why_tests_cant": "A test uses a fused iterator such as that of an array; the claim is about every iterator and every later call.", "anchors": ["crates/parcom-sequence-core/src/load_info.rs:43-47", "crates/parcom-sequence-sources/src/iterator_source.rs:47-63", "crates/parcom-sequences/src/generic/loader.rs:57-105"]}
{"id": "C86", "title": "combinators call their parsers exactly as often as they should, in order, at the right positions, and rewind only after a miss", "statement": "or calls the second parser only after the first missed and from where the first started, after one rewind; join calls the second only where the first ended; map, map_err, and_then, unify, references and boxes make one call and never rewind; optional makes one call, repeat one call per value and one more, BinExprParser operators and terms alternately until one fails, each with one rewind, to where it ends; fold, collect and the iterative adaptors one call per item until the run ends, take none once it has its items.", "quantifier": "all parsers with any recorded behaviour, all positions and histories, all lawful rewind sequences", "why_tests_cant": "Parsers may have effects or cost time; an extra or misplaced call does not change the result of the pure parsers that tests use.", "anchors": ["crates/parcom-parsers/src/combinator/or.rs:22-66", "crates/parcom-parsers/src/combinator/join.rs:22-58", "crates/parcom-parsers/src/combinator/optional.rs:22-45", "crates/parcom-parsers/src/combinator/repeat.rs:34-59", "crates/parcom-parsers/src/combinator/bin_expr.rs:76-152", "crates/parcom-parsers/src/combinator/iterative/take.rs:59-76", "crates/parcom-parsers/src/combinator/iterative/fold.rs:74-91", "crates/parcom-parsers/src/combinator/iterative/collect.rs:43-65"]}
{"id": "C87", "title": "the example's expression parser does linear work", "statement": "On a text of n characters the expression parser of the example makes at most 3n + 2 moves (advances and rewinds) before it answers, whatever the nesting and wherever it fails; if no space follows the expression, at most three per character of the expression and two more, so that the text behind it does not matter. An accepted expression that no space follows takes exactly one move per number and per character outside numbers, two more per operator, three more per pair of parentheses, and two at the end.", "quantifier": "all texts, all segmentations, all lawful rewind sequences, success and failure", "why_tests_cant": "Backtracking parsers may take exponential time on inputs no test has; a bound is about all inputs.", "anchors": ["example/src/bin_expr.rs:42-69", "example/src/bin_expr.rs:154-232", "crates/parcom-parsers/src/combinator/bin_expr.rs:76-152", "crates/parcom-parsers/src/combinator/or.rs:46-66"]}
{"id": "C88", "title": "the cost of the cache example grows linearly with its depth", "statement": "On a text of n characters the grammar of the cache example makes at most 3n + 2 moves (advances and rewinds). On a written expression that no space follows it makes exactly one per character, two more per operator, three more per pair of parentheses and two at the end; on the example's input of nesting depth n exactly 5n + 3, so that nesting is never searched twice.", "quantifier": "all texts, all segmentations, all lawful rewind sequences, all expressions and all depths", "why_tests_cant": "The example prints timings for some depths; that no depth and no other input makes the parser backtrack exponentially is about all of them.", "anchors": ["example/src/cache.rs:26-50", "example/src/cache.rs:81-105", "example/src/cache.rs:155-188"]}
{"id": "C89", "title": "the grammar of the crate's own tests, for chains of every length", "statement": "The expression grammar of the unit tests of bin_expr.rs ('0', parentheses, + - * / grouping to the left, ~ weakest and grouping to the right) accepts exactly the texts that start with a written expression, returns that expression, and reads the longest one; the text \"0\" followed by any number of \" ~ 0\" is read completely as one right-nested expression, and with \" ~ @@@\" behind it exactly \" ~ @@@\" is left. It panics exactly where a non-ASCII character stands in the place of a term or of a closing parenthesis.", "quantifier": "all texts, all segmentations, all lawful rewind sequences, all expressions and all chain lengths", "why_tests_cant": "The two tests run one chain of 8192 operators of one kind and look only at the rest; that every length and every mixture of operators is grouped as its precedence and associativity say is about unboundedly many inputs.", "anchors": ["crates/parcom-parsers/src/combinator/bin_expr.rs:170-330"]}
{"id": "C90", "title": "the meter agrees with str::len and str::lines on every text", "statement": "What the unit tests of LineColumnMeter<LF> compare on ten texts holds for every text: the total count is str.len(), the line is str.lines().count(), and the column is the length of the last line of str.lines(), plus one if the text ends with LF, plus two if it ends with CR LF.", "quantifier": "all texts", "why_tests_cant": "The tests use ten short ASCII texts; they do not show that len counts bytes while the meter counts characters.", "anchors": ["crates/parcom-metrics/src/line_colmn.rs:73-89", "crates/parcom-metrics/src/line_colmn.rs:112-178"]}
{"id": "C91", "title": "the runner's futures wake the waker of their last poll, whatever the lock is doing", "statement": "segments().next(..) and advance(..) of the default runner over the whole of Notify, every lock, slab operation and wake-up being a step of its own and sends being under way at any time: whatever can happen then also happens when a poll of Wait is taken as two loads, so that C56-C59, C64 and C79 hold; when the last poll returned Pending and a signal was sent since its wait(), the very waker given to that poll has been woken or is still in the slab with a send under way that will wake it; no waker leaves the slab but by being woken or by the poll that put it there; the slab is never asked for a key it does not hold; a poll waits only for the lock, only while a send is draining the slab, and that send ends; between polls the future does not hold the lock.", "quantifier": "all interleavings of polls, cancellations and any number of sends and loaders, all starting points of the sequence and contents of the slab, all keys the slab may choose, all version widths", "why_tests_cant": "a lost wake-up needs a send between the two loads, or a poll with a new waker while a drain is half done; such schedules are not under a test's control and there are unboundedly many of them", "anchors": ["crates/parcom-runners/src/default_runner/sequence/segments.rs:83-111", "crates/parcom-runners/src/default_runner/sequence/advance.rs:38-66", "crates/parcom-internals/src/future/notify.rs:25-70"]}
{"id": "C92", "title": "The runner's futures wait only when there is nothing to give", "statement": "A next() future that waits had, when its latest look at the chain ended, nothing left to return and a source not yet done; an advance(n) future that waits has looked exactly once, found fewer than n items, and the source was not done then. So on a source that was done before the call neither ever waits, and advance(n) never waits when n items are ahead already.", "quantifier": "all starting sequences, all n, all interleavings with loaders, all polls", "why_tests_cant": "The wait is decided by three separate loads (chain, version, done flag) with loaders running between them; a test fixes one interleaving.", "anchors": ["crates/parcom-runners/src/default_runner/sequence/segments.rs:78-109", "crates/parcom-runners/src/default_runner/sequence/advance.rs:36-66"]}
{"id": "C93", "title": "ShortVec survives panicking destructors and caught panics", "statement": "When destructors of elements panic, or a caller catches the panic of a refused call and goes on, a ShortVec does nothing undefined: its contents stay those of a plain stack that skips the refused calls, no value is dropped twice, an assignment over a value whose destructor panics is still made, and dropping the vector drops every element and frees its memory although one destructor panics.", "quantifier": "all inline sizes, element sizes above zero, sets of panicking values and sequences of calls", "why_tests_cant": "the tests of shortvec.rs count allocations of four fixed runs without any panic; which value panics, where in the vector it is, and what was refused before are unbounded, and an unwinding drop is never run", "anchors": ["crates/parcom-internals/src/shortvec.rs:66-186"]}
{"id": "C94", "title": "No item of a segment is dropped twice whatever destructors panic", "statement": "Whatever calls a character source makes on the writer of the generic sequence, and whichever items have panicking destructors, every item handed to the writer is afterwards either held by the loader's buffer or dropped exactly once; after a panic unwinds out of the source the buffer counts exactly the items it still has, so that it can be used again or dropped soundly, and the items moved out to make room are dropped with the request.", "quantifier": "all item types, sets of panicking items, source programs, buffers, growth strategies and minimum sizes", "why_tests_cant": "no test has an item with a destructor; the double drop needs a panic inside shrink_to and is undefined behaviour, which a passing test does not exclude", "anchors": ["crates/parcom-sequence-core/src/buffer_writer.rs:28-80", "crates/parcom-sequences/src/generic/control.rs:29-121"]}
{"id": "C95", "title": "Segments are freed exactly when nobody can reach them", "statement": "However the thread of the buffer and the thread of the loader interleave, no segment is touched after it was freed and none is freed or dropped twice; a segment the buffer has not passed is never freed; and once the calls in progress have ended, which they do, exactly the segments before the head of the buffer (without the buffer: before the tail, without both: all) are freed, each one's items dropped once and in order.", "quantifier": "all interleavings of any number of commits, advances and drops, all segment contents", "why_tests_cant": "reference counts are decremented from two threads, the interleavings are unbounded, and neither a leak nor a use after free need show in a test's result", "anchors": ["crates/parcom-sequences/src/generic.rs:13-33", "crates/parcom-sequences/src/generic/buffer.rs:29-54", "crates/parcom-sequences/src/generic/loader.rs:40-48"]}
{"id": "C96", "title": "Freeing segments needs bounded stack", "statement": "Freeing consumed segments, by advance, by dropping the buffer or by a commit, nests destructors only to a fixed depth however many segments there are, so that a long input cannot overflow the stack.", "quantifier": "all interleavings of any number of commits, advances and drops", "why_tests_cant": "the depth grows with the number of segments freed at once; tests use a handful", "anchors": ["crates/parcom-sequences/src/generic.rs:13-16", "crates/parcom-sequences/src/generic/buffer.rs:50-51", "crates/parcom-sequences/src/generic/loader.rs:40-48"]}
{"id": "C97", "title": "A grammar reads text as it reads items, and measuring it changes nothing", "statement": "A parser put together from any_char/the_char/atom (any_item/the_item/atom), join, or, optional, repeat, map, map_err and recursive parser functions gives on a &str exactly what the grammar says, except that it panics exactly when the grammar comes to a pattern which cannot be laid against the text there (C27); on a measured slice or measured &str it gives the result of the plain one, panics included, and the location reported is the initial one advanced over exactly what was read; on any lawful segmented sequence a grammar without patterns gives what the grammar says of the whole content, wherever the segments end.", "quantifier": "all grammars and rule sets, all texts, meters, segmentations and call depths", "why_tests_cant": "quantifies over all grammars; the repo's tests parse a handful of literals and never compare a measured run with a plain one", "anchors": ["crates/parcom-core/src/primitive/str.rs:16-44", "crates/parcom-core/src/primitive/str.rs:94-122", "crates/parcom-core/src/primitive/slice.rs:104-132", "crates/parcom-parsers/src/combinator/or.rs:46-66", "crates/parcom-parsers/src/combinator/repeat.rs:34-59", "crates/parcom-parsers/src/primitive/atom.rs:36-64"]}
{"id": "C98", "title": "Combinators are indifferent to the sequence they read", "statement": "If parsers one starts from give the same outputs and errors over two sequences that correspond, so does every parser put together from them with or, join, map, map_err, and_then, unify, unify_err, ref, boxed, optional, repeat, fold, collect, bin_expr and the iterative parsers optional, repeat, map_each, map_while, try_map_each, scan, take and ref, borrowed or consumed, panics included. In particular measuring a slice or a &str changes no result and the location goes over exactly what was read; the place of the items in memory does not matter, though rewinding compares addresses; and where the segments of a lawful sequence end does not matter to parsers that look at one item at a time.", "quantifier": "all parser expressions, closures, sequences, meters, addresses and segmentations", "why_tests_cant": "quantifies over all expressions and pairs of sequences; a test compares one parser on one pair", "anchors": ["crates/parcom-parsers/src/combinator/or.rs:46-66", "crates/parcom-parsers/src/combinator/join.rs:22-59", "crates/parcom-parsers/src/combinator/repeat.rs:34-59", "crates/parcom-core/src/primitive/slice.rs:104-132", "crates/parcom-core/src/primitive/slice.rs:25-45"]}
{"id": "C99", "title": "Iterative pipelines can be rearranged", "statement": "Stages of an iterative parser fuse as those of std iterators do: map_each after map_each, map_while or scan, map_while after map_while, scan after scan, take after take (the smaller count), and take passes over map_each and scan, in the strong sense that nobody can tell the two apart, however often and wherever they ask, after the end and after errors. take passes over map_while and try_map_each, and take(1) of repeat is optional, for consumers that stop at the end (fold, collect), and for those only. Map under repeat or optional is map_each over it. fold and collect absorb map_each and scan. Each kind of sameness survives further stages.", "quantifier": "all iterative parsers, closures, states, sequences of questions, sequences read", "why_tests_cant": "quantifies over all pipelines and over all ways of driving them; a test drives one pipeline once", "anchors": ["crates/parcom-parsers/src/iterative/take.rs:59-76", "crates/parcom-parsers/src/iterative/map_each.rs:61-76", "crates/parcom-parsers/src/iterative/map_while.rs:68-83", "crates/parcom-parsers/src/iterative/scan.rs:87-105", "crates/parcom-parsers/src/iterative/try_map_each.rs:86-112", "crates/parcom-parsers/src/iterative/fold.rs:74-91", "crates/parcom-parsers/src/iterative/collect.rs:43-65"]}
{"id": "C100", "title": "A recursive parser answers or comes back to where it was", "statement": "A parser put together from item parsers, join, or, optional, repeat, map_err and finitely many recursive parser functions answers on a text exactly if no question needs its own answer: no parser function is called again where it was called and is not done, and no repeat repeats a success that read nothing. If it answers, calls are nested no deeper than the number of functions times the places in the text (so deeper nesting means it never answers). A grammar in which no rule comes to itself before something was read and no repetition repeats what may be empty answers every text.", "quantifier": "all grammars with finitely many rules, all texts, all depths", "why_tests_cant": "non-termination cannot be observed by a test, and termination on all texts is not a finite claim", "anchors": ["crates/parcom-parsers/src/combinator/repeat.rs:34-59", "crates/parcom-parsers/src/combinator/or.rs:46-66", "crates/parcom-core/src/parser.rs:1-36", "example/src/cache.rs:80-160"]}
{"id": "C101", "title": "How much a recursive parser does", "statement": "A parser put together from item parsers, join, or, optional, repeat, map_err and recursive parser functions calls the item parsers and rewinds exactly as its grammar says, in that order: each alternative once, a rewind only after a miss, one attempt after the last item of a repetition. Without recursion the number of calls and rewinds is at most a polynomial of the length of the text whose degree is the depth to which repetitions are nested; with recursion it is at most an exponential, and there is a grammar of one rule for which it doubles with every letter, so no polynomial bounds it (nothing is memoised). It is at most linear for orderly grammars (C100) whose alternatives, options and repetitions fail, if they do, before they have read anything, as cuts make them.", "quantifier": "all grammars with finitely many rules, all texts, all depths", "why_tests_cant": "a growth rate over all texts and grammars is not a finite claim, and running time does not show what was called", "anchors": ["crates/parcom-parsers/src/combinator/or.rs:46-66", "crates/parcom-parsers/src/combinator/repeat.rs:34-59", "crates/parcom-parsers/src/combinator/optional.rs:36-50", "crates/parcom-parsers/src/combinator/join.rs:37-58", "example/src/cache.rs:80-160"]}
{"id": "C102", "title": "Grammars that one item of lookahead decides", "statement": "What a parser built from the crate's item parsers, join, or, optional, repeat, fatal map_err and recursive parser functions reads is always a word of the context-free grammar it is written after, and its output is a derivation of that word. If the next item always says which alternative to take and whether an option or a repetition goes on (and no fatal error is placed before that item), then conversely every word is found, with its only derivation, in front of everything that may follow it; every text is answered; and the number of item parsers called and rewinds made is linear in the text. Without that condition words are lost to the order of alternatives and to the greed of repetitions.", "quantifier": "all grammars of any size, all texts and what follows them, all derivations", "why_tests_cant": "A test tries some words; that no word is lost, that none has two readings and that the time is linear is about all words of a possibly infinite language.", "anchors": ["crates/parcom-parsers/src/combinator/or.rs:46-66", "crates/parcom-parsers/src/combinator/join.rs:37-58", "crates/parcom-parsers/src/combinator/optional.rs:22-45", "crates/parcom-parsers/src/combinator/repeat.rs:34-59", "README.md"]}
{"id": "C103", "title": "What an answer says about why", "statement": "The errors and outputs of the combinators, taken together, say exactly what happened: a failed join names the half that failed, a failed alternative names both halves or the one that was fatal, an option not taken and a repetition that ended carry the error that stopped them, and a fatal error carries what it was made from. The item parsers named really did not match at some place of the text, the input returned with an error stands exactly where the last of them was tried, no reason kept in an output is fatal, and an error is fatal exactly if some error was made fatal on the way to it. Leaving the reasons out gives the answer of the grammar.", "quantifier": "all grammars of item parsers, atom, join, or, optional, repeat, fatal errors and recursive parser functions; all slices; all budgets", "why_tests_cant": "The error types nest as deeply as the grammar and recursion make them; a test looks at the error of one grammar on one input.", "anchors": ["crates/parcom-parsers/src/combinator/or.rs:46-66", "crates/parcom-parsers/src/combinator/join.rs:37-58", "crates/parcom-parsers/src/combinator/optional.rs:22-45", "crates/parcom-parsers/src/combinator/repeat.rs:34-59", "crates/parcom-util/src/either.rs", "crates/parcom-util/src/error.rs"]}
{"id": "C104", "title": "BinExprParser is the layered grammar", "statement": "BinExprParser gives the answer of the grammar one writes by hand with one rule for each precedence, expr(k) = expr(k+1) (op(k) expr(k+1))*, built from the crate's own join, repeat, map and and_then and folded to the side the operators of that precedence group to: the same expression, the same rest, the same error or panic. Wherever the layers come to an end BinExprParser does; with operators and terms that read something both do. If operators of one precedence group to different sides no choice of side for the rule agrees with it.", "quantifier": "all term and operator parsers, all numbers of precedences below usize::MAX, all lawful rewind sequences, all inputs", "why_tests_cant": "It compares two parsers on all inputs for all operator tables; a test compares a few expressions.", "anchors": ["crates/parcom-parsers/src/combinator/bin_expr.rs:51-152", "crates/parcom-parsers/src/combinator/join.rs:37-58", "crates/parcom-parsers/src/combinator/repeat.rs:34-59", "crates/parcom-parsers/src/combinator/and_then.rs:57-75"]}
{"id": "C105", "title": "However the input is cut", "statement": "A parser built with the combinators from the parsers of single items or characters cannot tell where the segments of its input end, nor what kind of sequence the items come from: a text in one piece, the same text in any pieces with or without empty ones, and the slice of its characters give the same output or error, the same panic, and leave the same characters. In particular a grammar without fixed patterns is parsed as the grammar says, with the same reasons in its answers, over every such sequence.", "quantifier": "all expressions of combinators over single-item parsers, all grammars without patterns, all sequences of text with lawful positions, all lawful sequences of items, all inputs", "why_tests_cant": "Tests feed a few texts cut at a few places; the claim is over all ways to cut, all texts and all parsers.", "anchors": ["crates/parcom-parsers/src/primitive/any.rs:19-85", "crates/parcom-parsers/src/primitive/the.rs:11-40", "crates/parcom-core/src/primitive/str.rs:16-44", "crates/parcom-core/src/primitive/slice.rs:104-132"]}
{"id": "C106", "title": "Precedence climbing on the memory it uses", "statement": "BinExprParser keeps its waiting operands in a vector with four inline places. On that memory it gives the answer it would give with an unbounded stack, is free of undefined behaviour, frees everything it allocated exactly once on every way out (success, failure, a panic of a parser it calls), drops no operand of an expression it returns and on failure drops exactly the operands that wait. It allocates exactly if more than four operators wait at some time; those waiting are the right edge of the tree read so far, so four precedences that all group to the left never allocate.", "quantifier": "all term and operator parsers, all inputs, all operator types, all sizes of an entry, all memory limits", "why_tests_cant": "The tests run one grammar on one chain and cannot see the memory; the claim is over all chains, all operators and all sizes of entries.", "anchors": ["crates/parcom-parsers/src/combinator/bin_expr.rs:76-152", "crates/parcom-internals/src/shortvec.rs:66-186"]}
{"id": "C107", "title": "Expressions with brackets, for any table of operators", "statement": "The usual recursive parser, a BinExprParser whose term is an atom or an expression in brackets, reads a text to its end exactly if the text means an expression under the precedences and associativities of the table (also where operators of one precedence group to different sides), and returns that expression; a text means one at most; on every text it answers, with the longest part that means something or a recoverable miss if no part does. An expression written with brackets only where precedence asks for them is read back as itself, and no other text as short or shorter is read as that expression.", "quantifier": "all operator tables (left-associative precedences below usize::MAX), all expressions, all token texts, all lawful rewind sequences and lexers", "why_tests_cant": "Operator tables, expressions and bracketings are unbounded; minimality quantifies over all texts of an expression.", "anchors": ["crates/parcom-parsers/src/combinator/bin_expr.rs:52-151", "crates/parcom-parsers/src/combinator/bin_expr.rs:209-233"]}
{"id": "C108", "title": "Iterating on a sequence that is still being filled", "statement": "fold over an iterative parser of the user's own, with map_each, map_while, try_map_each, scan and take between, running on the runner's sequence while loaders append: a fold that ends well is the fold on everything that was there and has come by then, given at once, and leaves exactly the rest ahead; one that fails is the failing fold on what was there and a first part of what has come. No part of it panics, it never gets stuck, and once the source is done it ends iff the fold on the segments given at once ends, with the same answer, within a number of calls and steps that those segments give. From the chunks of a source to the answer: with a buffer that loses nothing and one-item atoms the result is the left fold of what the iterative parser gives on the whole text. On a source that is done this includes iterative parsers that succeed on hearing the end: splitting at a separator gives exactly the fields of the text, however the source is cut.", "quantifier": "all iterative parsers whose parse_next is built from any_item, the_item, atom, map, map_err, and_then, unify, as_ref, boxed and async functions over them and depends on a state in any way; all accumulators; all numbers of rounds; all interleavings with loaders; all chunkings", "why_tests_cant": "The number of rounds, the states and the interleavings with loaders are unbounded.", "anchors": ["crates/parcom-parsers/src/iterative/fold.rs:74-91", "crates/parcom-parsers/src/iterative/take.rs:59-76", "crates/parcom-core/src/parser.rs:37-61", "crates/parcom-runners/src/default_runner/sequence.rs:50-74"]}
{"id": "C109", "title": "Validated text from the bytes of a source to a parser's answer", "statement": "The bytes of a source go through a Utf8Validator into a generic sequence, and a parser runs on it: it answers as on the text, whatever chunks the source cuts it into and whatever BufferStrategy the sequence has, and what it sees is valid UTF-8.", "quantifier": "all texts and chunkings, also inside characters; all buffer strategies that allocate at least what is asked for; all parsers built from any_item, the_item, atom, the user's own (also such as succeed at the end), the combinators and async functions; all interleavings with the loader", "why_tests_cant": "Chunkings, strategies and interleavings are unbounded; that no strategy works is a statement about all of them.", "anchors": ["crates/parcom-sequence-sources/src/utf8_validator.rs: Control::request_writer, Writer::capacity, Writer::advance", "crates/parcom-sequences/src/generic/control.rs: Request::capacity", "crates/parcom-sequences/src/generic/loader.rs:57-79", "crates/parcom-sequences/src/buffer_strategy.rs:3-5"]}
{"id": "C110", "title": "Answers given while the source is still being loaded", "statement": "A parser that reads a text while the runner's loader still appends to it: an answer given before the loader says that it is done is the answer on the whole text, whatever comes later, also for parsers of the user's own that succeed on hearing the end. After that, in one whole run at most one primitive parser (in a fold: in all its rounds together) has been told of the end too early; it reads a first part of the text as if it were all, and everything before and behind it reads the text as it is. That happens to every parser of the user's own that waits for more after a first part of the text, in some interleaving. So splitting a text at a separator never fails, and loses or leaves something in at most one place.", "quantifier": "all parsers built from any_item, the_item, atoms of one item, the user's own for which segment borders make no difference, the combinators, async functions, and folds over them; all texts, chunkings and buffer strategies that allocate at least what is asked for; all interleavings with the loader", "why_tests_cant": "The interleavings of parser and loader, the texts and the number of rounds are unbounded; that something happens at most once in a run is a statement about all of them.", "anchors": ["crates/parcom-runners/src/default_runner/sequence/segments.rs:78-108", "crates/parcom-runners/src/default_runner/sequence/advance.rs:36-66", "crates/parcom-runners/src/default_runner/sequence.rs:50-73", "crates/parcom-parsers/src/iterative/fold.rs:74-91"]}
