{"id": "C01", "title": "Parsing terminates and the iterator is exhausted after finitely many items", "statement": "For a source of finitely many characters, every call to ParseIter::next returns after finitely many steps, every call that returns Some(..) has consumed at least one character, so the iterator yields at most as many items as there are characters, and once it returned None every later call returns None too.", "quantifier": "all finite inputs, all char classifiers, all operator bindings (whose combiners return), all allocators including failing ones, and any number of next() calls also after errors", "why_tests_cant": "tests only run chosen inputs; a non-terminating or non-consuming corner (removed nests, trailing escapes, errors then resume) can be missed", "anchors": ["/repo/core/src/lib.rs: ParseIter::next/do_next/parse_next/parse_text/parse_nested/parse_all"]}
{"id": "C02", "title": "Parsing never panics", "statement": "No call of ParseIter::next hits a panic: none of the debug_assert!s, unreachable!s, unwrap()s or counter over/underflows in the parser fires, as long as the source stream obeys its contract and the source has fewer than 2^64 characters.", "quantifier": "all inputs, all classifiers, all bindings, all allocators, any number of calls also after errors", "why_tests_cant": "the crate's own comment says the absence of panics is 'not proven currently'; tests cannot enumerate all streams/classifiers", "anchors": ["/repo/core/src/lib.rs: parse_nested (debug_assert, end closure)", "/repo/core/src/lib.rs: check_end_char", "/repo/core/src/lib.rs: parse_all (unreachable!)", "/repo/core/src/lib.rs: parse_next (ndepth +=/-=)"]}
{"id": "C03", "title": "Whatever is accepted conforms to the notation's grammar (soundness)", "statement": "If parsing an input yields only Ok items, then the input splits into the raw forms of an independently written grammar (texts with escapes, empty nests, combinations with optional leading whitespace, at most one separating whitespace, operands), and the yielded datums are exactly the ones the grammar assigns, in order.", "quantifier": "all inputs, all classifiers with disjoint character classes, all bindings", "why_tests_cant": "the grammar is an infinite language; a test suite samples a few dozen strings", "anchors": ["/repo/core/src/lib.rs: parse_next, parse_text, parse_nested, parse_all"]}
{"id": "C04", "title": "Everything in the grammar is accepted with the right tree (completeness)", "statement": "If an input is derivable in the independent grammar with datums ds, then parsing it yields exactly Ok of each of ds and then None.", "quantifier": "all derivable inputs, all classifiers with disjoint classes, all bindings", "why_tests_cant": "infinite language; unusual interleavings of escapes, removed nests and whitespace are unbounded", "anchors": ["/repo/core/src/lib.rs: parse_next, parse_text, parse_nested, parse_all"]}
{"id": "C05", "title": "Round trip: rendering a tree and parsing it gives the tree back", "statement": "Writing any canonical sequence of datums (texts, empty nests, combinations with operand lists) in the notation, escaping the special characters, and parsing the result with no bindings yields the same sequence of datums.", "quantifier": "all canonical datum sequences of any size and depth, with any characters in the texts", "why_tests_cant": "requires a statement about all trees", "anchors": ["/repo/core/src/lib.rs: parse", "/repo/README.md: notation"]}
{"id": "C06", "title": "Escaped text is transparent", "statement": "For every nonempty string s, parsing the string obtained by putting the escape character before every nest-start, nest-end and escape character of s yields exactly one text whose characters are s.", "quantifier": "all strings", "why_tests_cant": "all strings, all positions of special characters", "anchors": ["/repo/core/src/lib.rs: parse_text"]}
{"id": "C07", "title": "Errors occur exactly for unbalanced nests", "statement": "When combiners do not fail and allocation does not fail, the first error (if any) of parsing is UnbalancedEndChar exactly when the input has an unescaped nest-end without a matching unescaped nest-start before any unclosed end of input, MissingEndChar exactly when some unescaped nest-start is never closed, and there is no error exactly when unescaped nest delimiters are balanced - whatever operators are bound.", "quantifier": "all inputs, all bindings with non-failing combiners", "why_tests_cant": "equivalence between parser behaviour and a counter over all inputs", "anchors": ["/repo/core/src/lib.rs: check_end_char, parse_text, parse_nested (end)"]}
{"id": "C08", "title": "UnbalancedEndChar reports the position of the offending character", "statement": "The position carried by the first UnbalancedEndChar error is the source position of the first unescaped nest-end character that has no matching nest-start.", "quantifier": "all inputs and all source streams", "why_tests_cant": "position bookkeeping must be right for every input and every chunking", "anchors": ["/repo/core/src/lib.rs: check_end_char", "/repo/core/src/error.rs: Error::UnbalancedEndChar"]}
{"id": "C09", "title": "Parsing resumes right after an unmatched nest-end character", "statement": "After UnbalancedEndChar, the source stream is positioned just past the offending character, nothing of the discarded text leaks into later items, and later items are exactly those of parsing the remaining characters afresh.", "quantifier": "all inputs with any number of unmatched nest-ends", "why_tests_cant": "history dependence: any number of earlier errors", "anchors": ["/repo/core/src/lib.rs: check_end_char 580-587", "/repo/core/src/lib.rs: parse_text"]}
{"id": "C10", "title": "No state leaks between top-level forms", "statement": "After every call of ParseIter::next, whether Ok or Err (including allocation and combiner errors), the internal nest depth is zero again and either nothing is pending in the source stream's accumulation or the stream is at its end, so characters of an aborted form never show up in a later text.", "quantifier": "all inputs, all bindings, all failing allocators, all histories of next() calls", "why_tests_cant": "needs an invariant over all error points (every allocation may fail)", "anchors": ["/repo/core/src/lib.rs: parse_next ndepth handling 331-335", "/repo/core/src/lib.rs: parse_text concat_accum", "/repo/core/src/text/iter.rs: next_accum/accum_done"]}
{"id": "C11", "title": "With no bindings only base-syntax datums in canonical shape are produced", "statement": "Without bound operators, every datum yielded is a Text, EmptyNest or Combination whose operands are a proper list (List cells ended by EmptyList) of such datums; Extra never occurs; no two consecutive items of a sequence are texts; texts inside nests are nonempty; no FailedCombiner occurs.", "quantifier": "all inputs", "why_tests_cant": "shape invariant over all trees", "anchors": ["/repo/core/src/lib.rs: parse_nested 500-515, parse_all"]}
{"id": "C12", "title": "Operatives receive exactly the unparsed operand text", "statement": "When an operator bound to an operative occurs, the operative is called exactly once with the operator datum and the text that follows (after at most one separating whitespace) up to the matching nest-end, with nested balanced nests kept verbatim and escape characters removed, and its result replaces the form.", "quantifier": "all operand texts, all nesting structures, all operatives", "why_tests_cant": "quantifies over all operand texts and all combiner functions", "anchors": ["/repo/core/src/lib.rs: parse_nested 480-489, parse_text Operands mode", "/repo/core/src/combiner.rs: OpFn"]}
{"id": "C13", "title": "Applicatives receive the same operand list an unbound form would have", "statement": "When an operator bound to an applicative occurs, the applicative is called exactly once with the operator datum and the very list of operands that the same form yields as its operands when parsed (with the inner bindings unchanged) as an unbound combination.", "quantifier": "all operand sequences, all applicatives", "why_tests_cant": "quantifies over all operand sequences and combiner functions", "anchors": ["/repo/core/src/lib.rs: parse_nested 490-499", "/repo/core/src/combiner.rs: ApFn"]}
{"id": "C14", "title": "A combiner returning None removes the form and only the form", "statement": "A form whose combiner returns Ok(None) contributes no item: the surrounding items are exactly those of the text before and the text after it (adjacent texts stay separate items; in operator position the next form becomes the operator).", "quantifier": "all contexts, all removing combiners", "why_tests_cant": "quantifies over all surrounding contexts", "anchors": ["/repo/core/src/lib.rs: parse_next 331-341 (loop)"]}
{"id": "C15", "title": "Combiner errors are returned verbatim and abort the enclosing top-level form", "statement": "If a combiner returns an error, the current ParseIter::next call returns exactly this error, at whatever nesting depth, no further combiner is called during this call, and the stream is just past the failing form's nest-end.", "quantifier": "all inputs, all combiners, all nesting depths", "why_tests_cant": "quantifies over nesting depth and combiner behaviours", "anchors": ["/repo/core/src/lib.rs: parse_nested 487,497 (?)", "/repo/core/src/lib.rs: parse_next"]}
{"id": "C16", "title": "All source streams obey one contract", "statement": "For the in-memory text iterator over any chunking, the char-iterator stream and the string-chunk-iterator stream, any sequence of peek / next / next_accum / accum_done calls returns the same items and the same accumulated characters and positions as the documented contract: peek never consumes nor disturbs accumulation, next drops a pending accumulation, next_accum at the end preserves it, accum_done returns exactly the items accumulated since the last reset.", "quantifier": "all contents, all chunkings (including empty chunks), all finite call sequences", "why_tests_cant": "call sequences and chunkings are unbounded; tests use a handful of sequences", "anchors": ["/repo/core/src/lib.rs: SourceStream 164-195", "/repo/core/src/text/iter.rs: Iter", "/repo/src/source_stream/char_iter_src_strm.rs", "/repo/src/source_stream/strish_iter_src_strm.rs", "/repo/core/src/text/chunk/premade/pos_str.rs", "/repo/src/text/chunk/pos_strish.rs"]}
{"id": "C17", "title": "Streaming result does not depend on chunk boundaries", "statement": "Parsing a stream of string chunks yields the same results (datums equal, same character positions in texts and errors) for any two ways of cutting the same character sequence into chunks, empty chunks included.", "quantifier": "all inputs, all pairs of chunkings, all bindings that treat equal texts equally", "why_tests_cant": "the number of chunkings is exponential", "anchors": ["/repo/src/source_stream/strish_iter_src_strm.rs", "/repo/src/common/stream.rs: parse_stream"]}
{"id": "C18", "title": "In-memory, char-stream and chunk-stream parsing agree", "statement": "parse_str of a string, parsing its characters one by one through the char-iterator stream and parsing it through the chunk stream give equal datums and corresponding errors (with the char position).", "quantifier": "all inputs", "why_tests_cant": "relational property of three implementations over all inputs", "anchors": ["/repo/src/common/inmem.rs: parse_str", "/repo/src/common/stream.rs: parse_stream", "/repo/src/source_stream/char_iter_src_strm.rs"]}
{"id": "C19", "title": "Texts are zero-copy slices carrying true source positions", "statement": "Every chunk of every text in the trees returned by in-memory parsing is exactly the slice of the input string that starts at its reported byte position, and its reported character position is the number of characters before it; slicing never panics (always in range and on character boundaries).", "quantifier": "all inputs, all trees, all chunks", "why_tests_cant": "byte/char offset bookkeeping for all strings including multi-byte characters", "anchors": ["/repo/core/src/text/chunk/premade/pos_str.rs: PosStrIter::next_accum", "/repo/core/src/text/premade/datum_list.rs"]}
{"id": "C20", "title": "Ref-counted string chunks: slices stay in range and positions are right", "statement": "Streaming parsing only ever takes sub-ranges of the original ref-counted strings that lie in range and on character boundaries, the characters of the slice are exactly the accumulated ones and its position is the index of its first character in the whole stream.", "quantifier": "all contents, chunkings, call sequences", "why_tests_cant": "index arithmetic over all strings including multi-byte characters and nested slices", "anchors": ["/repo/src/text/chunk/pos_strish.rs: RefCntSlice::slice, PosStrishIter", "/repo/src/source_stream/strish_iter_src_strm.rs"]}
{"id": "C21", "title": "Text equality, ordering and hashing depend only on the characters", "statement": "Text equality holds exactly when the character sequences are equal (whatever the chunking, positions or representation), ordering is the lexicographic order of the character sequences - a total order consistent with equality - and equal texts feed the same data to a hasher.", "quantifier": "all pairs/triples of texts in any chunking and representation", "why_tests_cant": "algebraic laws over all values", "anchors": ["/repo/core/src/text.rs: Text::eq/partial_cmp/cmp/hash", "/repo/src/text/vec.rs", "/repo/core/src/text/premade/datum_list.rs"]}
{"id": "C22", "title": "Concatenation of texts appends their characters", "statement": "If concat succeeds, the characters (with positions) of the result are those of the first followed by those of the second; empty texts are neutral; the result's emptiness is the conjunction; for the vector text it never fails; for the datum-list text it allocates exactly one datum if both are nonempty, and none otherwise.", "quantifier": "all pairs of texts, all allocators", "why_tests_cant": "all chunk structures", "anchors": ["/repo/src/text/vec.rs: concat", "/repo/core/src/text/premade/datum_list.rs: concat"]}
{"id": "C23", "title": "encode_utf8 returns everything that fits, as valid UTF-8", "statement": "Text::encode_utf8 returns Ok with the UTF-8 encoding of all characters exactly when it fits the buffer, and otherwise Err with the encoding of the longest prefix of characters that fits; the returned bytes are valid UTF-8 that decodes to these characters, bytes after them are untouched, and the internal from_utf8 never fails.", "quantifier": "all texts of Unicode scalar values, all buffer sizes", "why_tests_cant": "all strings times all buffer sizes", "anchors": ["/repo/core/src/text.rs: encode_utf8 221-245"]}
{"id": "C24", "title": "Datum equality is structural and an equivalence", "statement": "Comparing datums with == holds exactly when they have the same shape, equal texts (by characters) and equal extras at corresponding places; it is reflexive, symmetric and transitive when the extras' equality is.", "quantifier": "all trees", "why_tests_cant": "algebraic law over all trees; the implementation interleaves a loop with recursion", "anchors": ["/repo/core/src/datum.rs: PartialEq::eq 63-92"]}
{"id": "C25", "title": "Datum equality uses bounded recursion on lists and operator nests", "statement": "The recursion depth of == on two datums is at most one plus the largest number of operand/element edges on any path, so it is constant for lists of leaves of any length and for nests in operator position of any depth. (It is not bounded for nests in operand position, which the documentation's 'deep nests' could be read to include.)", "quantifier": "all pairs of trees", "why_tests_cant": "resource bound over all sizes", "anchors": ["/repo/core/src/datum.rs: PartialEq::eq comment", "/repo/README.md: very-deep huge trees"]}
{"id": "C26", "title": "Equal operators find the same binding in every bindings implementation", "statement": "Hashing datums is consistent with ==, hence looking an operator up in the hash map bindings gives the combiner inserted last under an equal key, the pair bindings give the first pair with an equal key, the empty bindings give none; for the same list of bindings with pairwise different keys hash map and pairs agree.", "quantifier": "all binding lists, all operator datums", "why_tests_cant": "all keys times all chunkings of keys", "anchors": ["/repo/src/parser/hashmap_bindings.rs: lookup", "/repo/core/src/parser/premade/pair_bindings.rs: lookup", "/repo/core/src/parser/premade/empty_bindings.rs", "/repo/core/src/datum.rs: derive(Hash)", "/repo/core/src/text.rs: hash"]}
{"id": "C27", "title": "The slice allocator hands out each slot at most once, in order, and then fails for ever", "statement": "An allocator over a slice of n slots satisfies exactly the first n allocation requests, each with a different slot that keeps the value given, and answers AllocExhausted to all later ones; `unused` reports exactly the slots not handed out.", "quantifier": "all slice sizes, all request sequences", "why_tests_cant": "all request histories", "anchors": ["/repo/core/src/parser/premade/slice_alloc.rs"]}
{"id": "C28", "title": "Limited memory never changes results, only cuts them off", "statement": "Parsing with any allocator that may fail yields, up to its first allocation error, exactly the items that parsing with an unfailing allocator yields (for combiners that propagate allocation failure); a failing allocation is always reported as FailedAlloc; more memory never turns a success into a failure.", "quantifier": "all inputs, all capacities, all failure points", "why_tests_cant": "all failure points (fault injection) over all inputs", "anchors": ["/repo/core/src/lib.rs: new_datum()? uses", "/repo/core/src/parser/premade/slice_alloc.rs", "/repo/core/src/parser.rs: From<AllocError>"]}
{"id": "C29", "title": "The memory needed by a parse is determined by the tree", "statement": "Without bindings, successfully parsing allocates exactly two datums per combination, two per list cell, and for datum-list texts one per chunk beyond the first; so a slice of that many slots suffices and one slot less fails.", "quantifier": "all inputs", "why_tests_cant": "exact resource count over all inputs", "anchors": ["/repo/core/src/lib.rs: parse_nested 509-514, parse_all 536-541", "/repo/core/src/text/premade/datum_list.rs: concat"]}
{"id": "C30", "title": "FailedDerefTryMut never occurs with the provided reference types", "statement": "With Box, Rc, Arc or mutable-borrow datum references, parsing never returns FailedDerefTryMut.", "quantifier": "all inputs, bindings (that do not return it themselves) and allocators", "why_tests_cant": "all executions", "anchors": ["/repo/core/src/lib.rs: parse_all 543-548", "/repo/src/datum.rs: get_mut", "/repo/core/src/datum/premade/mutref.rs"]}
{"id": "C31", "title": "parse_str / parse_stream / parse_text_with return the items up to and including the first error", "statement": "The returned items are exactly the parse iterator's items up to and including the first error; so at most one error occurs and only as the last item.", "quantifier": "all inputs, bindings", "why_tests_cant": "prefix property over all runs", "anchors": ["/repo/src/common/helper.rs: collect_up_to_first_err", "/repo/core/src/premade/inmem.rs: parse_text_with", "/repo/src/common/inmem.rs", "/repo/src/common/stream.rs"]}
{"id": "C32", "title": "After the first error exactly one more item is parsed (the documented immediate abort is false)", "statement": "The whole-input functions return the datums up to and including the first error, and after that error they call next exactly once more before they stop, with all its effects on the source, the allocator and the combiners. So the documented 'parsing is immediately aborted' of parse_str and parse_stream is false; there are inputs for each function whose combiners are called, or whose sources are read, after the first error.", "quantifier": "all inputs", "why_tests_cant": "no test observes effects after the first error", "anchors": ["/repo/src/common/helper.rs: collect_up_to_first_err", "/repo/src/common/inmem.rs: parse_str_with doc", "/repo/src/common/stream.rs: parse_stream_with doc"]}
{"id": "C33", "title": "Dropping a boxed tree terminates, frees every node once, with bounded recursion and linear work", "statement": "Dropping a DatumBox tree of any shape terminates after at most 2n loop iterations for n branch nodes, every node is dropped exactly once, and every nested drop is of a leaf, so the call depth is constant; no unreachable! fires.", "quantifier": "all tree shapes and sizes", "why_tests_cant": "the module comment says: 'We haven't formally proven it all'; shapes are unbounded", "anchors": ["/repo/src/drop.rs: algo1 88-302, Box impls 323-341"]}
{"id": "C34", "title": "Dropping shared trees terminates and is panic-free under any interleaving", "statement": "For Rc/Arc trees with additional strong references that may appear or disappear at any time, each run of the drop algorithm terminates after boundedly many steps, never hits unreachable! or a failing unwrap, and every reference it took over is either dropped exactly once or still in the tree it hands on.", "quantifier": "all trees, all outcomes of each attempt to take over a node (all thread schedules)", "why_tests_cant": "schedules and sharing patterns are unbounded", "anchors": ["/repo/src/drop.rs: algo1 selection 188-238, mode_lock; RcLike 343-401; try_replace_optim 429-458"]}
{"id": "C35", "title": "Additional strong references do reintroduce deep drop recursion (the documented absence is false)", "statement": "The documentation says that additional strong references do not reintroduce deep drop recursion. That is false: for every bound there is a heap of reference-counted datums, linear in the bound, with one additional strong reference, in which dropping a reference recurses deeper than the bound (a list with a unique spine whose elements are one shared branch recurses once per element).", "quantifier": "all trees, all sharing patterns", "why_tests_cant": "existing tests only share list tails; a counterexample family must be shown for every depth", "anchors": ["/repo/src/drop.rs: module doc 37-60, algo1 break cases 188-238"]}
{"id": "C36", "title": "Dropping a reference never changes data still reachable through other references, and leaks nothing", "statement": "After dropping one strong reference to an Rc datum graph, every datum still reachable from other strong references has unchanged contents and an exact strong count, and every datum not reachable any more has been freed exactly once.", "quantifier": "all finite acyclic heaps, all sharing patterns", "why_tests_cant": "heap shapes are unbounded", "anchors": ["/repo/src/drop.rs: algo1, try_replace, try_replace_optim", "/repo/src/datum.rs: DatumRc"]}
{"id": "C37", "title": "The default classifier's classes are disjoint and as documented", "statement": "The default classifier treats exactly { as nest start, exactly } as nest end, exactly \\ as escape, and exactly the Unicode White_Space characters as whitespace; no character is in two classes.", "quantifier": "all characters", "why_tests_cant": "all 1.1 million scalar values, finitely many but never tested exhaustively", "anchors": ["/repo/core/src/parser/premade/default_classifier.rs"]}
{"id": "C38", "title": "Whitespace around the operator is not significant, other whitespace is preserved", "statement": "Adding or removing whitespace directly after a nest-start does not change the result, exactly one whitespace character after the operator is dropped, and every other whitespace character of the input appears in the texts of the result.", "quantifier": "all inputs and all whitespace strings", "why_tests_cant": "all positions and amounts of whitespace", "anchors": ["/repo/core/src/lib.rs: skip_whitespace, parse_nested 474-478"]}
{"id": "C39", "title": "No input character is lost or invented", "statement": "Without bindings and errors, the sequence of all characters (with positions) in the texts of the result, in order, is exactly the input's characters minus unescaped delimiters, escape characters, whitespace directly after nest starts, and one whitespace after each operator.", "quantifier": "all error-free inputs", "why_tests_cant": "conservation law over all inputs", "anchors": ["/repo/core/src/lib.rs: parse_text, parse_nested"]}
{"id": "C40", "title": "Sub-form positions survive re-parsing", "statement": "Iterating a text obtained from parsing yields its characters with their original source positions, so parsing an operative's operand text again reports errors at positions of the original source.", "quantifier": "all inputs, all texts obtained by parsing", "why_tests_cant": "compositional property over all inputs", "anchors": ["/repo/core/src/text.rs: iter", "/repo/core/src/text/iter.rs: Iter::new", "/repo/core/src/text/chunk/premade/pos_str.rs: PosStrIter::new"]}
{"id": "C41", "title": "In-place list construction in a slice of slots builds the list it means", "statement": "The operand list that parsing builds by overwriting tail slots in place, over the mutable-borrow slice allocator, reads back as the list of parsed operands in order, uses pairwise different slots, and does not disturb previously allocated datums.", "quantifier": "all operand sequences, all slice sizes", "why_tests_cant": "aliasing over all lists", "anchors": ["/repo/core/src/lib.rs: parse_all 524-557", "/repo/core/src/parser/premade/slice_alloc.rs", "/repo/core/src/datum/premade/mutref.rs"]}
{"id": "C42", "title": "Parse recursion depth is bounded by the nesting depth of the input", "statement": "The parser's call depth is at most proportional to the maximal nesting of unescaped nest delimiters in the input, independent of its length.", "quantifier": "all inputs", "why_tests_cant": "resource bound over all inputs", "anchors": ["/repo/core/src/lib.rs: parse_next/parse_nested/parse_all recursion"]}
{"id": "C43", "title": "The parser does not read ahead of what it returns", "statement": "When the parse iterator returns the datum of a nest form, or an error about an unmatched end character or from a combiner, the source iterator has been asked for nothing beyond the last character of that form or the offending character; after any other result, at most one more item (for a string source: one more string, and only when its first character is needed) has been asked for. So a parser fed from an interactive source yields each form as soon as it is complete.", "quantifier": "all inputs, all splittings into strings, all lawful collaborators, all sequences of calls to next", "why_tests_cant": "The tests drain complete inputs, so nothing shows when the underlying iterator is advanced; the claim is about every prefix of every run.", "anchors": ["/repo/core/src/lib.rs: parse_next, parse_nested, parse_all", "/repo/src/source_stream/char_iter_src_strm.rs", "/repo/src/source_stream/strish_iter_src_strm.rs"]}
{"id": "C44", "title": "Parsing is compositional: concatenated sources give concatenated results", "statement": "If a source parses without errors and does not end in a pending escape, and it ends with a nest form or the next source starts with one, then parsing the concatenation of the two gives the datums of the first at the same positions, followed by the items (datums and errors) of the second at positions moved by the length of the first, with the combiners' state carried over.", "quantifier": "all pairs of inputs meeting the boundary condition, all bindings that do not depend on absolute positions, all lawful collaborators", "why_tests_cant": "Relates three runs of the parser over all pairs of inputs; the boundary condition is what makes feeding a source in pieces to separate parsers safe or unsafe.", "anchors": ["/repo/core/src/lib.rs: parse_next, parse_text, parse_all, ParseIter", "/repo/src/common/inmem.rs: parse_str_with"]}
{"id": "C45", "title": "The recursion depth of dropping Rc and Arc datums is bounded by how much is shared", "statement": "Dropping a reference to an Rc or Arc datum needs a recursion depth of at most two more than the number of references, held inside the datums that only this reference keeps alive, to branches which have further strong references. In particular a depth of two is enough for any graph whose branches are not shared, whatever its size and shape, also with weak references to it and with shared leaves. The bound cannot be lowered by more than two.", "quantifier": "all finite acyclic heaps, all sharing patterns, all references", "why_tests_cant": "the depth is a maximum over all graph shapes; tests only drop a few shapes with a deep stack", "anchors": ["/repo/src/drop.rs: algo1 188-238, try_replace, try_replace_optim", "/repo/src/drop.rs: module doc 37-60"]}
{"id": "C46", "title": "Arc datums can be dropped by many threads at once", "statement": "Any number of threads may drop references to Arc datums, with any sharing between them, while other threads clone, downgrade, upgrade, allocate, modify exclusively owned datums and drop weak references, in any interleaving of the atomic steps. No drop panics (neither the unreachable! nor the unwrap in drop.rs), uses freed memory, or runs forever; no step of a drop changes a datum that is reachable from the program's references or ends the exclusive access to one; no value is dropped twice or while still in a datum; and when the drops have ended all counts are exact, no memory is leaked and exactly the values no longer in any datum have been dropped.", "quantifier": "all numbers of threads, all finite acyclic heaps with any sharing and weak references, all interleavings of atomic steps", "why_tests_cant": "the number of interleavings is unbounded and the race described in the documentation is hard to provoke; the documentation says that the approach is not proven", "anchors": ["/repo/src/drop.rs: algo1 86-303", "/repo/src/drop.rs: RcLike 343-402", "/repo/src/drop.rs: DatumArc 508-551", "/repo/src/drop.rs: module doc 75-88"]}
{"id": "C47", "title": "The parser makes a linear number of calls", "statement": "However often next is called and whatever it returns, the parser calls the methods of the source stream (peek, next, next_accum, accum_done), concat of the text type, new_datum of the allocator and combiners at most eleven times for each character it reads and five times for each call of next. Parsing a whole source of n characters until next returns None therefore makes at most 16 n + 5 such calls, for every nesting depth, classifier and set of bindings, also when allocations and combiners fail.", "quantifier": "all sources, streams, classifiers, text types, allocators and bindings, all states of a parser and all sequences of calls of next", "why_tests_cant": "a worst case over all sources and failures; quadratic behaviour (for instance by reading a nested form again at each level) would only show in timings", "anchors": ["/repo/core/src/lib.rs: parse_next 308-358", "/repo/core/src/lib.rs: parse_text 360-446", "/repo/core/src/lib.rs: parse_nested 448-522", "/repo/core/src/lib.rs: parse_all 524-557"]}
{"id": "C48", "title": "Streams over any iterator, also an endless one", "statement": "CharIterSourceStream and StrishIterSourceStream work with any iterator of the user, not only finite ones. What calls of a parser's next return depends only on what the iterator has returned to the calls made of it so far: every other iterator that returns the same to that many calls gives the same items, the same allocator state, and has been called equally often. In particular everything shown of finite sources holds of every iterator that begins with what has been taken from them, so that each datum of an endless source is returned when its form has been read, and nothing after a nest form is asked for first. With an iterator of characters, once next has returned None it always will and the iterator is not called again, even if it has more; with an iterator of strings datums can follow a None.", "quantifier": "all iterators (also endless ones, and ones that go on after None), all classifiers, text types, allocators and bindings, all sequences of calls of next", "why_tests_cant": "tests give finite inputs only; an endless source cannot be run to its end, and a read-ahead would only show as a program that hangs", "anchors": ["/repo/src/source_stream/char_iter_src_strm.rs: 141-218", "/repo/src/source_stream/strish_iter_src_strm.rs: 48-177", "/repo/core/src/lib.rs: ParseIter::next 256-258"]}
{"id": "C49", "title": "What is parsed in different ways compares equal", "statement": "== between datums with different text types holds exactly if the trees have the same shape, with texts of the same characters and equal extras at corresponding places; it does not matter which side is which, it is transitive through a third type, and equal datums hash alike. == between errors holds exactly for the same variant with equal contents. So what the premade ways of parsing return for the same characters is ==: a string, the string cut into any strings, its characters one by one, and the string without a heap up to the first allocation error.", "quantifier": "all datums, all pairs and triples of text types that meet the contract, all errors, all inputs and all ways of cutting them, all bindings that treat the same texts alike, all numbers of slots", "why_tests_cant": "tests compare a few results of one configuration with literals; the comparison runs two iterators over two chunkings at once, and the claim is about all pairs of chunkings and types", "anchors": ["/repo/core/src/datum.rs: PartialEq 56-92", "/repo/core/src/error.rs: PartialEq 31-55", "/repo/core/src/text.rs: Text::eq 164-166", "/repo/src/text/vec.rs: PartialEq 38-45", "/repo/core/src/text/premade/datum_list.rs: PartialEq 51-58"]}
{"id": "C50", "title": "The work of dropping datums", "statement": "Dropping a box with any tree of datums takes at most 11 b + 1 operations (looks at a datum, attempts to take one, changes of one) for b branches. Dropping one Rc or Arc reference takes at most 5 f^2 + 11 f + 2, where f is the number of branches that are freed, however large the rest is; the same holds with the branches of the tree if other owners come and go at any time. It takes at most 11 f + 1 if none of the branches in it has another reference. It is not linear in general: dropping a list of n cells whose elements are branches that others share takes at least 2 n (n + 1) operations.", "quantifier": "all trees, all heaps of counted references without cycles, all behaviours of other owners; for the lower bound all n", "why_tests_cant": "a worst case over all shapes and sharings; the existing tests only check that a few deep shapes do not overflow the stack, and quadratic time would only show as a slow program", "anchors": ["/repo/src/drop.rs: algo1 88-299", "/repo/src/drop.rs: Algo1DatumRef 306-341", "/repo/src/drop.rs: DatumRc and DatumArc 461-551"]}
{"id": "C51", "title": "How deep hashing and cloning of datums recurses", "statement": "Hashing a datum, and cloning one whose references are boxes, recurses as deep as the datum's longest path, counting all edges: in a list once per element (== does not, C25). Therefore for every n there is a source with delimiters nested at most three deep, which the parser itself parses with at most twelve stack frames (C42), with an operator form whose hash recurses more than n deep when it is looked up in a non-empty hash map of bindings. A clone is == to the original if the clones of texts and extras are.", "quantifier": "all datums; all n up to the length of a string; all hash map bindings that do not bind the operators concerned", "why_tests_cant": "tests hash small operators only; the depth is a property of all datums and shows as a crash when the stack overflows", "anchors": ["/repo/core/src/datum.rs: derive 17, PartialEq 50-92", "/repo/src/datum.rs: derive 21, 60, 92", "/repo/src/parser/hashmap_bindings.rs: lookup 102-106"]}
{"id": "C52", "title": "Programs that share datums by Rc or Arc references", "statement": "Any sequence of makings of DatumRc (or DatumArc) values, clones, reads of children, drops, assignments through get_mut, downgrades to weak references, upgrades and drops of those runs to its end without panic and without use of freed memory or moved data; the counts are always the numbers of references, there are no cycles, and each value is dropped once, at the latest when the last strong reference is dropped, and all memory is freed with the last reference. What is read through the references is as if each had its own copy of the data: an assignment through one is never seen through another. It is done exactly if there is no other strong or weak reference; a weak reference can be upgraded exactly while the datum can be reached by strong ones, and then shows what it was made of.", "quantifier": "all programs over these operations, both Rc and Arc, all values in leaves", "why_tests_cant": "tests run a few fixed programs; aliasing, leaks and early frees depend on the whole history of operations", "anchors": ["/repo/src/datum.rs: DatumRc 60-84, DatumArc 92-118", "/repo/src/drop.rs: 350-520", "/repo/core/src/datum.rs: DerefTryMut 115-125"]}
{"id": "C53", "title": "Only the classes of characters matter", "statement": "How a source is parsed depends on its characters only by how the classifier classes them. Two sources of characters that are pairwise classed the same, each by its own parser's classifier, are parsed into the same shapes, with the same errors at the same places, and texts at the same places; so rewriting a source for other delimiters and parsing it with a classifier for these gives the same datums with their texts rewritten. This holds also with bindings if these treat corresponding texts alike, and for any two implementations of the parser's collaborators.", "quantifier": "all classifiers, also with overlapping classes, all sources, all lawful collaborators, all bindings that treat corresponding texts alike", "why_tests_cant": "the tests with a custom classifier use a few delimiters and inputs; that no delimiter is hard-coded anywhere in the parser is about all classifiers and characters", "anchors": ["/repo/core/src/parser.rs: CharClassifier 41-66", "/repo/examples/non_default_delimiters.rs: 11-50", "/repo/core/src/lib.rs: 200-590"]}
{"id": "C54", "title": "The extended notation of the examples", "statement": "The parsers that the examples build (with_extensions of examples/common_basic.rs, shown in the README, and of core/examples/stack_only.rs) read their notation as intended. An int form gives the integer that its operands, without escape characters, stand for as a decimal numeral, if they are one of an integer of 128 bits, and Oops otherwise; in stack_only only if the operands are at most 39 bytes, and TooLong otherwise. All integers of 128 bits can be written for common_basic; for stack_only exactly those greater than -10^38. In the datums of any source, however nested and also before an error, no operator of the notation is left in a combination. If there is no error, the times in the result from left to right are the successive readings of the clock. More generally, what is returned for any source, well-formed or not, is what the notation's grammar says with just these four operators: # removes its form, the time or thing operator fails with its operands if it has any, and the compound operator gives its operands.", "quantifier": "all sources, all int forms, all integers of 128 bits, all clocks and hashers, all numbers of slots", "why_tests_cant": "the examples run one input each and are not checked; what is read for all numerals, nestings and memory sizes is about infinitely many inputs, and the integers that do not fit the buffer are only at the very end of the range", "anchors": ["/repo/examples/common_basic.rs: with_extensions 26-110", "/repo/core/examples/stack_only.rs: with_extensions 70-187", "/repo/README.md: 200-275"]}
{"id": "C55", "title": "Operatives that parse their operands", "statement": "An operative may \"further parse\" the operands text that it is given: it calls parse on the text's own iterator. Such an operative gives the combination of its operator with the datums that the characters of the text stand for as a source, however the text is cut into chunks, and an error exactly if they stand for none. Binding operators that were not bound to such operatives, also recursively and in one another, changes nothing on sources without escape characters whose braces are balanced: the same datums with the same positions, the same first error and, if there is none, the same effects of the other combiners, as if the operators were not bound and the operands recursively parsed. With escape characters this is false (an operative is given its operands without them, so `{k \\{}` becomes an error), and with braces that are not balanced too.", "quantifier": "all bindings, all operators that are not bound, all nestings of such operatives in one another, all sources without escape characters that are balanced, all states of the combiners", "why_tests_cant": "an operative that parses re-enters the parser with a text whose positions and chunks come from the outer parse; agreement with the direct parse is about all sources, nestings and bindings", "anchors": ["/repo/core/src/parser.rs: OperatorBindings::lookup 117-126", "/repo/core/src/lib.rs: Parser::parse 223-227, parse_nested 361-445, parse_nest 448-522", "/repo/core/src/text.rs: Text::iter 281-283"]}
{"id": "C56", "title": "What is returned for any source at all", "statement": "Iterating over a parser until None, going on after errors, gives for every source, well-formed or not, exactly the items that the notation assigns to it, and leaves the combiners' state as it says. The forms up to the first error are returned as datums. If a combiner fails, its error is returned and parsing goes on directly behind the combination it failed in, at whatever depth that is; so the rest of the enclosing nest forms is taken as top-level source. At an end delimiter that matches none, UnbalancedEndChar with its position is returned, a text directly before it is lost, and parsing goes on behind it. If the source ends inside a nest form, MissingEndChar is returned last; the combiners of all combinations that were complete have been called. parse_str_with returns this up to the first error. The assignment is a function: every source has one such list of items, and only one.", "quantifier": "all sources, all bindings with any combiners, all states of the combiners, all lawful streams, texts and allocators that do not fail, all classifiers with disjoint classes", "why_tests_cant": "tests of errors look at the first error of a few inputs; what is returned after errors, and what has been called inside of a form that was never closed, depends on the whole source in unboundedly many ways", "anchors": ["/repo/core/src/lib.rs: ParseIter::next 244-280, do_next 299-306, parse_next 308-359, parse_text 361-446, parse_nested 448-522, parse_all 524-558, check_end_char 569-590"]}
{"id": "C57", "title": "The chunks of texts are slices of the source, as long as possible", "statement": "When the source is one string slice (or any one chunk, or an iterator of characters), every text that the parser returns before the first error, inside whatever datum, is empty or consists of chunks that each are a non-empty contiguous part of the source, with its position, and no two consecutive chunks of which are adjacent in the source. So the chunks of a text are determined by its characters, and no other way of putting it together from parts of the source has fewer chunks: a text without escapes is one slice. This holds with any combiners that return only texts made this way, e.g. those they are given.", "quantifier": "all sources of one chunk with different positions, all chunk types that obey the contract, TextVec and TextDatumList texts, all classifiers, all combiners that keep to such texts", "why_tests_cant": "tests compare texts by their characters, which does not see how they are cut into chunks; a few compare the chunks of a few inputs", "anchors": ["/repo/core/src/lib.rs: parse_text 361-446", "/repo/core/src/text/iter.rs: next_accum 123-143, accum_done 145-152", "/repo/core/src/text/chunk/premade/pos_str.rs: next_accum 164-180, accum_done 182-184", "/repo/src/text/vec.rs: concat 113-140", "/repo/core/src/text/premade/datum_list.rs: concat 153-182", "/repo/src/source_stream/char_iter_src_strm.rs: 190-218"]}
{"id": "C58", "title": "The work of concatenating texts: linear with TextVec, quadratic with TextDatumList", "statement": "Parsing concatenates the chunks of each text as they are found. With TextVec texts the elements moved or written, together with the chunks asked for being empty beyond the first, are at most seven times the number of chunks of the returned texts, whatever the source stream (text, characters, strings), as long as the vectors at least double when they grow. With TextDatumList texts the iterations of the walk to the end of the list are at most the number of pairs of chunks of each returned text, and exactly that for a source of one chunk: a text with k escapes that each begin a chunk takes k(k-1)/2 steps. In both cases no chunk of a returned text is empty unless it is the only one. The counting run returns the same datums as the run without counting. With any combiners, any results and any number of calls of next the same kinds of bounds hold against what has been read of the source: seven times the items read with TextVec, the number of pairs of the items read with TextDatumList, where what the combiners do themselves is not counted.", "quantifier": "all sources, chunk types, allocators, classifiers, growth policies of vectors; the bounds by the chunks returned for parsers without combiners and runs without errors, the bounds by the items read for all combiners, results and numbers of calls", "why_tests_cant": "a test observes results for given inputs, not how work grows with them; no input of the test suite has more than a few chunks in a text", "anchors": ["/repo/core/src/text/premade/datum_list.rs: concat 153-182", "/repo/src/text/vec.rs: concat 113-140, is_empty 86-88", "/repo/core/src/text/iter.rs: next_accum 123-143", "/repo/core/src/lib.rs: parse_text 361-446"]}
{"id": "C59", "title": "Going on after a caught panic of a combiner", "statement": "If a combiner panics and the caller of ParseIter::next catches the panic and goes on calling next, then nothing else is changed by it: the stream is directly behind the form whose combiner panicked and what the combiners did is kept, but the nest forms around the combiner, its own included, count as open for ever. So after a panic the iteration never ends at the end of the source. Either next goes on, without end, to return MissingEndChar at the end of the source, or it returns None for ever in front of an end delimiter that it does not consume, with the rest of the source never read; unmatched end delimiters are no longer reported. What each call returns is determined for every source. A new iterator started on the same stream is not affected. Without panics the parser is the same as without unwinding.", "quantifier": "all sources, all lawful streams, texts, allocators and bindings, any number of panics at any nesting depth, any number of calls of next; the comparison with the parser without unwinding holds for all collaborators", "why_tests_cant": "no test panics in a combiner, and what goes wrong shows up only in later calls, without end, and depends on the depth of all panics before", "anchors": ["/repo/core/src/lib.rs: parse_next 308-358 (depth restored at 337), parse_nested 448-522, ParseIter::next 256-258", "/repo/core/src/combiner.rs 34, 44"]}
{"id": "C60", "title": "Parsing with counted references", "statement": "With the Rc and Arc allocators, parsing returns the same results as with boxes, datum for datum and error for error, where the datums are now in counted memory: every count is exactly the number of references there are, there are no cycles, and all that stays allocated is reached by the results, the combiners' state or the others that use the memory; what the others can reach is not changed. The parser's write through get_mut never fails. When parsing fails, all that the parser allocated is given back; when all results are dropped, all that is left is what the combiners' state and the others reach. Without combiners the memory of the results is all new with one reference to each datum, a failing call leaves the memory as it was, and dropping the results restores it, with drops that recurse at most two deep.", "quantifier": "all sources, all streams and texts that do not use the allocator (the ready-made ones are proved to be such), all bindings whose combiners do in memory what they do on trees (including ones that share and that keep references), any memory in use by others, any number of calls of next, any results of these", "why_tests_cant": "a leak, a wrong count or a use of freed memory cannot be seen in the returned datums; it depends on where in which nesting a parse fails and on what else shares the memory", "anchors": ["/repo/core/src/lib.rs: parse_next 308-358, parse_nested 448-522, parse_all 524-557", "/repo/src/parser/rc_alloc.rs 25-45", "/repo/src/parser/arc_alloc.rs 25-45", "/repo/src/datum.rs 56-115", "/repo/src/drop.rs"]}
{"id": "C61", "title": "Panics of the user's iterator", "statement": "When the iterator behind a CharIterSourceStream or StrishIterSourceStream panics and the caller catches it, the parser can be used on: a call of next that panics has read exactly up to the panic, with the combiners of the complete forms before it called; nothing is skipped or read again by later calls. A panic at the start of a call does no harm. Inside a plain text what was read stays accumulated and comes back in front of the next text if one follows directly; what was before an escape character is lost, an escape character read last is forgotten, and a text that was complete is lost. Nest forms that were begun stay open: their depth stays raised. Every call returns or panics, and one that returns gives what a parser over the source without panics gives there at the same depth, with what was left accumulated in front of its text.", "quantifier": "all sources with panics at any places and any number of them, all streams that follow the contract of panics (the two of the crate are proved to), all classifiers with disjoint classes, all bindings, any state reached by earlier calls and panics", "why_tests_cant": "where the panic falls relative to look-ahead, escapes and nesting, and how often, are unbounded; the harm shows only in later calls", "anchors": ["/repo/src/source_stream/char_iter_src_strm.rs 110-230", "/repo/src/source_stream/strish_iter_src_strm.rs", "/repo/core/src/lib.rs: parse_next 308-358, parse_nested 448-522, parse_all 524-557"]}
{"id": "C62", "title": "No leaks when a panic is caught", "statement": "With RcDatumAllocator or ArcDatumAllocator, when a combiner or the stream's iterator panics during next and the caller catches it, everything the call had built and not handed over is dropped while unwinding: the counts stay exact, all that is allocated is what the returned datums, the combiners' own state and other owners reach, and nothing that others own or that could not be reached is changed or freed twice. This holds over any history of returning and panicking calls, which return what a parser on plain trees returns. Without combiners a call that panics or fails leaves the memory exactly as it was, dropping all results restores it, and the drops recurse at most two deep.", "quantifier": "all sources, classifiers, streams and texts that do not use the allocator (all of the crate's, with iterators that panic anywhere), all bindings whose combiners keep the counts exact when they return, fail or panic, all prior memory, any history of calls", "why_tests_cant": "where a panic falls in the nest of forms, which locals are alive then at each level, and the sharing in memory are unbounded; a leak has no observable result", "anchors": ["/repo/core/src/lib.rs: parse_next 308-358, parse_nested 448-522, parse_all 524-557", "/repo/src/parser/rc_alloc.rs 25-45", "/repo/src/parser/arc_alloc.rs 25-45", "/repo/src/datum.rs 56-115", "/repo/src/drop.rs"]}
{"id": "C63", "title": "Parsing with ArcDatumAllocator while other threads run", "statement": "When threads parse with ArcDatumAllocator while any other threads clone, inspect, change (through get_mut), downgrade and drop datums in the same memory, in any interleaving, and combiners hand datums to other threads and answer whenever they like: no call of next panics or touches freed memory; each returns what it would return alone on plain trees from combiners giving the same answers, having asked them the same; Arc::get_mut never fails for the list being built, and where the parser writes no other thread can look; it changes nothing other threads can reach and they change nothing it has; after an error or a caught panic of a combiner it keeps no reference; every call ends once the combiners return, everything can then be dropped, and after the last drop nothing is allocated and each value was dropped exactly once.", "quantifier": "all sources, classifiers, streams and texts that do not use the allocator (all of the crate's), all lookups that depend on the operator only, all behaviours of combiners and of the other threads, any number of parsing threads, all interleavings of atomic steps", "why_tests_cant": "interleavings are unboundedly many and not under a test's control; a stray write or a lost count shows only in some of them", "anchors": ["/repo/src/parser/arc_alloc.rs", "/repo/core/src/lib.rs: parse_next 308-358, parse_nested 448-522, parse_all 524-557", "/repo/src/datum.rs", "/repo/src/drop.rs"]}
{"id": "C64", "title": "Texts from a source of several chunks or strings consist of parts of those, as long as possible", "statement": "When the source is a text of several chunks, or an iterator of several reference-counted strings, each chunk of each text in the results is a part (with its position) of one chunk or one string of the source; no two consecutive chunks of a text could be one such part, so that no other way to compose the text of parts of the source's chunks has fewer; and no chunk is empty, unless the text has no characters at all, when it refers to none of the source's strings. Nothing is ever copied out of the source.", "quantifier": "all lists of chunks and strings, also empty ones, all classifiers, all combiners that keep this, all items, also after errors; TextVec and TextDatumList, every chunk type that meets the contract (PosStr and PosStrish do)", "why_tests_cant": "where texts, escapes and the ends of chunks fall against each other has unboundedly many cases; equality of texts does not show how they are chunked", "anchors": ["/repo/core/src/lib.rs: parse_text 361-446", "/repo/src/source_stream/strish_iter_src_strm.rs 28-177", "/repo/src/text/chunk/pos_strish.rs 110-137, 331-353", "/repo/core/src/text/iter.rs 123-152", "/repo/src/text/vec.rs 113-140", "/repo/core/src/text/premade/datum_list.rs 153-182", "/repo/src/common/stream.rs 151-161"]}
{"id": "C65", "title": "Which strings of a streamed source stay referred to", "statement": "After any number of calls of next on a StrishIterSourceStream, also such that return errors, unless all was read, the stream itself refers, besides what is still in the user's iterator, to at most two nonempty strings: of all the strings taken from the iterator only the last ones, and every character that is left to read is in those or still in the iterator. All others are referred to only by returned texts that have characters of them. So a long stream can be parsed in memory bounded by its strings and its results. (When the end of the input is an error inside of a text, the stream keeps on referring to all strings of that text.)", "quantifier": "all lists of strings, also empty ones, all classifiers, all combiners that keep to parts of the source, any number of calls of next, any allocator, also if it fails", "why_tests_cant": "a reference that is kept too long changes no result; how many there are depends on where texts end against the ends of strings", "anchors": ["/repo/core/src/lib.rs: parse_text 361-446", "/repo/src/source_stream/strish_iter_src_strm.rs 28-177", "/repo/src/text/chunk/pos_strish.rs 110-137, 331-353"]}
{"id": "C66", "title": "Dropping what a parser returned, and bare references", "statement": "Dropping any number of results of a parser (datums held by value, whose references are DatumBox, DatumRc or DatumArc, and errors) ends, frees all memory that nothing else refers to once, drops all values once, and changes nothing that other references reach. For boxes, and for counted references without sharing, drops of references nest at most two deep, however many, long and deeply nested the results are; with sharing the depth is bounded as in C45. For boxes the work is linear. Dropping a clone of the Rc or Arc in the public field of a DatumRc or DatumArc does the same as dropping the reference, one level deeper, although no Drop of the crate is called for it.", "quantifier": "all lists of results, all trees of boxes, all acyclic heaps with exact counts and any other references, weak references; DatumBox, DatumRc, DatumArc", "why_tests_cant": "leaks, double drops and the depth of the recursion depend on the shape and sharing of unboundedly large data", "anchors": ["/repo/core/src/datum.rs 17-46", "/repo/core/src/lib.rs 244-271", "/repo/src/datum.rs 22, 61, 93", "/repo/src/drop.rs 88-302, 323-341, 365-401, 429-458, 489-551"]}
{"id": "C67", "title": "Dropping boxes when extras hold boxes themselves", "statement": "When the values of Extra (or Text), whose types users choose, hold DatumBoxes themselves, dropping a DatumBox still ends, frees all memory once and drops all values once. Drops nest at most two deep for every level of trees in values of leaves of trees. Unlike without such values (C33) there is no constant bound: a value in a box in a value and so on recurses as deep as that goes.", "quantifier": "all trees of boxes with any boxes in the values of their leaves", "why_tests_cant": "leaks, double drops and the depth of the recursion depend on the shape of unboundedly large data", "anchors": ["/repo/core/src/datum.rs 17-46", "/repo/src/datum.rs 22", "/repo/src/drop.rs 88-302, 323-341"]}
{"id": "C68", "title": "Streams of characters with any converter of strings", "statement": "The converter given to CharIterSourceStream::new (any Fn(String) -> R, also one that keeps a state such as an interner) is given exactly the accumulated strings, each once and never an empty one; during a parse these are non-empty parts of the source, apart from each other and in order, whatever is bound. In a parse without errors of a source of which nothing is bound, with TextVec, it is called once for each non-empty chunk of the texts returned, in their order, and each chunk is all of the string the call returned. If it keeps the contents, as all of to_rc_box_str, to_rc_string, to_rc_str, to_arc_box_str, to_arc_string and to_arc_str do, everything returned is the same as with any other such. If it changes them and nothing is bound, the same items are returned with the parts of the texts converted, at the positions of the parts.", "quantifier": "all converters, inputs, sequences of calls, bindings, classifiers and types of texts", "why_tests_cant": "the converter is an arbitrary closure with state and inputs are unbounded", "anchors": ["/repo/src/source_stream/char_iter_src_strm.rs 22-86, 110-218"]}
{"id": "C69", "title": "Collaborators that panic instead of reporting failed allocations", "statement": "When something that may return AllocError to the parser (next_accum or accum_done of the stream, for instance the converter of a CharIterSourceStream inside of accum_done; concat of the texts; new_datum of the allocator) panics instead and the caller of next catches it, the call has had the same effects on the source and the allocator as if the error had been returned, and it panics exactly where that one returns FailedAlloc; only the nesting depth is not restored. So panics outside of nest forms are as harmless as the error, in any number of calls; a panic while a text outside of them is read leaves the depth as it was, and one while a nest form is read leaves it greater than it was (if combiners remove no forms), so that the end of that form is taken for the end of the iteration. Nothing else panics if the collaborators obey their contracts otherwise, also after any number of panics, which raise the depth by no more than the number of characters read. A converter that panics is given each part of the source at most once, in order, and the call has read exactly up to the end of that part: only that part is lost from the source.", "quantifier": "all collaborators, states, depths, sources, classifiers and bindings; all sequences of calls with panics caught; all converters, with state", "why_tests_cant": "relates two runs of the parser for arbitrary collaborators and unbounded histories", "anchors": ["/repo/core/src/lib.rs: parse_next 308-358 (the depth is decremented only when parse_nested returns)", "/repo/core/src/lib.rs: SourceStream 164-195", "/repo/src/source_stream/char_iter_src_strm.rs: accum_done 208-218"]}
