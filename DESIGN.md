# Formal model of kul: design

Everything is in `rocq/theories` (Coq 8.16.1, logical root `Verif`).  `/repo` is
only read.  File layout:

* `Model/*`   - function-by-function model of the Rust code (no proofs).
* `Spec/*`    - small, separate specifications (grammar, abstract stream, ...).
* `Proofs/*`  - lemmas.
* `Properties/*` - the theorems claimed in `MANIFEST.json`, each with a concrete
  example next to it, and `Print Assumptions`.

## Modelling conventions

* A Rust function that may return `Err`, panic or (because Coq wants fuel) run
  out of fuel returns `res E X := Ok x | Err e | Panic | OutOfFuel`.  `Panic`
  stands for every `panic!`, `debug_assert!`, `unreachable!`, `unwrap`,
  out-of-range slice and counter overflow.  Theorems show `Panic` and
  `OutOfFuel` do not happen.
* `&mut` arguments are state passed in and out (also on `Err`).
* Owned references to datums (`Box`, `&mut` slot, fresh `Rc`) have value
  semantics in the parser model: the child datum itself.  Allocation still is an
  explicit, possibly failing call on an allocator state.  In-place construction
  over real slots and `Rc` heaps are modelled separately (C41, C36, C60).
* The parser is written once, over records of operations for source streams,
  texts and allocators (the Rust traits).  Records contain operations only, no
  laws; laws are explicit hypotheses of theorems and proved of every provided
  implementation.
* Combiners (`Fn` closures) are arbitrary functions of operator, operands and
  allocator state, returning a result and a new state.  The allocator state type
  is arbitrary, so it can include whatever else closures mutate.
* Characters are natural numbers (`N`), Unicode scalar values where that
  matters.  A `str` is the list of its characters; byte offsets are computed with
  `len_utf8`, and slicing at a non-boundary is a `Panic`.
* Rust iterators given by the user (`Iterator<Item = char>` etc.) are finite
  lists, except in C48, where they may be infinite or not fused.
* `usize` counters of the parser (`ndepth`, `nest_level`) are `N` with an
  overflow check at 2^64-1.

## Plan per property

| id | what is modelled | how it is proved |
|----|------------------|------------------|
| C01 | the four parser functions, fuelled, over any lawful stream | Hoare-style invariant by induction on the number of remaining characters; fuel linear in it suffices |
| C02 | same, `Panic` explicit | same invariant |
| C03 | parser over abstract stream; inductive grammar in `Spec/Grammar.v` | induction on fuel; transferred to all streams by simulation |
| C04 | same | induction on the derivation |
| C05 | renderer in `Spec/` | the rendering is derivable in the grammar; C04 |
| C06 | escaping function | C04 |
| C07, C08 | a counter over unescaped delimiters in `Spec/` | invariant: parsing a form does not change the counter's verdict |
| C09, C10 | iterator state after each call | invariant of C01 plus abstract equality of runs |
| C11 | predicate on datums | induction over the grammar / fuel |
| C12-C14 | grammar rules for bound operators | soundness + completeness of the grammar; explicit theorems |
| C15 | parser with failing combiners | trace-carrying world state, induction on fuel |
| C16 | each stream implementation | forward simulation to the abstract stream (remaining items, pending items) |
| C17, C18 | parser over each stream | relational parametricity theorem of the generic parser |
| C19, C20 | `PosStr`, `PosStrish`, slicing | representation invariants |
| C21, C22 | `TextVec`, `TextDatumList`, generic `Text` methods | induction |
| C23 | UTF-8 encoder, decoder, `encode_utf8` loop | induction, arithmetic |
| C24, C25 | `eq` as loop + recursion, with depth count | induction on trees |
| C26 | hash stream, the three binding types | consistency lemma |
| C27 | slice allocator | induction on requests |
| C28 | generic parser over failing allocator | lenient simulation |
| C29 | allocation counting | simulation with counting world |
| C30 | `get_mut` results | invariant |
| C31, C32 | `collect_up_to_first_err`, `parse_text_with` with `take_while` semantics | induction; C32 is refuted by a witness |
| C33-C35 | `drop::algo1` on trees, taking-over decided by an oracle | potential function; C35 is refuted for every depth |
| C36 | `algo1` on a reference-counted heap | counting invariant |
| C45 | recursion depth of the same | the number of references to shared branches as a potential |
| C46 | `algo1` on atomically counted datums, threads interleaved at atomic steps | tokens for what each thread owns, frame rule, global invariant |
| C37 | default classifier | case analysis |
| C38, C39 | parser, grammar | induction over derivations |
| C40 | iterating a parsed text | C16 |
| C41 | slot heap, tail pointer loop | loop invariant |
| C42 | call-depth instrumented parser | induction on fuel |
| C43 | look-ahead state of the streams, explicit `Peekable` | structural invariant of the parser's functions, then grammar |
| C44 | parser, `parse_str_with` | grammar of the prefix, continuation lemma, simulation under moved positions |
| C47 | parser with counting collaborators | potential of eleven per unread item, induction on fuel; simulation with the plain parser |
| C48 | both iterator streams over any step function | locality: simulation with a budget of remaining steps, through a sequence with a counter; C43 for forms |
| C49 | `==` of texts, datums, errors and results of different types | specification of `Text::eq` by characters for two contracts; the simulations of C17, C18, C28 with the relation weakened to `==` |
| C50 | `algo1` with its operations counted | potential (eleven per branch; a phase per branch freed for counted references); a family of lists for the lower bound |
| C51 | derived `Hash` and `Clone` with their recursion depth | induction on datums; grammar completeness (C04) for the source |
| C52 | programs of operations on `DatumRc`/`DatumArc` variables | invariant over operations; refinement to a store where each variable has its own tree |
| C53 | parser with any two classifiers; `CustomClassifier.v` | simulation of both parsers with one whose characters are sets of classes |
| C54 | `ExampleLang.v`, `Numeral.v` | the examples' bindings simulate bindings over characters; induction over the grammar with these; simulation with an allocator that only counts |
| C55 | `Reparse.v` | induction over the grammar: a form of a re-parsing operative is the form of an unbound operator; simulation for concrete texts |
| C56 | `Spec/Unclosed.v`: derivations for sources that end inside a nest form, and for runs over errors | soundness from the parser's Hoare-style specification; completeness by induction on derivations; uniqueness and totality from both |
| C57 | `Spec/Pieces.v`: parts of the source, as long as possible | invariant of `parse_text`: what is dropped (an escape) separates the chunks before and after it |
| C58 | `Model/TextWork.v` (steps counted, vectors with capacities), `Spec/TextWork.v` | potential of the texts built so far; simulation of the plain run by the counting one; `C57` for the lower bound; with errors and combiners the potential of a text is at most what its items allow |
| C59 | `Model/Unwind.v`, `Spec/Unwind.v` (`caught_run`) | comparison with the parser without unwinding; the abstract parser on forms, at any depth; simulation |
| C60 | `Model/RcParser.v`, `Spec/RcParser.v` (`moves`) | simulation of the parser on trees, with an invariant of who owns which references; C36 for the drops |
| C61 | `Model/PanicIter.v`, `Spec/Interrupt.v` (`panic_contract`, `cut`, `resumed`) | simulation by the parser over a source that ends where the panic is, whose end state shows where the call is; then resuming |
| C62 | `Model/RcUnwind.v`, `Spec/RcUnwind.v` (`ru_called`, `unw_called`) | the simulation of C60 for the parser that drops its locals also on panics |
| C63 | `Model/ArcParser.v`, `Spec/ArcParser.v` (`th_step`, `c_step`, `told`) | each thread's task is safe whatever others do that keeps what its references reach (rely and guarantee); the simulation of C62 for tasks; the invariant of C46 for the memory and the drops |
| C64 | `Spec/Pieces.v` (`pieces_of`, `made_of_ranges`) | the stream's accumulation is always composed of parts that cannot be joined; a dropped escape or the end of a chunk separates parts; concatenation appends chunks only |
| C65 | `Spec/Held.v` (`stream_strs`) | the same run, with the invariant that the stream holds consecutive strings, the last of those taken from the iterator |
| C66 | `Spec/DropValues.v` (`all_contents`, `let_go`), `Spec/Drops.v` (`released`) | one drop after another, each with an invariant that bounds depth and fuel of the next |
| C67 | `Spec/DropExtras.v` (`level`, `everything`) | the drop with values is the drop without them in which the drop of each value is expanded; induction on levels |
| C68 | `Spec/Convert.v` (`noting`, `parts_of`, `converted`) | simulations between streams with and without a converter, and of a stream with itself under an invariant of the notes |
| C69 | `Spec/Reported.v` (`reporting_stream` etc., `caught_calls`, `caught_outside`, `unread`) | a relation between the runs with a panic and with an error, which holds at each step, also for invariants of the stream and the texts; with the safety of C02 at any depth, and a bound of the depth after a panic by the characters read |

## Trusted base

* The kernel of Coq 8.16.1 (with its `vm_compute` machine), which checks every
  theorem.
* Axioms: `Print Assumptions` follows every theorem named in `MANIFEST.json` (in
  the same `Properties/*.v` file) and prints "Closed under the global context" for
  each of them.  No theorem depends on any axiom, not even one of the standard
  library.  (`coqchk` on the whole build also lists the axioms of library modules
  that happen to be loaded, such as `Coq.ssr.ssrunder`; nothing here uses them.)
* That the definitions in `Model/*` say what the Rust code does.  Each cites the
  file and the lines it models and states its simplifications.  `Tests/*` checks
  the model against the literal inputs and results of the repository's own tests
  (`shared_tests`, unit tests); these are tests, not proofs.
* That the statements in `Properties/*`, with the vocabulary of `Spec/*`, say what
  the English in `properties.jsonl` says.
* The documented behaviour of the standard library where it is modelled:
  `char::len_utf8`, `encode_utf8`, `str::from_utf8`, slicing of `str`,
  `char_indices`, `Peekable`, `Iterator::{eq, cmp, take_while}`, `Vec`,
  `Option`, `HashMap` lookup and insertion, `Rc`/`Arc` counts (`try_unwrap`,
  `get_mut`, drop, weak references), `#[derive(Hash)]`, `char::is_whitespace`,
  `i128::from_str`, collecting into a `Result`.

## What is modelled

| code | model | remarks |
|------|-------|---------|
| core/src/lib.rs 200-590 (parser, `ParseIter`) | `Parser.v`, `Iter.v`; with call stack `Stack.v`; over explicit slots `SlotHeap.v` | all functions |
| core/src/lib.rs 119-195, core/src/parser.rs, core/src/text.rs (traits) | records of operations in `Parser.v`, `Chunk.v` | laws are hypotheses (`Spec/Contract.v`, `Spec/ChunkContract.v`), proved of every implementation in the crates |
| core/src/text.rs 164-245 (`eq`, `cmp`, `hash`, `encode_utf8`) | `TextMethods.v`, `Utf8.v` | |
| core/src/datum.rs (`Datum`, `eq`, derived `Hash` and `Clone`) | `Prelude.v`, `DatumMethods.v`, `DatumStack.v` | `Copy`, `Debug` not |
| core/src/error.rs (`Error`, `eq`) | `Prelude.v`, `DatumMethods.v` | |
| `==` between different types (`TextVec`, `TextDatumList`, `StrPos`, `CharPos`), and of results | `Equal.v` | |
| core/src/combiner.rs, empty_bindings.rs, pair_bindings.rs, src/parser/hashmap_bindings.rs | `Parser.v` (`bindings`), `Bindings.v` | the hash table is a list of entries found by equal hash and `==` |
| default_classifier.rs | `DefaultClassifier.v` | |
| examples/non_default_delimiters.rs 11-29, 45-50 | `CustomClassifier.v` | the rest of its `main`, which prints, not |
| examples/common_basic.rs 26-110, core/examples/stack_only.rs 70-187 (`with_extensions`) | `ExampleLang.v`, `Numeral.v` | the clock is any function that changes a state |
| the parser with `RcDatumAllocator` or `ArcDatumAllocator`, on counted memory | `RcParser.v`; with panics `RcUnwind.v`; in atomic steps, with other threads, `ArcParser.v` | `RcParser.v` and `RcUnwind.v`: one thread; `ArcParser.v`: combiners are anything that the rest of the program can do, a lookup is one step |
| the parser when combiners panic and the caller catches it | `Unwind.v`; what unwinding drops `RcUnwind.v` | user-defined allocators' drops not |
| a user's operative that calls `Parser::parse` on its operands (core/src/parser.rs 117-126) | `Reparse.v` | not in the repository; a program that uses it as documented |
| slice_alloc.rs, box_alloc.rs, rc_alloc.rs, arc_alloc.rs, mutref.rs, src/datum.rs | `Alloc.v`, `SlotHeap.v` | heap exhaustion (an abort) not |
| core/src/text/iter.rs, text/iter/chunks.rs | `TextIter.v`, `Chunk.v` | |
| pos_str.rs | `PosStr.v` | |
| pos_strish.rs | `PosStrish.v` | the reference-counted string is its immutable contents; the six string types are one |
| src/text/vec.rs | `TextVec.v` | its work in `TextWork.v` |
| core/src/text/premade/datum_list.rs | `TextDatumList.v` | explicit slots in `SlotHeap.v`, its work in `TextWork.v` |
| char_iter_src_strm.rs, strish_iter_src_strm.rs | `CharIter.v`, `CharConvert.v`, `StrishIter.v`; `UserIter.v` | in the first two, user iterators are finite lists; `UserIter.v` has any iterator, and C48 relates them.  `std::iter::Peekable` has a look-ahead cell.  Iterators that panic are in `PanicIter.v`, converters that panic in `CharConvert.v` |
| src/common/{helper,inmem,stream}.rs, core/src/premade/inmem.rs | `Premade.v`, `Iter.v` | |
| src/drop.rs | `Drop.v` (generic `algo1`, boxes), `DropShared.v` (other owners as an oracle), `DropRc.v` (counted heap), `DropArc.v` (counted heap used by many threads), `DropCost.v` (the first three with a counter of operations), `RcProgram.v` (programs over counted references in variables), `DropValue.v` (datums held by value, bare `Rc`s and `Arc`s) | texts and extras that hold datum references themselves are covered for boxes only (`DropExtra.v`); no concurrent change of the counts in `DropRc.v` (that is `DropArc.v`, with sequentially consistent memory) |

Not modelled: `Debug`/`Display` output, `Copy`/`Default` of the types and `Clone` of all but datums, the
memory that the conversion functions `to_rc_str` etc. use (they keep the contents, `CharConvert.v`), lifetimes and
borrowing (taken as checked by the compiler), what the examples print, the test code,
weak memory orders (threads are interleaved at atomic steps, in `DropArc.v` and `ArcParser.v` only), and memory exhaustion of the global allocator.

## How the statements are made

* `Spec/Lawful.v`: `lawful F view so co ao bnd abnd ...` bundles the contracts of a
  stream, text type and allocator and says that the bindings `bnd` behave as the
  abstract bindings `abnd`, which see texts as lists of characters with positions.
  `starts_on` relates a parser state to the characters still to be read.  All
  premade parsers are shown to be instances (`Proofs/Instances.v`,
  `Proofs/PremadeFacts.v`).
* `Spec/Grammar.v`, `Spec/Outcome.v`: the abstract grammar (`nest`, `forms`,
  `lead`, ...) and the abstract outcome of a parse, over lists of characters.
* `Spec/Inside.v`: one form occurs in another at any depth.
* `Spec/Run.v`, `Spec/Calls.v`, `Spec/History.v`, `Spec/Trace.v`: histories of
  calls of `next` and of the operations of a stream.
* `Spec/Memory.v`, `Spec/Slices.v`: memory used, and where texts come from.
* `Spec/SlotHeap.v`: reading a datum back from slots, `bindings_slots` (combiners
  own the slots of their arguments, may overwrite them and allocate).
* `Spec/Drops.v`: what has to be freed and dropped.
* `Spec/Threads.v`: programs whose threads use and drop datums, step by step.
* `Spec/ArcParser.v`: the same with threads that parse.
* `Spec/Cost.v`: collaborators of the parser that count their calls.
* `Spec/Numeral.v`, `Spec/Extended.v`: decimal numerals, and the examples' notation.
* `Spec/Interrupt.v`: sources that panic in between, and where in a form a call is then.
* `Spec/UserIter.v`: what an iterator returns to each of its calls.
* `Spec/Nesting.v`, `Spec/Spacing.v`, `Spec/Kept.v`, `Spec/Render.v`,
  `Spec/Canonical.v`, `Spec/Balance.v`: one-purpose descriptions of sources.

Combiners are arbitrary total functions: one that does not return is outside the
model, and one that panics is in it in `Model/Unwind.v` only.

## Findings about the code

* C32: the documentation of `parse_str`, `parse_stream` and `parse_text_with` says
  that parsing is aborted at the first error.  The loop calls `next` exactly once
  more after an error (the `take_while` closure sees the next item before it
  stops), so more input is consumed, combiners can be called, and memory used.
  Refuted with witnesses; what does happen is proved (`C32_one_more`).
* C35: the documentation of the drop algorithm for `Rc`/`Arc` says the stack does
  not grow.  It does for a list with a unique spine all of whose elements are
  references to one shared branch: the recursion depth is the number of elements.
  Refuted for every bound.  The box version is fine (C33).  The run time is at most quadratic (C34).
  What does hold is that the depth is at most two more than the number of references
  to shared branches in what is freed, so that unshared data needs a depth of two (C45).
* C61: a panic of the user's iterator that is caught outside of `next` is harmless between
  forms.  Inside a text it is harmless only if more plain text follows directly:
  the parser's own state of a call is lost, and what the stream has accumulated is taken up by the
  next text or dropped.  So `a!{q x}` (with `!` a panic) loses the text `a`, `a\b!c` loses `a`, after `a\!{q x}` the
  escaped `{` is a real one, and inside a nest form the depth stays raised as in C59.
* C65: when a nested text ends without its end delimiter (`MissingEndChar` at the end of
  the input), a `StrishIterSourceStream` keeps the unfinished accumulation, and so
  the strings of it, until it is dropped: later calls return `None` without clearing it (`C65_after_error`).
* C67: the constant stack use of dropping (C33) holds only when `Extra` and `Text` values do
  not own datum references. A box in an extra in a box and so on is dropped recursively, as
  deep as the nesting goes (`C67_refuted`).
* C69: a panic of a collaborator inside of a nest form (for instance of the converter given to
  `CharIterSourceStream::new`), caught by the caller, leaves the depth raised, because `*ndepth -= 1`
  (core/src/lib.rs 337) is not done while unwinding. The end of that form is then taken for the end of the iteration
  (`C69_case_inside`). This is as for combiners (C59) and iterators (C61).
* C59: a panic of a combiner that is caught outside of `next` leaves the nesting depth
  as it was inside (`*ndepth -= 1` is not done when unwinding), so that the same
  `ParseIter` then either returns `MissingEndChar` without end or stops at the next
  unmatched end delimiter without reading on.  A new `ParseIter` is fine.
* C58: `TextDatumList::concat` walks the list from its start each time, so that a text
  with k escapes takes k(k-1)/2 steps.  `TextVec` does not have this.
* C50: dropping `Rc` or `Arc` data can take quadratic time.  `algo1` walks a list to
  its end, turns round, and breaks off at the first pair of branches neither of which it
  can take; the recursion then starts over with the rest.  A list of n cells whose
  elements are branches shared with others is thus walked n times, which takes at
  least 2 n (n + 1) operations.  Boxes, and counted references to unshared data, take at
  most eleven per branch.
* C51: `==` is written so that long lists do not make it recurse, but `Hash` and `Clone` are
  derived and recurse for each element of a list.  `HashMapOperatorBindings` hashes each
  operator, so a flat source with a long operator form can overflow the stack although the
  parser and `==` would not.
* C46: the documentation of the drop algorithm describes a race when another thread
  drops the last other reference after `try_unwrap` failed, and says that this is
  not proven to be fine.  It is, apart from the recursion depth: proved for all interleavings.
* C02: the parser does not panic with any classifier, also one whose classes
  overlap.  Sources longer than `usize::MAX` are needed for the counter overflow.
  Chunks of type `PosStr` with an inconsistent position, which safe user code
  can build, can panic.
* C03: an escape character at the end of the source is dropped without an error,
  and can give an empty text as the last item.  The text directly before an
  unmatched nest end is dropped.
* C15/C07: combiners can return `MissingEndChar` and `UnbalancedEndChar`
  themselves; theorems about the parser's own errors exclude this where needed.
* C25: `==` does not recurse for long lists and deep operators, but each operand
  nesting costs two frames.
* C26: hashing a text feeds no terminator, so different datums can feed the same
  bytes.  Harmless for lookup, which also compares.
* C27: after one failed request the slice allocator has lost the remaining slots
  (`unused` gives `None`); for an empty slice already at the first request.
* C38: whitespace after a nest start is insignificant only if no operative is
  bound, since operatives get their source text.
* C42: at most 3 frames per level of nesting of the source plus 3, attained.
* C48: an iterator of characters that returns `None` and later goes on is taken as ended,
  except directly after an escape character: there the parser asks again, and the text goes
  on with what comes then (`C48_not_fused`).  With an iterator of strings the parser
  asks again at each `next`, so items can follow a `None`.  An iterator that returns
  empty strings without end makes `next` loop (`C48_strings_endless`).

* C54: `core/examples/stack_only.rs` collects the characters of an integer in a buffer of
  39 bytes, enough for all digits of an `i128` but not for its sign too.  The integers from `i128::MIN`
  to -10^38 give `TooLong`, and no source gives them.  `examples/common_basic.rs`, with a
  `String`, reads them.  (`from_str` does not trim: `{int  4}` with two spaces is `Oops`.)
* C55: an operative that "further parses" its operands, as `lookup` documents, is given
  them without their escape characters.  So what was escaped is not when it parses them:
  `{k \{}` gives `MissingEndChar` and `{k \{a\}}` has a nest form as its operand, where an operator that is not bound
  has a text.  Without escape characters nothing is lost, positions included.

## Wrong programs

`seeded/LOG.jsonl` records deliberate edits of the model, each rebuilt in a
scratch copy: the theorems that failed, and those that were tightened because they
did not.  A theorem counts as failed if its own proof or any lemma it uses fails.
