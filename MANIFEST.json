{"claims": [
  {"property": "C01", "status": "proved", "theorems": ["C01_next_returns", "C01_fused", "C01_parse_str", "C01_parse_stream", "C01_parse_chars", "C01_parse_text"], "note": "For any stream, concatenation and allocator meeting their contracts and for arbitrary bindings; the combiners are total functions in the model."},
  {"property": "C02", "status": "proved", "theorems": ["C02_no_panic", "C01_parse_str", "C01_parse_stream", "C01_parse_chars", "C01_parse_text"], "note": "As C01; needs the number of characters to be at most usize::MAX."},
  {"property": "C03", "status": "proved", "theorems": ["C03_sound", "C03_unambiguous", "C03_parse_str", "C03_reads_functional"], "note": "Soundness with respect to the grammar in Spec/Grammar.v. Generic over any lawful configuration (Spec/Lawful.v: stream, concatenation and allocator obey their contracts, bindings see texts only through characters and positions; shown of all provided implementations in Proofs/Instances.v and PremadeFacts.v), with a corollary for parse_str(_with)."},
  {"property": "C04", "status": "proved", "theorems": ["C04_complete", "C04_parse_str"], "note": "Completeness with respect to the grammar. Generic over any lawful configuration (Spec/Lawful.v: stream, concatenation and allocator obey their contracts, bindings see texts only through characters and positions; shown of all provided implementations in Proofs/Instances.v and PremadeFacts.v), with a corollary for parse_str(_with)."},
  {"property": "C05", "status": "proved", "theorems": ["C05_round_trip", "C05_parse_str"], "note": "Canonical sequences of datums and their rendering are defined in Spec/Canonical.v and Spec/Render.v. Generic over any lawful configuration (Spec/Lawful.v: stream, concatenation and allocator obey their contracts, bindings see texts only through characters and positions; shown of all provided implementations in Proofs/Instances.v and PremadeFacts.v), with a corollary for parse_str(_with)."},
  {"property": "C06", "status": "proved", "theorems": ["C06_escaped", "C06_parse_str"], "note": "The generic theorem holds with any bindings. Generic over any lawful configuration (Spec/Lawful.v: stream, concatenation and allocator obey their contracts, bindings see texts only through characters and positions; shown of all provided implementations in Proofs/Instances.v and PremadeFacts.v), with a corollary for parse_str(_with)."},
  {"property": "C07", "status": "proved", "theorems": ["C07_errors_iff_unbalanced", "C07_parse_str"], "note": "Balance is decided by a counter over unescaped delimiters (Spec/Balance.v). Generic over any lawful configuration (Spec/Lawful.v: stream, concatenation and allocator obey their contracts, bindings see texts only through characters and positions; shown of all provided implementations in Proofs/Instances.v and PremadeFacts.v), with a corollary for parse_str(_with)."},
  {"property": "C08", "status": "proved", "theorems": ["C08_position", "C07_parse_str"], "note": "The offending character is described without the counter: the unescaped nest end before which everything is balanced. Generic over any lawful configuration (Spec/Lawful.v: stream, concatenation and allocator obey their contracts, bindings see texts only through characters and positions; shown of all provided implementations in Proofs/Instances.v and PremadeFacts.v), with a corollary for parse_str(_with)."},
  {"property": "C09", "status": "proved", "theorems": ["C09_resumes", "C09_afresh"], "note": "For every lawful configuration (Spec/Lawful.v; the premade parsers are such, Proofs/Instances.v) with bindings whose combiners see texts through their characters and positions, and a classifier with disjoint classes. Combiners that themselves return UnbalancedEndChar with this position are excluded."},
  {"property": "C10", "status": "proved", "theorems": ["C10_clean_between_forms"], "note": "For any stream, concatenation and allocator (also failing) meeting their contracts and for arbitrary bindings."},
  {"property": "C11", "status": "proved", "theorems": ["C11_canonical", "C11_parse_str"], "note": "An input ending in an escape character can yield one empty text as last top-level item; the statement includes this. Generic over any lawful configuration (Spec/Lawful.v: stream, concatenation and allocator obey their contracts, bindings see texts only through characters and positions; shown of all provided implementations in Proofs/Instances.v and PremadeFacts.v), with a corollary for parse_str(_with)."},
  {"property": "C12", "status": "proved", "theorems": ["C12_operative", "C12_nested", "C12_called_once"], "note": "For every lawful configuration (Spec/Lawful.v; the premade parsers are such, Proofs/Instances.v) with bindings whose combiners see texts through their characters and positions, and a classifier with disjoint classes. C12_called_once: with bindings that log their calls. C12_nested, C12_called_once: at any depth of a form (Spec/Inside.v)."},
  {"property": "C13", "status": "proved", "theorems": ["C13_applicative", "C13_nested", "C13_called_once"], "note": "For every lawful configuration (Spec/Lawful.v; the premade parsers are such, Proofs/Instances.v) with bindings whose combiners see texts through their characters and positions, and a classifier with disjoint classes. The bound and the unbound form have the same operands, as characters with their positions, and the same combiners' state after the operator. C13_nested, C13_called_once: at any depth of a form (Spec/Inside.v)."},
  {"property": "C14", "status": "proved", "theorems": ["C14_removed", "C14_operator", "C14_operand", "C14_nested"], "note": "For every lawful configuration (Spec/Lawful.v; the premade parsers are such, Proofs/Instances.v) with bindings whose combiners see texts through their characters and positions, and a classifier with disjoint classes.  C14_removed: between any sources; C14_operator: before an operator; C14_operand: among operands; C14_nested: at any depth of a form (Spec/Inside.v)."},
  {"property": "C15", "status": "proved", "theorems": ["C15_returned", "C15_first_error", "C15_last_call"], "note": "For every lawful configuration (Spec/Lawful.v; the premade parsers are such, Proofs/Instances.v) with bindings whose combiners see texts through their characters and positions, and a classifier with disjoint classes. C15_last_call: with bindings that log their calls."},
  {"property": "C16", "status": "proved", "theorems": ["C16_text", "C16_str", "C16_chars", "C16_strings", "C16_failing", "C16_slots"], "note": "Any sequence of calls; C16_failing and C16_slots cover allocation that fails."},
  {"property": "C17", "status": "proved", "theorems": ["C17_chunking", "C17_no_bindings"], "note": "Bindings are any that treat texts with equal characters and positions alike."},
  {"property": "C18", "status": "proved", "theorems": ["C18_str_strings", "C18_strings_chars", "C18_no_bindings"], "note": "Bindings are any that treat texts with equal characters and positions alike."},
  {"property": "C19", "status": "proved", "theorems": ["C19_str", "C19_no_bindings", "C19_text", "C19_calls"], "note": "Combiners are any that return texts made of slices when given such."},
  {"property": "C20", "status": "proved", "theorems": ["C20_strings", "C20_chars", "C20_calls_strings", "C20_calls_chars", "C20_slice"], "note": "Combiners are any that return texts made of ranges when given such."},
  {"property": "C21", "status": "proved", "theorems": ["C21_eq", "C21_cmp", "C21_total", "C21_cmp_eq", "C21_order", "C21_antisym", "C21_hash"], "note": "For all texts over all chunk and text types that meet their contracts (the three types of the crates do: posstr_any_contract, posstrish_any_contract, tvec_contract, tdl_contract), also of different types. n bounds the steps of the comparison loop."},
  {"property": "C22", "status": "proved", "theorems": ["C22_concat", "C22_vector", "C22_datum_list"], "note": "Any text type; vector texts; datum-list texts over any allocator."},
  {"property": "C23", "status": "proved", "theorems": ["C23_encode", "C23_decode"], "note": "All texts of Unicode scalar values, all buffers. The returned length is the number of bytes written. C23_decode: the model of str::from_utf8 accepts exactly the encodings of scalar values, so the bytes written are always a valid str."},
  {"property": "C24", "status": "proved", "theorems": ["C24_structural", "C24_characters", "C24_refl", "C24_sym", "C24_trans"], "note": ""},
  {"property": "C25", "status": "proved", "theorems": ["C25_depth", "C25_lists", "C25_operators", "C25_operands"], "note": "C25_operands shows that nests in operand position are not covered by the bound."},
  {"property": "C26", "status": "proved", "theorems": ["C26_hash", "C26_hashmap", "C26_hashmap_none", "C26_agree", "C26_same", "C26_pairs"], "note": "The standard HashMap is modelled as a list of entries that are found by hash and equality."},
  {"property": "C27", "status": "proved", "theorems": ["C27_requests", "C27_slot"], "note": "Any slots and any sequence of requests: answers, memory and unused slots after them."},
  {"property": "C28", "status": "proved", "theorems": ["C28_cut_off", "C28_text", "C28_reported", "C28_reported_vec", "C28_reported_slice", "C28_more", "C28_more_vec", "C28_more_slots"], "note": "Any two lawful configurations over the same characters, one of which may fail to allocate; failures reported for any allocator with a failure flag; more memory for any pair of allocators of which one is no worse. Combiners must return their own allocation failures."},
  {"property": "C29", "status": "proved", "theorems": ["C29_used", "C29_exact", "C29_vec_used", "C29_chars_used", "C29_strings_used", "C29_vec_exact", "C29_chars_exact", "C29_strings_exact"], "note": "For texts as lists of datums over the slice allocator (C29_exact is for the premade in-memory parser and every input in the language), and for vector texts, which take no slots, over the slice allocator and each of the three streams."},
  {"property": "C30", "status": "proved", "theorems": ["C30_mutable", "C30_box", "C30_rc", "C30_slice", "C30_str", "C30_strings", "C30_chars", "C30_text"], "note": "Any allocator whose fresh references can be mutated, any call history; Rc and Arc share one model with the counts of Rc::new."},
  {"property": "C31", "status": "proved", "theorems": ["C31_str", "C31_strings", "C31_chars", "C31_text", "C31_one_error"], "note": ""},
  {"property": "C32", "status": "proved", "theorems": ["C32_one_more", "C32_abort_str_refuted", "C32_abort_strings_refuted", "C32_abort_text_refuted"], "note": "The documented claim is false; refuted with witnesses for each function, and what does happen (exactly one more call of next) is proved."},
  {"property": "C33", "status": "proved", "theorems": ["C33_box"], "note": "For all trees; the call depth of two and two iterations per branch are enough; exact events as a permutation of the contents of the tree."},
  {"property": "C34", "status": "proved", "theorems": ["C34_shared"], "note": "The outcomes of all attempts to take over a datum, and of whether a reference is the last one, are an arbitrary oracle."},
  {"property": "C35", "status": "proved", "theorems": ["C35_refuted"], "note": "Refutation of the documented claim, for Rc and for Arc, for every bound."},
  {"property": "C36", "status": "proved", "theorems": ["C36_rc"], "note": "For Rc and Arc (used by one thread), with weak references; heaps without cycles."},
  {"property": "C37", "status": "proved", "theorems": ["C37_classes", "C37_disjoint"], "note": ""},
  {"property": "C38", "status": "proved", "theorems": ["C38_after_start", "C38_one_space", "C38_others_kept", "C38_parse_str"], "note": "Whitespace after nest starts: all lawful parsers whose bindings have no operatives (an operative gets the source text of its operands, so whitespace inside it is significant); errors included. Positions differ, so results are compared by characters or by any relation of positions."},
  {"property": "C39", "status": "proved", "theorems": ["C39_kept", "C39_parse_str"], "note": "The kept characters are given by a one-pass reader (Spec/Kept.v) that knows nothing about datums. Generic over any lawful configuration (Spec/Lawful.v: stream, concatenation and allocator obey their contracts, bindings see texts only through characters and positions; shown of all provided implementations in Proofs/Instances.v and PremadeFacts.v), with a corollary for parse_str(_with)."},
  {"property": "C40", "status": "proved", "theorems": ["C40_texts", "C40_operands", "C40_reparse", "C40_str"], "note": ""},
  {"property": "C41", "status": "proved", "theorems": ["C41_list", "C41_list_total", "C41_calls", "C41_calls_total", "C41_parse", "C41_exact", "C41_chunks"], "note": "The parser over explicit slots (Model/SlotHeap.v), which builds lists and chunk lists by overwriting slots, gives what the parser over trees gives: what it returns reads back, from the final memory, as the same trees, reaching no slot twice, and other slots are unchanged. For any streams, texts and combiners that obey the contracts stream_slots, concat_slots and bindings_slots (combiners own their arguments, may mutate these and may allocate), and instantiated for the no-heap premade parser over any slice."},
  {"property": "C42", "status": "proved", "theorems": ["C42_same_parser", "C42_frames", "C42_parse_str", "C42_attained"], "note": "Frames of parse_next, parse_nested, parse_all, parse_text, skip_whitespace, check_end_char and the end closure are counted by an instrumented parser (Model/Stack.v), shown to be the same parser; frames of the collaborators are not counted. The bound holds after any calls, including failed ones, and is attained for every depth."},
  {"property": "C43", "status": "proved", "theorems": ["C43_ahead", "C43_error", "C43_form", "C43_chars", "C43_chars_unmatched", "C43_chars_text", "C43_strings", "C43_strings_unmatched", "C43_strings_text"], "note": "C43_ahead/_error/_form hold for any stream that itself does not read ahead (reads_ahead, proved of both iterator-backed streams); the others say what the user iterator still holds."},
  {"property": "C44", "status": "proved", "theorems": ["C44_append", "C44_parse_str_with", "C44_parse_str"], "note": "For any lawful configuration, and for parse_str with and without bindings. The boundary conditions are shown necessary by examples (C44_needed)."},
  {"property": "C45", "status": "proved", "theorems": ["C45_depth", "C45_unshared", "C45_tight"], "note": "Positive companion of C35. C45_depth: two more than the number of references to further-referenced branches, held in datums that the other references do not reach, is a sufficient recursion depth, and the drop then does everything C36 says (released). C45_unshared: depth two when no branch below the reference is shared. C45_tight: the bound is within two of optimal for every size. Cases: two lists sharing a tail; a tree with a weak reference and a shared leaf."},
  {"property": "C46", "status": "proved", "theorems": ["C46_safe", "C46_others", "C46_once", "C46_complete", "C46_ends", "C46_finish", "C46_all_freed"], "note": "Interleaving semantics (Model/DropArc.v, Spec/Threads.v): a thread is a tree of atomic steps, other threads can step in between. Proved with a separation-logic-like token discipline and a frame rule. Memory is sequentially consistent; the exchange and read-out of try_unwrap are one step; get_mut reads the two counts in separate steps without the lock of the weak count. The condition `ample` in step_begin gives the model enough fuel, which is quadratic in the unfolded size. Case: two lists with a shared tail under an interleaving with the race of the documentation."},
  {"property": "C47", "status": "proved", "theorems": ["C47_linear", "C47_whole"], "note": "The parser is run with counting versions of its collaborators (Spec/Cost.v); the theorems also say that these give the same results as the plain ones. Only the stream has to obey its contract for C47_linear."},
  {"property": "C48", "status": "proved", "theorems": ["C48_chars_any", "C48_chars_finite", "C48_chars_from", "C48_chars_ended", "C48_chars_forms", "C48_strings_any", "C48_strings_finite", "C48_strings_from", "C48_strings_forms", "C48_strings_ended_refuted"], "note": "iterators are arbitrary step functions; the loops of the string stream are bounded by a parameter that any larger one can replace; C48_strings_ended_refuted is the negative half of the last sentence"},
  {"property": "C49", "status": "proved", "theorems": ["C49_error", "C49_error_equivalence", "C49_characters", "C49_symmetric", "C49_hash", "C49_transitive", "C49_streams", "C49_chars", "C49_str_stream", "C49_slots"], "note": "Errors: any two types of positions and combiner errors.  Datums: any two types of texts meeting the contract.  Results: the premade configurations, with bindings that treat the same texts alike (C17, C18, C28).  Error positions of a string and of a stream have different types and no == in the crate; there they are compared by character index."},
  {"property": "C50", "status": "proved", "theorems": ["C50_box", "C50_shared", "C50_rc", "C50_unshared", "C50_quadratic", "C50_refuted", "C50_counter"], "note": "Upper bounds for boxes, oracle-shared trees and counted heaps, linear for counted heaps without shared branches; C50_quadratic and C50_refuted show that no linear bound holds for Rc and Arc in general. C50_counter: counting changes nothing else."},
  {"property": "C51", "status": "proved", "theorems": ["C51_same_hash", "C51_hash_depth", "C51_clone_depth", "C51_clone_equal", "C51_lookup"], "note": ""},
  {"property": "C52", "status": "proved", "theorems": ["C52_safe", "C52_freed", "C52_values", "C52_one_value", "C52_exclusive", "C52_upgrade"], "note": "One thread; for many threads see C46."},
  {"property": "C53", "status": "proved", "theorems": ["C53_classes", "C53_bound", "C53_unbound", "C53_rewritten", "C53_custom"], "note": "C53_classes is for any lawful collaborators; the others are for in-memory strings; C53_custom is the classifier of examples/non_default_delimiters.rs."},
  {"property": "C54", "status": "proved", "theorems": ["C54_int", "C54_every_int", "C54_datums", "C54_stack_int", "C54_stack_datums", "C54_stack_every_int", "C54_stack_refuted", "C54_meaning", "C54_stack_meaning"], "note": "That stack_only reads all integers of 128 bits, as its int form suggests, is refuted: its buffer of 39 bytes is too small for -10^38 and below (C54_stack_refuted)."},
  {"property": "C55", "status": "proved", "theorems": ["C55_operative", "C55_transparent", "C55_escapes_refuted", "C55_unbalanced_refuted"], "note": "Proved for sources without escape characters and with balanced braces; that neither condition can be dropped is C55_escapes_refuted and C55_unbalanced_refuted."},
  {"property": "C56", "status": "proved", "theorems": ["C56_total", "C56_unique", "C56_sound", "C56_complete", "C56_parse_str_with"], "note": ""},
  {"property": "C57", "status": "proved", "theorems": ["C57_vec", "C57_list", "C57_chars", "C57_fewest", "C57_parse_str"], "note": ""},
  {"property": "C58", "status": "proved", "theorems": ["C58_list", "C58_list_exact", "C58_list_quadratic", "C58_vec", "C58_chars", "C58_strings", "C58_list_calls", "C58_vec_calls", "C58_chars_calls", "C58_strings_calls"], "note": "The bounds by the chunks that are returned: runs without errors, parsers without combiners. The bounds by the items read (the theorems named calls): any."},
  {"property": "C59", "status": "proved", "theorems": ["C59_same", "C59_total", "C59_stuck", "C59_complete", "C59_always", "C59_panic"], "note": ""},
  {"property": "C60", "status": "proved", "theorems": ["C60_next", "C60_no_leak", "C60_calls", "C60_calls_total", "C60_dropped", "C60_unbound", "C60_failed", "C60_restored", "C60_streams"], "note": ""},
  {"property": "C61", "status": "proved", "theorems": ["C61_panic", "C61_no_panic", "C61_return", "C61_ends", "C61_harmless", "C61_chars", "C61_strings", "C61_values_chars", "C61_values_strings", "C61_transparent_refuted"], "note": "that panics are always harmless is refuted (C61_transparent_refuted)"},
  {"property": "C62", "status": "proved", "theorems": ["C62_next", "C62_calls", "C62_calls_total", "C62_dropped", "C62_failed", "C62_restored", "C62_streams"], "note": "one thread"},
  {"property": "C63", "status": "proved", "theorems": ["C63_safe", "C63_safe_drops", "C63_write", "C63_result", "C63_others", "C63_keeps", "C63_once", "C63_complete", "C63_ends", "C63_finish", "C63_freed", "C63_enough", "C63_enough_str"], "note": "interleaving of atomic steps in one order; the weaker memory orders of Arc are not modelled"},
  {"property": "C64", "status": "proved", "theorems": ["C64_vec", "C64_list", "C64_fewest", "C64_strings", "C64_parse_stream", "C64_vec_calls", "C64_list_calls"], "note": ""},
  {"property": "C65", "status": "proved", "theorems": ["C65_strings", "C65_calls"], "note": "C65_calls also says of C64 for strings what C64_vec_calls says for texts"},
  {"property": "C66", "status": "proved", "theorems": ["C66_box", "C66_rc", "C66_depth", "C66_unshared", "C66_bare", "C66_bare_depth", "C66_bare_unshared"], "note": ""},
  {"property": "C67", "status": "proved", "theorems": ["C67_extras", "C67_refuted"], "note": "C67_refuted is the part about the missing constant bound"},
  {"property": "C68", "status": "proved", "theorems": ["C68_same", "C68_any", "C68_given", "C68_calls", "C68_each"], "note": ""},
  {"property": "C69", "status": "proved", "theorems": ["C69_next", "C69_outside", "C69_text", "C69_inside", "C69_end", "C69_only", "C69_panic_reported", "C69_raised", "C69_history", "C69_given", "C69_panics", "C69_converter", "C69_converter_history", "C69_converter_panics"], "note": "C69_inside is for combiners that do not remove forms."}
]}
