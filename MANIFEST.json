{
 "claims": [
  {
   "property": "C01",
   "status": "proved",
   "theorems": [
    "C01_from_vec"
   ],
   "note": ""
  },
  {
   "property": "C02",
   "status": "proved",
   "theorems": [
    "C02_iteration"
   ],
   "note": ""
  },
  {
   "property": "C03",
   "status": "proved",
   "theorems": [
    "C03_covers_span"
   ],
   "note": ""
  },
  {
   "property": "C04",
   "status": "proved",
   "theorems": [
    "C04_merge"
   ],
   "note": ""
  },
  {
   "property": "C05",
   "status": "proved",
   "theorems": [
    "C05_remove"
   ],
   "note": ""
  },
  {
   "property": "C06",
   "status": "partial",
   "theorems": [
    "C06_eq",
    "C06_order",
    "C06_cmp_eq_refuted"
   ],
   "note": "Equality and the total preorder are proved. The clause 'cmp = Equal only for equal spans' is false of the code: {0,2,3} vs {0,1,3} (refuted)."
  },
  {
   "property": "C07",
   "status": "proved",
   "theorems": [
    "C07_feature_map"
   ],
   "note": ""
  },
  {
   "property": "C08",
   "status": "proved",
   "theorems": [
    "C08_roundtrip",
    "C08_unrestricted_refuted"
   ],
   "note": "Proved for keys/values without '|' and ':' (an empty key is fine if it has a value); outside that class the round trip is refuted."
  },
  {
   "property": "C51",
   "status": "proved",
   "theorems": [
    "C51_label_set"
   ],
   "note": ""
  },
  {
   "property": "C09",
   "status": "partial",
   "theorems": [
    "C09_histories_partial",
    "C09_safe_exact",
    "C09_projective",
    "C09_all_histories_refuted"
   ],
   "note": "Every history of safe calls gives a well-formed tree, and a call on a well-formed tree keeps it well-formed exactly when it is safe (C09_safe_exact). The unguarded statement is false: remove_node on a terminal, insert_unary_* on a discontinuous node and some reattach_node calls break it (refuted)."
  },
  {
   "property": "C10",
   "status": "proved",
   "theorems": [
    "C10_push_terminal"
   ],
   "note": ""
  },
  {
   "property": "C11",
   "status": "proved",
   "theorems": [
    "C11_insert_terminal"
   ],
   "note": ""
  },
  {
   "property": "C12",
   "status": "partial",
   "theorems": [
    "C12_move_terminal_partial",
    "C12_nonterminal",
    "C12_panics_on_nonterminal_refuted"
   ],
   "note": "Everything about terminals is proved. The documented panic on nonterminals does not happen when the index equals the start of the node's span (refuted; C12_nonterminal is the exact behaviour)."
  },
  {
   "property": "C13",
   "status": "partial",
   "theorems": [
    "C13_above_partial",
    "C13_below_partial",
    "C13_below_terminal",
    "C13_gap_structure",
    "C13_projective_accurate_refuted"
   ],
   "note": "Proved for nodes without gap. On a discontinuous node the structure is right but num_discontinuous is not incremented, so is_projective() becomes wrong (refuted)."
  },
  {
   "property": "C14",
   "status": "proved",
   "theorems": [
    "C14_remove_inner",
    "C14_remove_root",
    "C14_dominance"
   ],
   "note": ""
  },
  {
   "property": "C15",
   "status": "partial",
   "theorems": [
    "C15_fails_iff",
    "C15_never_wellformed",
    "C15_positions_refuted"
   ],
   "note": "Failure condition and structural effect proved. Renumbering and recalculated spans are false of the code: a successful removal of a terminal never leaves a well-formed tree (universal theorem plus witness)."
  },
  {
   "property": "C16",
   "status": "partial",
   "theorems": [
    "C16_fails",
    "C16_reattach_partial",
    "C16_guard_exact",
    "C16_accurate_refuted"
   ],
   "note": "Full statement proved when the new parent is an ancestor or descendant of the old parent and not below the moved node; in all other successful cases the result is provably not well-formed."
  },
  {
   "property": "C17",
   "status": "partial",
   "theorems": [
    "C17_inert",
    "C17_remove",
    "C17_absent_none_refuted"
   ],
   "note": "Inertness proved for every sequence of secondary-edge operations. remove_secondary_edge panics on an absent edge although None is documented (refuted)."
  },
  {
   "property": "C18",
   "status": "partial",
   "theorems": [
    "C18_navigation",
    "C18_are_siblings_exact",
    "C18_are_siblings_refuted"
   ],
   "note": "parent/children/siblings proved. are_siblings compares edges too and is true only for a node and itself (exact theorem, refuted)."
  },
  {
   "property": "C19",
   "status": "proved",
   "theorems": [
    "C19_descendent_terminals"
   ],
   "note": ""
  },
  {
   "property": "C20",
   "status": "proved",
   "theorems": [
    "C20_projectivize"
   ],
   "note": ""
  },
  {
   "property": "C21",
   "status": "proved",
   "theorems": [
    "C21_reports"
   ],
   "note": ""
  },
  {
   "property": "C22",
   "status": "proved",
   "theorems": [
    "C22_collapse",
    "C22_chains"
   ],
   "note": ""
  },
  {
   "property": "C23",
   "status": "partial",
   "theorems": [
    "C23_restore_collapse_partial",
    "C23_overlap_refuted"
   ],
   "note": "Restoring after collapsing gives an isomorphic tree when the first character of the delimiter occurs in no label and no node carries the chain feature. 'The delimiter occurs in no label' alone is not enough: labels can overlap with a multi-character delimiter (refuted)."
  },
  {
   "property": "C24",
   "status": "proved",
   "theorems": [
    "C24_filter_nonterminals"
   ],
   "note": ""
  },
  {
   "property": "C27",
   "status": "partial",
   "theorems": [
    "C27_index_order",
    "C27_effect",
    "C27_order_exact",
    "C27_sentence_order_partial",
    "C27_sentence_order_refuted",
    "C27_failure_modifies_refuted"
   ],
   "note": "annotate_pos assigns tags in node index order (exact theorem); this is sentence order for all tags exactly when the indices are ordered like the sentence (C27_order_exact). C27_effect says what every call does, failed ones included. On Err the tree has already been modified (refuted)."
  },
  {
   "property": "C28",
   "status": "proved",
   "theorems": [
    "C28_annotate_parent_tag"
   ],
   "note": ""
  },
  {
   "property": "C29",
   "status": "proved",
   "theorems": [
    "C29_nt_indices",
    "C29_closest_total",
    "C29_tag_set",
    "C29_ids"
   ],
   "note": ""
  },
  {
   "property": "C25",
   "status": "partial",
   "theorems": [
    "C25_reattach_terminals_partial",
    "C25_diverges",
    "C25_terminates_refuted"
   ],
   "note": "Full effect proved unless the first matched terminal (by node index) is the only terminal below the attachment point; in exactly that case the while loop never ends (C25_diverges, refuted)."
  },
  {
   "property": "C26",
   "status": "partial",
   "theorems": [
    "C26_insert_intermediate_partial",
    "C26_fresh_partial",
    "C26_one_node_refuted",
    "C26_edge_labels_refuted"
   ],
   "note": "Full effect (failure condition, maximal runs, nothing else) proved when siblings are numbered in sentence order, or when the function does not match the nodes it inserts (C26_fresh_partial). Otherwise a terminal can get two nodes (refuted). All terminals of a run but the first lose their edge label (refuted)."
  },
  {
   "property": "C30",
   "status": "partial",
   "theorems": [
    "C30_equality_partial",
    "C30_equivalence",
    "C30_forms_refuted",
    "C30_single_word_refuted"
   ],
   "note": "Exact characterisation of == proved (total, equivalence relation, structural equality up to word forms). Word forms are not compared (refuted) and one-word trees always compare equal (refuted)."
  },
  {
   "property": "C31",
   "status": "proved",
   "theorems": [
    "C31_language",
    "C31_unique"
   ],
   "note": "Parsing never panics or diverges for any text and format and succeeds exactly on the language of the independent grammar G; the parse is unique. Stack exhaustion of the recursive descent is not modelled."
  },
  {
   "property": "C32",
   "status": "proved",
   "theorems": [
    "C32_parsed"
   ],
   "note": "The reading of the returned tree is the bracket structure (ast_rose), well-formed, contiguous, words in order."
  },
  {
   "property": "C33",
   "status": "proved",
   "theorems": [
    "C33_simple"
   ],
   "note": "For all projective well-formed trees over admissible strings (fits)."
  },
  {
   "property": "C34",
   "status": "proved",
   "theorems": [
    "C34_tueba"
   ],
   "note": "For all projective well-formed trees over admissible strings (fits): structure, labels, tags, forms, spans, annotations, edge labels."
  },
  {
   "property": "C35",
   "status": "partial",
   "theorems": [
    "C35_hyphen_refuted",
    "C35_ptb_partial"
   ],
   "note": "The claim is false: the hyphen is kept in the annotation and written a second time (ptb.rs:236-242, 129). Proved instead: everything else survives and each annotation comes back with one extra leading hyphen."
  },
  {
   "property": "C36",
   "status": "partial",
   "theorems": [
    "C36_fails",
    "C36_text_partial",
    "C36_balanced_partial",
    "C36_unbalanced_refuted"
   ],
   "note": "Err iff non-projective proved for all well-formed trees. Balance and words need labels, annotations and edge labels free of brackets (they are not escaped, unlike words and tags); counterexample given."
  },
  {
   "property": "C37",
   "status": "partial",
   "theorems": [
    "C37_single",
    "C37_multi_partial",
    "C37_panics",
    "C37_no_panic_refuted",
    "C37_groups"
   ],
   "note": "Single-line mode complete. Multi-line mode: results exactly characterised by the split into balanced groups, panics by C37_panics; the no-panic part is false (a line closing more brackets than are open underflows, ptb.rs:311)."
  },
  {
   "property": "C42",
   "status": "proved",
   "theorems": [
    "C42_encode_relative",
    "C42_fails_iff"
   ],
   "note": "For trees with fewer than 2^63 nodes (petgraph indices are u32)."
  },
  {
   "property": "C43",
   "status": "partial",
   "theorems": [
    "C43_inverse_partial",
    "C43_exact",
    "C43_encoded",
    "C43_wrap_refuted"
   ],
   "note": "Proved for depths below 2^63, in particular for everything encode_absolute returns, and false for all others (C43_exact); a depth of 2^63 wraps to a negative offset (refuted)."
  },
  {
   "property": "C44",
   "status": "partial",
   "theorems": [
    "C44_exact",
    "C44_fix_partial",
    "C44_overflow_refuted"
   ],
   "note": "Complete behaviour on all isize offsets (C44_exact): the repaired encoding is unique, it is returned when all its depths are below 2^63, and otherwise the conversion panics, so 'always returns' is false (C44_overflow_refuted)."
  },
  {
   "property": "C47",
   "status": "partial",
   "theorems": [
    "C47_absolute",
    "C47_absolute_exact",
    "C47_relative_partial",
    "C47_relative_exact",
    "C47_reread",
    "C47_empty_refuted"
   ],
   "note": "Absolute tags: all. Relative tags: all with a non-empty label; an empty label is written but rejected by the parser (refuted). C47_absolute_exact and C47_relative_exact say exactly which tags survive; every tag that was read from some text does (C47_reread)."
  },
  {
   "property": "C52",
   "status": "proved",
   "theorems": [
    "C52_encode_absolute",
    "C52_encode_reading"
   ],
   "note": ""
  },
  {
   "property": "C53",
   "status": "proved",
   "theorems": [
    "C53_annotate_absolute",
    "C53_annotate_relative"
   ],
   "note": ""
  },
  {
   "property": "C45",
   "status": "proved",
   "theorems": [
    "C45_decode_encode",
    "C45_equal",
    "C45_label_refuted"
   ],
   "note": "Nesting, words, labels, spans and chain labels are recovered; == holds when there are no edge labels or further annotations. C45_label_refuted shows the guard on '_' is needed."
  },
  {
   "property": "C46",
   "status": "proved",
   "theorems": [
    "C46_decode",
    "C46_shape",
    "C46_positions_refuted"
   ],
   "note": "For words that carry their positions; decode does not set spans, so other inputs give ill-formed trees (C46_positions_refuted)."
  },
  {
   "property": "C50",
   "status": "proved",
   "theorems": [
    "C50_remove_dummy",
    "C50_no_dummies"
   ],
   "note": "A root called DUMMY is removed exactly when one remaining node dominates all remaining nodes."
  },
  {
   "property": "C49",
   "status": "proved",
   "theorems": [
    "C49_to_conllx"
   ],
   "note": "Both variants (by reference and consuming). The conllx crate's Token and Features are trusted."
  },
  {
   "property": "C48",
   "status": "proved",
   "theorems": [
    "C48_absolute",
    "C48_relative",
    "C48_none_refuted",
    "C48_label_refuted"
   ],
   "note": "Admissible: labels non-empty and free of '_', '+', '~', '|', ':'; features writable as text and without the key unary_chain; fewer than 2^63 nodes; with relative tags no label NONE. The refuted theorems show that the label guards are needed. Edge labels, lemmas and features are not encoded by the code."
  },
  {
   "property": "C38",
   "status": "partial",
   "theorems": [
    "C38_sentence",
    "C38_outside",
    "C38_resync",
    "C38_block",
    "C38_complete",
    "C38_no_panic_partial",
    "C38_empty_refuted",
    "C38_secondary_refuted",
    "C38_one_result_refuted",
    "C38_unclosed_refuted"
   ],
   "note": "C38_sentence is the complete case distinction for one sentence: which bodies give a tree, one Err, two Errs or a panic. Text outside blocks is ignored, every #EOS line resets the reader whatever came before, a complete sentence delivers exactly one tree. No panic when no block is empty and every secondary edge names a known nonterminal; both guards are needed (refuted). An error inside a block gives a second Err at its #EOS line and an unclosed sentence swallows the next one (refuted)."
  },
  {
   "property": "C39",
   "status": "partial",
   "theorems": [
    "C39_wf_exact",
    "C39_wf_partial",
    "C39_order_refuted",
    "C39_duplicate_refuted",
    "C39_cycle_refuted"
   ],
   "note": "A delivered tree is well-formed exactly when the nonterminals of its sentence have one line each, after the lines of their children, and the root has none (C39_wf_exact). For other sentences the claim is false: spans are wrong, nodes are cut off the root or form a cycle (refuted)."
  },
  {
   "property": "C40",
   "status": "proved",
   "theorems": [
    "C40_roundtrip",
    "C40_equal",
    "C40_stream",
    "C40_hash_refuted",
    "C40_number_refuted",
    "C40_root_refuted"
   ],
   "note": "For every well-formed tree whose strings fit the format (writable): the text is written without failure and read back as one well-formed tree with the same structure, labels, annotations, edge labels, forms, tags, lemmas, morphology and spans; whole files are read back tree by tree; equality in the program's own sense when every feature has a column. Secondary edges are outside the statement. The refuted theorems show that the conditions on strings and on the root label are needed."
  },
  {
   "property": "C41",
   "status": "partial",
   "theorems": [
    "C41_lines_partial",
    "C41_read_guard",
    "C41_single_refuted"
   ],
   "note": "Line structure, order and ids proved for trees with an inner root and no secondary edge that starts at a terminal (no tree delivered by the reader has one: C41_read_guard). A one-word tree without inner node panics (refuted)."
  },
  {
   "property": "C54",
   "status": "proved",
   "theorems": [
    "C54_readers",
    "C54_pos",
    "C54_insert"
   ],
   "note": ""
  },
  {
   "property": "C55",
   "status": "partial",
   "theorems": [
    "C55_convert",
    "C55_words",
    "C55_sentence",
    "C55_one_word_refuted"
   ],
   "note": "Proved for every option combination, with two conditions on the input: with --reattach the sentence has two words at least (otherwise the tool hangs: C55_one_word_refuted) and with relative tags the tree has fewer than 2^63 nodes. clap, file handling and the conllx crate's reader and writer are not modelled."
  },
  {
   "property": "C56",
   "status": "partial",
   "theorems": [
    "C56_written",
    "C56_reattach_refuted"
   ],
   "note": "Proved without --reattach; with it the claim is false because reattachment runs after projectivization and can open a gap (C56_reattach_refuted)."
  },
  {
   "property": "C57",
   "status": "partial",
   "theorems": [
    "C57_stream",
    "C57_total_partial",
    "C57_bare",
    "C57_complete"
   ],
   "note": "Order, pairing and stopping hold unconditionally. Totality holds under conditions on the input only: convertible trees, and with NEGRA output trees that keep an inner node and have no secondary edge that starts at a word. Outside them the tool hangs (C55_one_word_refuted) or panics (C57_bare, for every such tree)."
  },
  {
   "property": "C58",
   "status": "partial",
   "theorems": [
    "C58_absolute",
    "C58_relative",
    "C58_relative_partial",
    "C58_overflow_refuted",
    "C58_no_panic_refuted"
   ],
   "note": "Complete case distinction (error, tree, panic) for absolute tags (C58_absolute) and relative tags (C58_relative). Repaired depths of 2^63 and more overflow (C58_overflow_refuted). The claim that reading never panics is false: the empty sentence and an absolute depth of 0 panic (C58_no_panic_refuted)."
  },
  {
   "property": "C59",
   "status": "partial",
   "theorems": [
    "C59_absolute",
    "C59_relative",
    "C59_negra",
    "C59_brackets",
    "C59_ptb_refuted"
   ],
   "note": "Tags keep what the simple format shows, NEGRA and TueBa what any format shows, PTB and simple files what the simple format shows. Through PTB files annotations gain a hyphen (C59_ptb_refuted). The CONLL-X text format itself is the conllx crate's and is not modelled."
  },
  {
   "property": "C60",
   "status": "proved",
   "theorems": [
    "C60_edit",
    "C60_history",
    "C60_same",
    "C60_follow",
    "C60_convert"
   ],
   "note": "For every graph that petgraph can hold (graph_ok), well-formed tree or not. Edits that name a secondary edge are the subject of C17."
  },
  {
   "property": "C61",
   "status": "partial",
   "theorems": [
    "C61_readers",
    "C61_brackets_partial",
    "C61_bracket_output_partial",
    "C61_complete_partial",
    "C61_text_refuted"
   ],
   "note": "Missing: the inputs for which the tool is known to hang or panic, see C55_one_word_refuted (--reattach with one word), C57_bare (NEGRA output without an inner node), C37_no_panic_refuted (multi-line mode: `texts` has no solution where the reader panics). Words of bracketed output: for the formats without edge labels, without --insert and --pos, whose labels are free text, and for labels that are not empty after the edge label and annotation were cut off (`solid`, always true in the simple format). Texts of 2^63 characters are excluded for relative tags only; no allocation has that size."
  },
  {
   "property": "C62",
   "status": "partial",
   "theorems": [
    "C62_content_partial",
    "C62_twice_refuted"
   ],
   "note": "Holds for every sentence whose lines have different numbers, none of them 0. With a number used twice the reader still delivers a tree, but no assignment of nodes to lines fits it (C62_twice_refuted): the second line overwrites the first, and another mentioned number is left without a line."
  },
  {
   "property": "C63",
   "status": "partial",
   "theorems": [
    "C63_stream_partial",
    "C63_file_partial",
    "C63_complete",
    "C63_discontinuous_refuted"
   ],
   "note": "Missing: sentences that are not sound or not bottom-up (the reader panics or delivers malformed trees, see C38_empty_refuted, C38_secondary_refuted, C39_order_refuted, C39_duplicate_refuted), --reattach on one word (C55_one_word_refuted), relative tags for sentences of 2^62 lines. A discontinuous tree is not written as brackets or tags (C63_discontinuous_refuted)."
  },
  {
   "property": "C64",
   "status": "partial",
   "theorems": [
    "C64_tags_partial",
    "C64_reader_exact",
    "C64_complete_partial",
    "C64_tool_refuted"
   ],
   "note": "Missing: empty sentences, absolute depths of 0, relative depths of 2^63 and more (the reader panics on exactly these: C64_reader_exact), one word with --reattach (hangs, C55_one_word_refuted) or with NEGRA output (panics, C64_tool_refuted), relative output for trees with 2^63 nodes. The CONLL-X text format belongs to the conllx crate and is not modelled: sentences are lists of tokens."
  },
  {
   "property": "C65",
   "status": "proved",
   "theorems": [
    "C65_stream"
   ],
   "note": ""
  },
  {
   "property": "C66",
   "status": "proved",
   "theorems": [
    "C66_queries",
    "C66_add",
    "C66_remove"
   ],
   "note": "For every graph that petgraph can hold (graph_ok), well-formed tree or not."
  },
  {
   "property": "C67",
   "status": "partial",
   "theorems": [
    "C67_climb",
    "C67_climb_partial",
    "C67_root",
    "C67_root_panics",
    "C67_root_refuted"
   ],
   "note": "C67_climb is the complete case distinction: either the full effect, or a panic. The claim that it never panics is false (C67_root_refuted): remove_node refuses a root with several children and the documented closure unwraps the result. Given that some climb reaches a chosen root, it panics exactly when no other node that escapes the removal covers the whole sentence (C67_root_panics)."
  },
  {
   "property": "C68",
   "status": "proved",
   "theorems": [
    "C68_readers",
    "C68_tags"
   ],
   "note": "Equality of the whole trees. C68_tags excludes the label NONE, which relative root tags lose (C48_none_refuted), and the reserved characters of C48."
  },
  {
   "property": "C69",
   "status": "proved",
   "theorems": [
    "C69_stable",
    "C69_accepted",
    "C69_exact",
    "C69_ptb_refuted"
   ],
   "note": "Equality of the whole trees, and the exact set of stable texts. Finding (C69_ptb_refuted): in the PTB format an annotation gains a hyphen with every pass, and a tag such as -NONE- is written as an empty tag, which the reader rejects."
  },
  {
   "property": "C70",
   "status": "proved",
   "theorems": [
    "C70_reread",
    "C70_secondary",
    "C70_two_refuted"
   ],
   "note": "The mapping between the two trees is a bijection on the nodes that keeps every edge with its label. Lines are at most usize::MAX - 501 many. Finding (C70_two_refuted): the format has one secondary edge per line, so of two secondary edges into the same node the writer keeps one without an error."
  },
  {
   "property": "C71",
   "status": "proved",
   "theorems": [
    "C71_text",
    "C71_stable",
    "C71_file",
    "C71_reformat",
    "C71_tool",
    "C71_order_refuted"
   ],
   "note": "Simulation of the two runs of the numbering queue. Finding (C71_order_refuted): with two secondary edges into one node, the one that was added last is written, so equal trees can have different texts."
  }
 ]
}