# lumberjack: formal model and proofs (Rocq/Coq 8.16.1)

## Approach

Every modelled function of `/repo` is an executable, total Gallina function over an explicit
state. Each definition cites the file and lines it mirrors and says where it simplifies.

* **Outcomes.** `outcome A := Ret a | Panic | Diverge`. `Panic` is any Rust panic (`unwrap` on
  `None`, failed `assert!`, index out of bounds, integer overflow as in a debug build).
  `Diverge` is returned only when the fuel of a loop runs out. Theorems show that it is
  unreachable, or (for `reattach_terminals`) that it is reached for every fuel.
* **Errors.** `result A := Ok a | Err`. Error messages are not modelled. A fallible `&mut self`
  method is a function `tree -> outcome (tree * result A)`, so "unchanged on Err" can be stated.
  A fallible method that consumes its tree returns `outcome (result tree)`.
* **Strings** are lists of Unicode code points (`str := list N`).
* **Graph.** `petgraph::StableGraph` is a map from node slots to weights with a free list
  (slots are reused last-in first-out), a list of edges kept newest first (petgraph's adjacency
  lists iterate newest first) and the allocator of edge numbers.
* **Hash iteration order** is a universally quantified oracle where it matters (`projectivize`).
  Where the code sorts (`Features::to_string`) it is the sorted order.
* **Independent specification.** `TreeSpec`, `RoseSpec`, `PtbSpec`, `EncSpec`, `NegraSpec` and
  `ConvSpec` define, without model helpers, what the theorems talk about: position sets, dominance
  (`rtc` of primary edges), well-formedness `WF`, the reading `Reads t r` of a tree as a rose tree,
  the bracket grammar, the decoder on right spines, NEGRA blocks and line shapes, and one relation
  per option of the conversion tool.
* **Non-vacuity.** Beside each theorem an `Example` shows a concrete case that meets its hypotheses.
* **False claims.** Where the code does not have a property, the full statement is kept in view, a
  `..._refuted` theorem gives a concrete counterexample, and the strongest guarded version that
  was found is proved as `..._partial`.
* **Wrong programs.** `seeded/LOG.jsonl` records edits of the model in a scratch copy and the
  theorems that no longer hold.

## Files (`rocq/theories`)

| layer | files |
|-------|-------|
| base | `Base` (strings, outcomes, sorting), `BaseProofs` |
| code | `SpanModel` (span.rs), `FeatModel` (features.rs), `NodeModel` (node.rs, edge.rs), `GraphModel` (petgraph), `TreeModel` (tree.rs), `ModModel` (tree_modification.rs), `UtilModel` (util.rs), `PtbModel` (io/ptb.rs, ptb.pest), `EncModel` (io/encode.rs), `ConllModel` (io/conllx.rs), `NegraModel` (io/negra.rs), `ConvModel` (lumberjack-conversion.rs), `Api` (histories of calls) |
| specification | `TreeSpec`, `RoseSpec`, `PtbSpec`, `EncSpec`, `NegraSpec`, `ConvSpec` |
| lemmas | `*Proofs`, `Ptb*`, `Enc*`, `Dec*`, `Negra*`, `IsoRose`, `Ordered`, `ConvPipe` and others |
| theorems | `Props*`: the theorems named in `MANIFEST.json`, each followed by `Print Assumptions` |

## Properties

### C01 Span construction from an index list (proved)

* Modelled: SpanModel `span_from_vec`; the set of positions of a span is `spos`.
* Proof: sorting and gap computation by induction on the list.
* Theorems: `C01_from_vec`.

### C02 Span iteration agrees with containment (proved)

* Modelled: SpanModel iterator.
* Proof: induction on the remaining range.
* Theorems: `C02_iteration`.

### C03 covers_span is the superset test (proved)

* Modelled: SpanModel `covers_span`.
* Proof: set inclusion from containment.
* Theorems: `C03_covers_span`.

### C04 Merging spans is set union (proved)

* Modelled: SpanModel `merge_spans`.
* Proof: reduces to C01 on the two position lists.
* Theorems: `C04_merge`.

### C05 Removing indices is set difference (proved)

* Modelled: SpanModel `remove_indices`.
* Proof: induction on the index list.
* Theorems: `C05_remove`.

### C06 Span equality and ordering (partial)

* Modelled: SpanModel `span_eqb`, `span_cmp`.
* Proof: lexicographic order; witness for the refuted clause.
* Theorems: `C06_eq`, `C06_order`, `C06_cmp_eq_refuted`.
* Note: Equality and the total preorder are proved. The clause 'cmp = Equal only for equal spans' is false of the code: {0,2,3} vs {0,1,3} (refuted).

### C07 Feature maps behave like maps (proved)

* Modelled: FeatModel (finite map).
* Proof: finite map laws.
* Theorems: `C07_feature_map`.

### C08 Feature string round-trip (proved)

* Modelled: FeatModel `to_string`, `from`.
* Proof: split/join inverse by induction.
* Theorems: `C08_roundtrip`, `C08_unrestricted_refuted`.
* Note: Proved for keys/values without '|' and ':' (an empty key is fine if it has a value); outside that class the round trip is refuted.

### C09 Every tree reachable through the editing API is well-formed (partial)

* Modelled: TreeModel, all editing methods; histories are lists of calls (`Api`).
* Proof: invariant `WF` by induction on the history; `C09_safe_exact` shows the guard is the weakest one per call.
* Theorems: `C09_histories_partial`, `C09_safe_exact`, `C09_projective`, `C09_all_histories_refuted`.
* Note: Every history of safe calls gives a well-formed tree, and a call on a well-formed tree keeps it well-formed exactly when it is safe (C09_safe_exact). The unguarded statement is false: remove_node on a terminal, insert_unary_* on a discontinuous node and some reattach_node calls break it (refuted).

### C10 push_terminal appends (proved)

* Modelled: TreeModel `push_terminal`.
* Proof: exact effect on the graph.
* Theorems: `C10_push_terminal`.

### C11 insert_terminal shifts the sentence (proved)

* Modelled: TreeModel `insert_terminal`, `reset_nt_spans`.
* Proof: position shift, then the span recomputation theorem (post-order over a fuelled DFS).
* Theorems: `C11_insert_terminal`.

### C12 move_terminal permutes positions (partial)

* Modelled: TreeModel `move_terminal`.
* Proof: positions are permuted; the final spans by the same recomputation theorem.
* Theorems: `C12_move_terminal_partial`, `C12_nonterminal`, `C12_panics_on_nonterminal_refuted`.
* Note: Everything about terminals is proved. The documented panic on nonterminals does not happen when the index equals the start of the node's span (refuted; C12_nonterminal is the exact behaviour).

### C13 insert_unary_above/below insert exactly one node (partial)

* Modelled: TreeModel `insert_unary_above/below`.
* Proof: effect on `rtc` of primary edges.
* Theorems: `C13_above_partial`, `C13_below_partial`, `C13_below_terminal`, `C13_gap_structure`, `C13_projective_accurate_refuted`.
* Note: Proved for nodes without gap. On a discontinuous node the structure is right but num_discontinuous is not incremented, so is_projective() becomes wrong (refuted).

### C14 Removing a nonterminal splices its children (proved)

* Modelled: TreeModel `remove_node`.
* Proof: effect on `rtc`, exact failure condition.
* Theorems: `C14_remove_inner`, `C14_remove_root`, `C14_dominance`.

### C15 Removing a terminal renumbers the sentence (partial)

* Modelled: TreeModel `remove_node` on terminals.
* Proof: exact structural effect; a success is never well-formed.
* Theorems: `C15_fails_iff`, `C15_never_wellformed`, `C15_positions_refuted`.
* Note: Failure condition and structural effect proved. Renumbering and recalculated spans are false of the code: a successful removal of a terminal never leaves a well-formed tree (universal theorem plus witness).

### C16 Reattaching keeps a tree with accurate spans (partial)

* Modelled: TreeModel `reattach_node`.
* Proof: the guard is proved exact.
* Theorems: `C16_fails`, `C16_reattach_partial`, `C16_guard_exact`, `C16_accurate_refuted`.
* Note: Full statement proved when the new parent is an ancestor or descendant of the old parent and not below the moved node; in all other successful cases the result is provably not well-formed.

### C17 Secondary edges are inert (partial)

* Modelled: TreeModel secondary edge operations.
* Proof: induction over sequences of operations.
* Theorems: `C17_inert`, `C17_remove`, `C17_absent_none_refuted`.
* Note: Inertness proved for every sequence of secondary-edge operations. remove_secondary_edge panics on an absent edge although None is documented (refuted).

### C18 Navigation is consistent (partial)

* Modelled: TreeModel navigation.
* Proof: adjacency lists against the edge list.
* Theorems: `C18_navigation`, `C18_are_siblings_exact`, `C18_are_siblings_refuted`.
* Note: parent/children/siblings proved. are_siblings compares edges too and is true only for a node and itself (exact theorem, refuted).

### C19 descendent_terminals is the yield (proved)

* Modelled: TreeModel DFS.
* Proof: DFS invariant and fuel bound.
* Theorems: `C19_descendent_terminals`.

### C20 projectivize makes the tree projective (proved)

* Modelled: ModModel `projectivize`, hash set order is a universally quantified oracle.
* Proof: loop invariant: finished nodes are continuous; measure for termination.
* Theorems: `C20_projectivize`.

### C21 projectivize reports what it moved (proved)

* Modelled: same.
* Proof: reports replay step by step (`steps`).
* Theorems: `C21_reports`.

### C22 collapse_unary_chains removes all unary chains (proved)

* Modelled: ModModel `collapse_unary_chains`.
* Proof: loop invariant over the DFS stack.
* Theorems: `C22_collapse`, `C22_chains`.

### C23 restore_unary_chains inverts collapse_unary_chains (partial)

* Modelled: ModModel `restore_unary_chains`.
* Proof: isomorphism of the original with the collapsed and restored tree.
* Theorems: `C23_restore_collapse_partial`, `C23_overlap_refuted`.
* Note: Restoring after collapsing gives an isomorphic tree when the first character of the delimiter occurs in no label and no node carries the chain feature. 'The delimiter occurs in no label' alone is not enough: labels can overlap with a multi-character delimiter (refuted).

### C24 filter_nonterminals keeps root and matches (proved)

* Modelled: ModModel `filter_nonterminals`.
* Proof: fold of C14.
* Theorems: `C24_filter_nonterminals`.

### C25 reattach_terminals terminates and attaches (partial)

* Modelled: ModModel `reattach_terminals`.
* Proof: loop invariant; divergence proved for every fuel in the remaining case.
* Theorems: `C25_reattach_terminals_partial`, `C25_diverges`, `C25_terminates_refuted`.
* Note: Full effect proved unless the first matched terminal (by node index) is the only terminal below the attachment point; in exactly that case the while loop never ends (C25_diverges, refuted).

### C26 insert_intermediate groups runs of terminals (partial)

* Modelled: ModModel `insert_intermediate`.
* Proof: fold over terminals; runs are maximal intervals; PropsInter: the same for functions that do not match the inserted nodes, in any order of the siblings.
* Theorems: `C26_insert_intermediate_partial`, `C26_fresh_partial`, `C26_one_node_refuted`, `C26_edge_labels_refuted`.
* Note: Full effect (failure condition, maximal runs, nothing else) proved when siblings are numbered in sentence order, or when the function does not match the nodes it inserts (C26_fresh_partial). Otherwise a terminal can get two nodes (refuted). All terminals of a run but the first lose their edge label (refuted).

### C27 annotate_pos assigns tags in sentence order (partial)

* Modelled: ModModel `annotate_pos`.
* Proof: fold over node indices; PropsPos: exact condition for sentence order by tagging with different tags, and the effect of failed calls.
* Theorems: `C27_index_order`, `C27_effect`, `C27_order_exact`, `C27_sentence_order_partial`, `C27_sentence_order_refuted`, `C27_failure_modifies_refuted`.
* Note: annotate_pos assigns tags in node index order (exact theorem); this is sentence order for all tags exactly when the indices are ordered like the sentence (C27_order_exact). C27_effect says what every call does, failed ones included. On Err the tree has already been modified (refuted).

### C28 annotate_parent_tag annotates the parent label (proved)

* Modelled: ModModel `annotate_parent_tag`.
* Proof: fold.
* Theorems: `C28_annotate_parent_tag`.

### C29 Projection onto terminals picks the closest matching ancestor (proved)

* Modelled: ModModel `project_*`, UtilModel `Climber`.
* Proof: the climb finds the closest ancestor by induction on depth.
* Theorems: `C29_nt_indices`, `C29_closest_total`, `C29_tag_set`, `C29_ids`.

### C30 Tree equality is structural equality (partial)

* Modelled: TreeModel `tree_eqb` (node, edge, child sorting).
* Proof: soundness and completeness for rose tree readings.
* Theorems: `C30_equality_partial`, `C30_equivalence`, `C30_forms_refuted`, `C30_single_word_refuted`.
* Note: Exact characterisation of == proved (total, equivalence relation, structural equality up to word forms). Word forms are not compared (refuted) and one-word trees always compare equal (refuted).

### C31 The bracket parser accepts exactly the bracketed language (proved)

* Modelled: PtbModel: the PEG of ptb.pest as a recursive descent recogniser with fuel.
* Proof: equivalence with an inductive grammar `bracketed`.
* Theorems: `C31_language`, `C31_unique`.
* Note: Parsing never panics or diverges for any text and format and succeeds exactly on the language of the independent grammar G; the parse is unique. Stack exhaustion of the recursive descent is not modelled.

### C32 Parsed bracketed trees are well-formed and projective (proved)

* Modelled: PtbModel `parse_value`.
* Proof: the built graph reads back as the bracket structure.
* Theorems: `C32_parsed`.
* Note: The reading of the returned tree is the bracket structure (ast_rose), well-formed, contiguous, words in order.

### C33 Simple format round-trip (proved)

* Modelled: PtbModel `tree_to_string`, `string_to_tree`.
* Proof: printer computed on rose trees, then C31/C32.
* Theorems: `C33_simple`.
* Note: For all projective well-formed trees over admissible strings (fits).

### C34 TueBa format round-trip (proved)

* Modelled: same, TueBa.
* Proof: same with edge labels and annotations.
* Theorems: `C34_tueba`.
* Note: For all projective well-formed trees over admissible strings (fits): structure, labels, tags, forms, spans, annotations, edge labels.

### C35 PTB format round-trip (partial)

* Modelled: same, PTB.
* Proof: same; the annotation gains a hyphen.
* Theorems: `C35_hyphen_refuted`, `C35_ptb_partial`.
* Note: The claim is false: the hyphen is kept in the annotation and written a second time (ptb.rs:236-242, 129). Proved instead: everything else survives and each annotation comes back with one extra leading hyphen.

### C36 Bracketed writing fails exactly on non-projective trees (partial)

* Modelled: PtbModel `tree_to_string`.
* Proof: printer computed on rose trees.
* Theorems: `C36_fails`, `C36_text_partial`, `C36_balanced_partial`, `C36_unbalanced_refuted`.
* Note: Err iff non-projective proved for all well-formed trees. Balance and words need labels, annotations and edge labels free of brackets (they are not escaped, unlike words and tags); counterexample given.

### C37 PTBReader delivers every tree in order (partial)

* Modelled: PtbModel `ptb_read` on a list of lines (`None` = I/O error).
* Proof: induction on lines.
* Theorems: `C37_single`, `C37_multi_partial`, `C37_panics`, `C37_no_panic_refuted`, `C37_groups`.
* Note: Single-line mode complete. Multi-line mode: results exactly characterised by the split into balanced groups, panics by C37_panics; the no-panic part is false (a line closing more brackets than are open underflows, ptb.rs:311).

### C38 NegraReader segments and resynchronises (partial)

* Modelled: NegraModel `negra_read`.
* Proof: state machine over lines, blocks `block_in`.
* Theorems: `C38_sentence`, `C38_outside`, `C38_resync`, `C38_block`, `C38_complete`, `C38_no_panic_partial`, `C38_empty_refuted`, `C38_secondary_refuted`, `C38_one_result_refuted`, `C38_unclosed_refuted`.
* Note: C38_sentence is the complete case distinction for one sentence: which bodies give a tree, one Err, two Errs or a panic. Text outside blocks is ignored, every #EOS line resets the reader whatever came before, a complete sentence delivers exactly one tree. No panic when no block is empty and every secondary edge names a known nonterminal; both guards are needed (refuted). An error inside a block gives a second Err at its #EOS line and an unclosed sentence swallows the next one (refuted).

### C39 Trees read from NEGRA are well-formed (partial)

* Modelled: NegraModel builder.
* Proof: builder invariant over the lines; conversely the span of a node is made from the children read before it, so a later child makes the span wrong.
* Theorems: `C39_wf_exact`, `C39_wf_partial`, `C39_order_refuted`, `C39_duplicate_refuted`, `C39_cycle_refuted`.
* Note: A delivered tree is well-formed exactly when the nonterminals of its sentence have one line each, after the lines of their children, and the root has none (C39_wf_exact). For other sentences the claim is false: spans are wrong, nodes are cut off the root or form a cycle (refuted).

### C40 NEGRA round-trip (proved)

* Modelled: NegraModel writer and reader.
* Proof: the written lines are described (C41), the reader is run over them; isomorphism of graphs, then equality of readings.
* Theorems: `C40_roundtrip`, `C40_equal`, `C40_stream`, `C40_hash_refuted`, `C40_number_refuted`, `C40_root_refuted`.
* Note: For every well-formed tree whose strings fit the format (writable): the text is written without failure and read back as one well-formed tree with the same structure, labels, annotations, edge labels, forms, tags, lemmas, morphology and spans; whole files are read back tree by tree; equality in the program's own sense when every feature has a column. Secondary edges are outside the statement. The refuted theorems show that the conditions on strings and on the root label are needed.

### C41 NegraWriter numbers nonterminals bottom-up (partial)

* Modelled: NegraModel `negra_write`.
* Proof: work queue of the writer.
* Theorems: `C41_lines_partial`, `C41_read_guard`, `C41_single_refuted`.
* Note: Line structure, order and ids proved for trees with an inner root and no secondary edge that starts at a terminal (no tree delivered by the reader has one: C41_read_guard). A one-word tree without inner node panics (refuted).

### C42 Relative encoding is the conversion of the absolute encoding (proved)

* Modelled: EncModel.
* Proof: pointwise over the encoding.
* Theorems: `C42_encode_relative`, `C42_fails_iff`.
* Note: For trees with fewer than 2^63 nodes (petgraph indices are u32).

### C43 Relative to absolute conversion inverts absolute to relative (partial)

* Modelled: EncModel.
* Proof: induction with running depth.
* Theorems: `C43_inverse_partial`, `C43_exact`, `C43_encoded`, `C43_wrap_refuted`.
* Note: Proved for depths below 2^63, in particular for everything encode_absolute returns, and false for all others (C43_exact); a depth of 2^63 wraps to a negative offset (refuted).

### C44 Repairing relative encodings (partial)

* Modelled: EncModel `fix`.
* Proof: induction with running depth; EncExact shows conversion and repair to be one loop and compares it with the unbounded answer.
* Theorems: `C44_exact`, `C44_fix_partial`, `C44_overflow_refuted`.
* Note: Complete behaviour on all isize offsets (C44_exact): the repaired encoding is unique, it is returned when all its depths are below 2^63, and otherwise the conversion panics, so 'always returns' is false (C44_overflow_refuted).

### C45 Decoding inverts encoding (proved)

* Modelled: EncModel `decode` over the mutable graph.
* Proof: simulation: graph decoder against a pure right-spine decoder (`DecPure`), then inverse on rose trees.
* Theorems: `C45_decode_encode`, `C45_equal`, `C45_label_refuted`.
* Note: Nesting, words, labels, spans and chain labels are recovered; == holds when there are no edge labels or further annotations. C45_label_refuted shows the guard on '_' is needed.

### C46 Decoding any label sequence gives a tree (proved)

* Modelled: same.
* Proof: same simulation.
* Theorems: `C46_decode`, `C46_shape`, `C46_positions_refuted`.
* Note: For words that carry their positions; decode does not set spans, so other inputs give ill-formed trees (C46_positions_refuted).

### C47 Ancestor tags survive their textual form (partial)

* Modelled: EncModel tag printing and parsing.
* Proof: string lemmas; PropsTagText: the exact condition and rereading.
* Theorems: `C47_absolute`, `C47_absolute_exact`, `C47_relative_partial`, `C47_relative_exact`, `C47_reread`, `C47_empty_refuted`.
* Note: Absolute tags: all. Relative tags: all with a non-empty label; an empty label is written but rejected by the parser (refuted). C47_absolute_exact and C47_relative_exact say exactly which tags survive; every tag that was read from some text does (C47_reread).

### C48 CONLLX encoding round-trip (proved)

* Modelled: ConllModel both directions.
* Proof: composition of C22, C53, C47, C43, C46, C23.
* Theorems: `C48_absolute`, `C48_relative`, `C48_none_refuted`, `C48_label_refuted`.
* Note: Admissible: labels non-empty and free of '_', '+', '~', '|', ':'; features writable as text and without the key unary_chain; fewer than 2^63 nodes; with relative tags no label NONE. The refuted theorems show that the label guards are needed. Edge labels, lemmas and features are not encoded by the code.

### C49 CONLLX conversion keeps the sentence (proved)

* Modelled: ConllModel `to_conllx`, `into_conllx`.
* Proof: terminals sorted by position.
* Theorems: `C49_to_conllx`.
* Note: Both variants (by reference and consuming). The conllx crate's Token and Features are trusted.

### C50 remove_dummy_nodes removes exactly the dummies (proved)

* Modelled: EncModel `remove_dummy_nodes`.
* Proof: fold of C14.
* Theorems: `C50_remove_dummy`, `C50_no_dummies`.
* Note: A root called DUMMY is removed exactly when one remaining node dominates all remaining nodes.

### C51 Label sets (proved)

* Modelled: UtilModel `LabelSet`.
* Proof: direct.
* Theorems: `C51_label_set`.

### C52 Encoding computes lowest common ancestors (proved)

* Modelled: EncModel `encode_absolute`, `get_common`.
* Proof: the climb meets the lowest common ancestor.
* Theorems: `C52_encode_absolute`, `C52_encode_reading`.

### C53 Ancestor annotation (proved)

* Modelled: EncModel `annotate_absolute/relative`.
* Proof: loop over positions.
* Theorems: `C53_annotate_absolute`, `C53_annotate_relative`.

### C54 Readers number words in sentence order (proved)

* Modelled: all readers.
* Proof: construction invariants: each reader adds words left to right, later operations keep their node numbers.
* Theorems: `C54_readers`, `C54_pos`, `C54_insert`.

### C55 The conversion pipeline does what its options say and keeps the words (partial)

* Modelled: ConvModel `convert_tree`: the loop body of the tool.
* Proof: each step against one relation in ConvSpec, then composition.
* Theorems: `C55_convert`, `C55_words`, `C55_sentence`, `C55_one_word_refuted`.
* Note: Proved for every option combination, with two conditions on the input: with --reattach the sentence has two words at least (otherwise the tool hangs: C55_one_word_refuted) and with relative tags the tree has fewer than 2^63 nodes. clap, file handling and the conllx crate's reader and writer are not modelled.

### C56 Projectivized output can be written (partial)

* Modelled: ConvModel `convert_tree`, `write_tree`.
* Proof: absence of gaps is preserved by every step but reattachment.
* Theorems: `C56_written`, `C56_reattach_refuted`.
* Note: Proved without --reattach; with it the claim is false because reattachment runs after projectivization and can open a gap (C56_reattach_refuted).

### C57 The conversion run (partial)

* Modelled: ConvModel `convert_all`, `tool_text`, `tool_sentences`.
* Proof: induction on the stream.
* Theorems: `C57_stream`, `C57_total_partial`, `C57_bare`, `C57_complete`.
* Note: Order, pairing and stopping hold unconditionally. Totality holds under conditions on the input only: convertible trees, and with NEGRA output trees that keep an inner node and have no secondary edge that starts at a word. Outside them the tool hangs (C55_one_word_refuted) or panics (C57_bare, for every such tree).

### C58 Reading tagged sentences (partial)

* Modelled: ConllModel `from_conllx_absolute`, `from_conllx_relative`, EncModel tag parsing, repair and decoding.
* Proof: tag grammar as a relation (PropsTag), case distinction on each token, decoding from C46 and repair from C44.
* Theorems: `C58_absolute`, `C58_relative`, `C58_relative_partial`, `C58_overflow_refuted`, `C58_no_panic_refuted`.
* Note: Complete case distinction (error, tree, panic) for absolute tags (C58_absolute) and relative tags (C58_relative). Repaired depths of 2^63 and more overflow (C58_overflow_refuted). The claim that reading never panics is false: the empty sentence and an absolute depth of 0 panic (C58_no_panic_refuted).

### C59 Converting back and forth keeps the treebank (partial)

* Modelled: ConvModel `convert_all`, `tool_text`, `tool_sentences`.
* Proof: composition of C33, C34, C37, C40, C48 over the stream; readings related node by node print the same text.
* Theorems: `C59_absolute`, `C59_relative`, `C59_negra`, `C59_brackets`, `C59_ptb_refuted`.
* Note: Tags keep what the simple format shows, NEGRA and TueBa what any format shows, PTB and simple files what the simple format shows. Through PTB files annotations gain a hyphen (C59_ptb_refuted). The CONLL-X text format itself is the conllx crate's and is not modelled.

### C60 Editing keeps secondary edges (proved)

* Modelled: Api `run`, all of ModModel, EncModel annotations, ConvModel `convert_tree`.
* Proof: SecProofs: each graph primitive leaves the secondary edges alone, drops those of the removed node, or is only called with the number of a primary edge; lifted through every loop.
* Theorems: `C60_edit`, `C60_history`, `C60_same`, `C60_follow`, `C60_convert`.
* Note: For every graph that petgraph can hold (graph_ok), well-formed tree or not. Edits that name a secondary edge are the subject of C17.

### C61 The conversion tool from bracketed text to output (partial)

* Modelled: PtbModel readers, ConvModel `tool_text`, all options.
* Proof: PropsText: the graph of a parsed or decoded tree only grew by primary edges; its number of nodes is bounded by the length of the text, so C57_total applies; words by position from C32, C55 and C36; labels followed through each editing step.
* Theorems: `C61_readers`, `C61_brackets_partial`, `C61_bracket_output_partial`, `C61_complete_partial`, `C61_text_refuted`.
* Note: Missing: the inputs for which the tool is known to hang or panic, see C55_one_word_refuted (--reattach with one word), C57_bare (NEGRA output without an inner node), C37_no_panic_refuted (multi-line mode: `texts` has no solution where the reader panics). Words of bracketed output: for the formats without edge labels, without --insert and --pos, whose labels are free text, and for labels that are not empty after the edge label and annotation were cut off (`solid`, always true in the simple format). Texts of 2^63 characters are excluded for relative tags only; no allocation has that size.

### C62 A NEGRA sentence is read line by line into its tree (partial)

* Modelled: NegraModel `negra_read`, all of the reader.
* Proof: PropsRead: invariant `CI` on builder, parsed lines and the list of their nodes, kept by every line; the final count of finished nonterminals equals the number of known numbers, so every mentioned number has its line.
* Theorems: `C62_content_partial`, `C62_twice_refuted`.
* Note: Holds for every sentence whose lines have different numbers, none of them 0. With a number used twice the reader still delivers a tree, but no assignment of nodes to lines fits it (C62_twice_refuted): the second line overwrites the first, and another mentioned number is left without a line.

### C63 The conversion tool from NEGRA files to output (partial)

* Modelled: NegraModel `negra_read`, ConvModel `tool_text`, all options.
* Proof: PropsText2: C62 gives the words by line and the number of nodes, C39 well-formedness, the label VROOT an inner node, so C57_total applies; files by C38 (outside, resync, complete); words from C55.
* Theorems: `C63_stream_partial`, `C63_file_partial`, `C63_complete`, `C63_discontinuous_refuted`.
* Note: Missing: sentences that are not sound or not bottom-up (the reader panics or delivers malformed trees, see C38_empty_refuted, C38_secondary_refuted, C39_order_refuted, C39_duplicate_refuted), --reattach on one word (C55_one_word_refuted), relative tags for sentences of 2^62 lines. A discontinuous tree is not written as brackets or tags (C63_discontinuous_refuted).

### C64 The conversion tool from tagged sentences to output (partial)

* Modelled: ConllModel readers, ConvModel `tool_sentences`, all options.
* Proof: PropsText3: C58 for both tag formats gives a well-formed projective tree with the words, or an error; then C57_total, C57_stream, C55_sentence and C56_written.
* Theorems: `C64_tags_partial`, `C64_reader_exact`, `C64_complete_partial`, `C64_tool_refuted`.
* Note: Missing: empty sentences, absolute depths of 0, relative depths of 2^63 and more (the reader panics on exactly these: C64_reader_exact), one word with --reattach (hangs, C55_one_word_refuted) or with NEGRA output (panics, C64_tool_refuted), relative output for trees with 2^63 nodes. The CONLL-X text format belongs to the conllx crate and is not modelled: sentences are lists of tokens.

### C65 The NEGRA reader on any stream (proved)

* Modelled: NegraModel `negra_read`, `from_header`, `push`, `try_into_tree`.
* Proof: NegraExact: `stream` reads the text only (fields, numbers, which lines fit the lines before them); invariant `current` ties it to the builder; C38_sentence for footers; every stream is either read by `stream` or has a `fatal` footer (stream_total).
* Theorems: `C65_stream`.

### C66 Secondary edge queries (proved)

* Modelled: TreeModel `secondary_parent`, `secondary_children`, `add_secondary_edge`, `remove_secondary_edge`.
* Proof: PropsQuery: adjacency lists are filters of the edge list; specification `sec_link` speaks about edge records only.
* Theorems: `C66_queries`, `C66_add`, `C66_remove`.
* Note: For every graph that petgraph can hold (graph_ok), well-formed tree or not.

### C67 Removing nodes while climbing (partial)

* Modelled: TreeModel `map_climber_path`, `climb_map`, `climber_next`, `remove_node`; the closure of the doc comment as `climb_edit`.
* Proof: PropsClimb: induction over the ancestors of one terminal with C14 for each removal (climb_ok), then over the terminals; `reached`, `stopper`, `closest` read the same in the edited tree (Section same); PropsClimbRoot: the climbs that reach a chosen root, with C14_remove_root for the last step.
* Theorems: `C67_climb`, `C67_climb_partial`, `C67_root`, `C67_root_panics`, `C67_root_refuted`.
* Note: C67_climb is the complete case distinction: either the full effect, or a panic. The claim that it never panics is false (C67_root_refuted): remove_node refuses a root with several children and the documented closure unwraps the result. Given that some climb reaches a chosen root, it panics exactly when no other node that escapes the removal covers the whole sentence (C67_root_panics).

### C68 The two tag formats describe the same tree (proved)

* Modelled: ConllModel readers, EncModel conversion.
* Proof: PropsSame: the differences make the absolute encoding the unique repaired answer of C44_exact, so both readers decode the same labels over the same terminals.
* Theorems: `C68_readers`, `C68_tags`.
* Note: Equality of the whole trees. C68_tags excludes the label NONE, which relative root tags lose (C48_none_refuted), and the reserved characters of C48.

### C69 Writing what was read and reading it again gives the same tree (proved)

* Modelled: PtbModel string_to_tree, tree_to_string.
* Proof: PropsStable: what is read fits the format, so the printed tree is the parse of the printed text; two parses with the same constituency tree build the same graph; for PTB, word counting excludes empty tags and label uniqueness excludes annotations.
* Theorems: `C69_stable`, `C69_accepted`, `C69_exact`, `C69_ptb_refuted`.
* Note: Equality of the whole trees, and the exact set of stable texts. Finding (C69_ptb_refuted): in the PTB format an annotation gains a hyphen with every pass, and a tag such as -NONE- is written as an empty tag, which the reader rejects.

### C70 NEGRA sentences can be written again, with their secondary edges (proved)

* Modelled: NegraModel negra_read, negra_write.
* Proof: NegraWritable: every string of a delivered tree fits the writer (fields are words, metadata is trimmed, numbers are bounded); PropsNegraStable: the content theorem C62 applied to the written lines gives a bijection of nodes, edge by edge.
* Theorems: `C70_reread`, `C70_secondary`, `C70_two_refuted`.
* Note: The mapping between the two trees is a bijection on the nodes that keeps every edge with its label. Lines are at most usize::MAX - 501 many. Finding (C70_two_refuted): the format has one secondary edge per line, so of two secondary edges into the same node the writer keeps one without an error.

### C71 The NEGRA text does not depend on node numbers, and reformatting is idempotent (proved)

* Modelled: NegraModel negra_write: start_queue, number_nts, get_parent_edge, terminal_line, nonterminal_line.
* Proof: PropsNegraText: the bijection of nodes relates the queues, the visited sets and the id maps of the two runs step by step; the lines are then equal; files by induction over the trees; PropsNegraTool: the conversion tool from NEGRA to NEGRA run twice.
* Theorems: `C71_text`, `C71_stable`, `C71_file`, `C71_reformat`, `C71_tool`, `C71_order_refuted`.
* Note: Simulation of the two runs of the numbering queue. Finding (C71_order_refuted): with two secondary edges into one node, the one that was added last is written, so equal trees can have different texts.

## Findings

Defects and surprises of the code that the proofs turned up; each has a theorem with a witness.

* Spans: `Ord::cmp` returns `Equal` for different spans (C06).
* Editing: `remove_node` on a terminal never leaves a well-formed tree (C15). `insert_unary_*` on a
  discontinuous node loses count of the discontinuous nodes (C13). `reattach_node` leaves wrong spans
  or a cycle unless new and old parent are related by dominance (C16). `move_terminal` accepts some
  nonterminals (C12). `remove_secondary_edge` panics on an absent edge (C17). `are_siblings` is true
  only for a node and itself (C18).
* Modification: restoring chains can fail with a multi-character delimiter (C23). `reattach_terminals`
  loops forever when the first match is the only terminal below the attachment point (C25).
  `insert_intermediate` can wrap a terminal twice and drops edge labels (C26). `annotate_pos` follows
  node numbers, not sentence order, and modifies the tree before it fails (C27).
* Equality: word forms are not compared and one-word trees are always equal (C30).
* Brackets: the PTB format keeps the hyphen of an annotation and writes it again (C35). Labels are not
  escaped (C36). A line that closes too many brackets makes the multi-line reader panic (C37).
* NEGRA reader: an empty sentence and an unknown secondary parent panic; an error inside a sentence
  yields a second error at its end; an unclosed sentence swallows the next one (C38). Duplicate
  nonterminal lines, cyclic parents and a line `#0` are accepted; spans are wrong when a parent line
  precedes a child line (C39). Words that start with `#` cannot be read back, numbers with leading
  zeros do not match, the root label is not written (C40). NEGRA writer: a tree without inner node
  and a secondary edge that starts at a terminal panic (C41); only the first secondary parent of a
  node is written and a missing secondary label becomes `--`.
* Encodings: a depth of 2^63 wraps (C43), `fix` can overflow (C44), labels with `_` are cut when decoded
  (C45), an empty label is written but not read (C47), the labels `NONE` and those with separators do
  not survive (C48). `decode` trusts the positions of the words it is given (C46).
* Tagged sentences: an empty sentence and an absolute depth of 0 panic, and so does a running sum of
  relative offsets beyond an isize (C58).
* Conversion tool: `--reattach` hangs on a one-word sentence (C55). `--projectivize` runs before
  `--reattach`, which can make the tree discontinuous again, so that brackets or tags cannot be written
  (C56). `--insertion_set` and `--parent` exit for trees whose root is a word, also when
  `--remove_dummies` removed everything above the only word (C55).

## Trusted base

* Coq's kernel, including `vm_compute` for examples and refutations.
* `Print Assumptions` reports "Closed under the global context" for every theorem in
  `MANIFEST.json`. No axiom of the standard library is used. std++ is used for finite maps, sets and
  tactics. Loading it loads `Coq.ssr.ssrunder`, whose module `Under_rel` is opaque and shows up as
  seven parameters when the whole library is listed; no theorem depends on them.
* The correspondence of the model with the Rust source, established by reading. The code cannot be
  built here.
* External crates as described in the comments of the model: `petgraph` (node and edge order, slot
  reuse), `pest` (PEG semantics), `conllx` (tokens are records of optional fields; `Features` as a
  map; its reader and writer are not modelled), `std` (`split`, `parse`, `trim`, `sort`).

## Not modelled

* Memory and stack exhaustion, the `u32` limit of petgraph indices.
* Text of error messages, `Debug`/`Display` output other than what is written to files.
* File I/O: streams are lists of lines in which `None` stands for an I/O error; writing never fails.
* `clap` argument parsing, `stdinout` and opening of files in the conversion tool; the options are a
  record. Reading is not interleaved with writing in `tool_text` and `tool_sentences`.
* `benches`, unit tests and the README.
