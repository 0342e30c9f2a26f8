{"id": "C01", "title": "Span construction from an index list", "statement": "Building a span from a list of sentence positions fails exactly when the list is empty; otherwise the span contains exactly the listed positions (duplicates and order do not matter), its bounds are the least position and one past the greatest, and it reports skipped positions iff there is a gap.", "quantifier": "every finite list of positions", "why_tests_cant": "Infinitely many lists; gap/duplicate/order combinations cannot be enumerated.", "anchors": ["lumberjack/src/span.rs: Span::from_vec, Span::contains, Span::skips, Span::bounds"]}
{"id": "C02", "title": "Span iteration agrees with containment", "statement": "Iterating over a span yields, in strictly increasing order and without repetition, exactly the positions for which contains() is true, and n_indices() is the number of them.", "quantifier": "every span that the library can construct", "why_tests_cant": "Ranges over all spans and all skip sets.", "anchors": ["lumberjack/src/span.rs: SpanIter::next, Span::n_indices, Span::contains"]}
{"id": "C03", "title": "covers_span is the superset test", "statement": "a.covers_span(b) is true iff every position contained in b is contained in a.", "quantifier": "every pair of constructible spans", "why_tests_cant": "Ranges over all pairs of spans with arbitrary skip sets.", "anchors": ["lumberjack/src/span.rs: Span::covers_span"]}
{"id": "C04", "title": "Merging spans is set union", "statement": "Merging two spans never panics and gives the span containing exactly the positions of either one; the continuity it reports is right.", "quantifier": "every pair of constructible spans", "why_tests_cant": "Ranges over all pairs of spans.", "anchors": ["lumberjack/src/span.rs: Span::merge_spans", "lumberjack/src/node.rs: NonTerminal::merge_spans"]}
{"id": "C05", "title": "Removing indices is set difference", "statement": "Removing positions from a span gives the span of exactly the remaining positions with tight bounds and reports its continuity correctly; it panics exactly when a position is outside the bounds or nothing would remain.", "quantifier": "every constructible span and every list of positions", "why_tests_cant": "All spans and all removal lists, including lists hitting both bounds and existing gaps.", "anchors": ["lumberjack/src/span.rs: Span::remove_indices"]}
{"id": "C06", "title": "Span equality and ordering", "statement": "Two spans are equal iff they contain the same positions. The ordering is a total preorder (reflexive, transitive, total, antisymmetric up to Equal), sorting by start, end, and number of positions. (The usual Rust contract that cmp returns Equal only for equal values is checked too.)", "quantifier": "every pair / triple of constructible spans", "why_tests_cant": "Order axioms range over all triples.", "anchors": ["lumberjack/src/span.rs: PartialEq for Span, Ord::cmp"]}
{"id": "C07", "title": "Feature maps behave like maps", "statement": "After insert(k, v) a lookup of k gives v and lookups of other keys are unchanged; remove(k) makes k absent and leaves the rest; the returned value is the replaced one. Insert returns the previous value of that key.", "quantifier": "every feature map, key and value", "why_tests_cant": "All maps and keys.", "anchors": ["lumberjack/src/features.rs: Features::insert, get_val, remove"]}
{"id": "C08", "title": "Feature string round-trip", "statement": "Printing a feature map and parsing the text gives the same map, for every map whose keys and values avoid '|' and ':' (keys non-empty).", "quantifier": "every feature map over admissible strings", "why_tests_cant": "Strings and maps are unbounded.", "anchors": ["lumberjack/src/features.rs: ToString for Features, From<S> for Features"]}
{"id": "C09", "title": "Every tree reachable through the editing API is well-formed", "statement": "After any sequence of editing calls starting from a new tree: there is one root, every other node has exactly one primary parent and is reachable from the root, terminals are leaves, nonterminals have a child, the terminals' positions are exactly 0..n_terminals-1, every node's span contains exactly the positions of the terminals below it, and is_projective() is true iff no node has a gap.", "quantifier": "every finite history of API calls with any arguments", "why_tests_cant": "Histories are unbounded and the invariant relates the whole graph to cached spans and counters.", "anchors": ["lumberjack/src/tree.rs: Tree::new, push_terminal, insert_terminal, move_terminal, insert_unary_above, insert_unary_below, remove_node, reattach_node, add_secondary_edge, remove_secondary_edge"]}
{"id": "C10", "title": "push_terminal appends", "statement": "push_terminal fails, changing nothing, iff the root is a terminal; otherwise it adds one terminal with the given form and tag as last word, as a child of the root, and leaves every other node, position and edge unchanged.", "quantifier": "every well-formed tree, form and tag", "why_tests_cant": "All trees.", "anchors": ["lumberjack/src/tree.rs: Tree::push_terminal"]}
{"id": "C11", "title": "insert_terminal shifts the sentence", "statement": "insert_terminal at position i puts the new terminal at position i under the given parent; terminals before i keep their positions, those at or after i move by one, no other attachment changes, and all nonterminal spans are recomputed. It panics exactly when the parent is a terminal or i > n_terminals.", "quantifier": "every well-formed tree, parent, position", "why_tests_cant": "All trees and positions.", "anchors": ["lumberjack/src/tree.rs: Tree::insert_terminal, reset_nt_spans"]}
{"id": "C12", "title": "move_terminal permutes positions", "statement": "move_terminal(t, i) puts t at position i, keeps the relative order of all other terminals, does not change any attachment, and recomputes spans and projectivity; it panics if i is out of bounds or t is a nonterminal.", "quantifier": "every well-formed tree, terminal and target position", "why_tests_cant": "All trees and both move directions.", "anchors": ["lumberjack/src/tree.rs: Tree::move_terminal"]}
{"id": "C13", "title": "insert_unary_above/below insert exactly one node", "statement": "insert_unary_above(c) adds one nonterminal with c's span whose only child is c, taking c's place below c's old parent (or becoming the root); insert_unary_below(n) adds one nonterminal that is n's only child and has n's former children, and fails without change on terminals. All other dominance relations and spans are unchanged, and is_projective() stays accurate.", "quantifier": "every well-formed tree and node", "why_tests_cant": "All trees and nodes; the counter interplay needs whole-tree reasoning.", "anchors": ["lumberjack/src/tree.rs: Tree::insert_unary_above, insert_unary_below"]}
{"id": "C14", "title": "Removing a nonterminal splices its children", "statement": "remove_node on a nonterminal removes exactly that node and attaches its children to its parent; spans and positions of all other nodes are unchanged and is_projective() stays accurate. On the root it succeeds iff the root has exactly one child, which becomes the root. Err leaves the tree unchanged.", "quantifier": "every well-formed tree and nonterminal", "why_tests_cant": "All trees.", "anchors": ["lumberjack/src/tree.rs: Tree::remove_node, remove_nonterminal"]}
{"id": "C15", "title": "Removing a terminal renumbers the sentence", "statement": "remove_node on a terminal fails without change iff the terminal has no sibling; otherwise the terminal disappears, the remaining terminals are renumbered 0..n-2 in the same order, and the spans of all nodes are recalculated.", "quantifier": "every well-formed tree and terminal", "why_tests_cant": "All trees.", "anchors": ["lumberjack/src/tree.rs: Tree::remove_node, remove_terminal, compact_terminal_spans, reset_nt_spans"]}
{"id": "C16", "title": "Reattaching keeps a tree with accurate spans", "statement": "reattach_node(new_parent, edge) fails without change iff the new parent is the node itself, is a terminal, or the edge is the last one of its old parent (and the parent changes); otherwise the edge's child hangs below new_parent, no other attachment changes, the result is still a tree, and all spans and is_projective() are accurate.", "quantifier": "every well-formed tree, edge and new parent", "why_tests_cant": "All trees and all relative positions of old and new parent.", "anchors": ["lumberjack/src/tree.rs: Tree::reattach_node, reattach_primary"]}
{"id": "C17", "title": "Secondary edges are inert", "statement": "Adding, removing or reattaching secondary edges never changes parent(), children(), siblings(), spans, projectivity, equality or bracketed output; removing returns None for an absent or primary edge.", "quantifier": "every tree and every sequence of secondary-edge operations", "why_tests_cant": "All trees and histories.", "anchors": ["lumberjack/src/tree.rs: add_secondary_edge, remove_secondary_edge, reattach_secondary, parent, children"]}
{"id": "C18", "title": "Navigation is consistent", "statement": "parent(c) = (p, e) iff (c, e) is among children(p); siblings(n) are exactly the other children of n's parent; are_siblings(a, b) is true iff a and b are immediately dominated by the same node.", "quantifier": "every well-formed tree and pair of nodes", "why_tests_cant": "All trees and node pairs.", "anchors": ["lumberjack/src/tree.rs: parent, children, siblings, are_siblings"]}
{"id": "C19", "title": "descendent_terminals is the yield", "statement": "descendent_terminals(n) yields exactly the terminals dominated by n, each once, and their positions are exactly n's span.", "quantifier": "every well-formed tree and node", "why_tests_cant": "All trees; depends on the graph traversal.", "anchors": ["lumberjack/src/tree.rs: descendent_terminals, TerminalDescendents"]}
{"id": "C20", "title": "projectivize makes the tree projective", "statement": "projectivize() terminates without panicking; it returns None and changes nothing iff the tree was projective; otherwise afterwards every span is continuous and accurate, is_projective() is true, and the node set, node contents other than spans, terminal order and edge labels are unchanged.", "quantifier": "every well-formed tree and every iteration order of the hash sets", "why_tests_cant": "Unbounded trees and nondeterministic hash-set order; termination.", "anchors": ["lumberjack/src/tree_modification.rs: Projectivize for Tree"]}
{"id": "C21", "title": "projectivize reports what it moved", "statement": "Each reported triple (parent, edge, child) is one re-attachment: child was a child of parent through that edge label at that moment; nodes not reported keep their parent and edge label.", "quantifier": "every well-formed tree and hash-set order", "why_tests_cant": "Unbounded trees.", "anchors": ["lumberjack/src/tree_modification.rs: Projectivize for Tree"]}
{"id": "C22", "title": "collapse_unary_chains removes all unary chains", "statement": "After collapse_unary_chains every nonterminal has at least two children, terminals and their order are unchanged, remaining nonterminals keep label and span, and the collapsed labels are recorded bottom-up under \"unary_chain\" on the node below.", "quantifier": "every well-formed tree and delimiter", "why_tests_cant": "Unbounded trees and chain lengths; it mutates while climbing.", "anchors": ["lumberjack/src/tree_modification.rs: collapse_unary_chains"]}
{"id": "C23", "title": "restore_unary_chains inverts collapse_unary_chains", "statement": "Collapsing and then restoring with the same delimiter gives back the original constituency structure and labels, for trees whose nonterminal labels do not contain the delimiter and that carry no unary_chain features.", "quantifier": "every well-formed tree and non-empty delimiter", "why_tests_cant": "Round-trip over unbounded trees.", "anchors": ["lumberjack/src/tree_modification.rs: collapse_unary_chains, restore_unary_chains"]}
{"id": "C24", "title": "filter_nonterminals keeps root and matches", "statement": "filter_nonterminals never fails; afterwards the nonterminals are exactly the root and those for which the (label based) predicate held, every kept node has the same span, and dominance among kept nodes is unchanged.", "quantifier": "every well-formed tree and predicate", "why_tests_cant": "All trees and predicates.", "anchors": ["lumberjack/src/tree_modification.rs: filter_nonterminals"]}
{"id": "C25", "title": "reattach_terminals terminates and attaches", "statement": "reattach_terminals(a, f) terminates for every nonterminal attachment point; afterwards each matched terminal is a child of a, unmatched terminals keep their order, nonterminals left without terminals are gone, and spans are accurate.", "quantifier": "every well-formed tree, nonterminal attachment point and predicate", "why_tests_cant": "Termination and unbounded trees.", "anchors": ["lumberjack/src/tree_modification.rs: reattach_terminals"]}
{"id": "C26", "title": "insert_intermediate groups runs of terminals", "statement": "insert_intermediate fails iff some terminal has no parent; otherwise, below every node whose label matches, each maximal run of adjacent terminal children gets one new node with the given label, and nothing else changes.", "quantifier": "every well-formed tree and match function", "why_tests_cant": "All trees.", "anchors": ["lumberjack/src/tree_modification.rs: insert_intermediate"]}
{"id": "C27", "title": "annotate_pos assigns tags in sentence order", "statement": "annotate_pos fails iff the number of tags differs from the number of terminals; on success the i-th tag becomes the tag of the i-th word of the sentence, and nothing else changes.", "quantifier": "every well-formed tree and tag list", "why_tests_cant": "All trees, including ones whose node order differs from word order.", "anchors": ["lumberjack/src/tree_modification.rs: AnnotatePOS"]}
{"id": "C28", "title": "annotate_parent_tag annotates the parent label", "statement": "annotate_parent_tag fails iff some terminal has no parent; otherwise every terminal's feature equals its parent's label and nothing else changes.", "quantifier": "every well-formed tree and feature name", "why_tests_cant": "All trees.", "anchors": ["lumberjack/src/tree_modification.rs: annotate_parent_tag"]}
{"id": "C29", "title": "Projection onto terminals picks the closest matching ancestor", "statement": "project_nt_indices returns, for each position, the closest ancestor satisfying the predicate (the root if none); project_tag_set annotates that ancestor's label and only if one exists; project_ids gives two terminals the same id iff their closest matching ancestor is the same.", "quantifier": "every well-formed tree and predicate", "why_tests_cant": "All trees and predicates.", "anchors": ["lumberjack/src/tree.rs: project_nt_indices, project_tag_set, project_ids, map_climber_path", "lumberjack/src/util.rs: Climber"]}
{"id": "C30", "title": "Tree equality is structural equality", "statement": "Two well-formed trees compare equal iff they have the same constituency structure with equal node contents (word form, tag, lemma, label, features) and edge labels at corresponding positions.", "quantifier": "every pair of well-formed trees", "why_tests_cant": "All pairs of trees with arbitrary node numbering and edge insertion order.", "anchors": ["lumberjack/src/tree.rs: PartialEq for Tree, subtree_eq", "lumberjack/src/node.rs: PartialEq for Terminal, NonTerminal"]}
{"id": "C31", "title": "The bracket parser accepts exactly the bracketed language", "statement": "string_to_tree succeeds iff the text is one well-bracketed tree (label followed by a word or by one or more subtrees, separated by optional blanks), the parse is unique, and it never panics.", "quantifier": "every input string", "why_tests_cant": "All strings.", "anchors": ["lumberjack/src/io/ptb.rs: string_to_tree, parse_value", "lumberjack/src/io/ptb.pest"]}
{"id": "C32", "title": "Parsed bracketed trees are well-formed and projective", "statement": "Every tree returned by string_to_tree is well-formed and projective, its terminals are the words of the text from left to right, and the structure is that of the brackets.", "quantifier": "every accepted input string and every format", "why_tests_cant": "All strings.", "anchors": ["lumberjack/src/io/ptb.rs: string_to_tree, parse_value, process_label, process_preterminal"]}
{"id": "C33", "title": "Simple format round-trip", "statement": "Writing a projective tree in Simple format and reading it back gives the same structure, labels, tags and forms, if these contain no brackets, spaces or newlines and are non-empty.", "quantifier": "every projective well-formed tree over admissible strings", "why_tests_cant": "Round-trip over all trees.", "anchors": ["lumberjack/src/io/ptb.rs: tree_to_string, format_sub_tree, fmt_term, fmt_inner, string_to_tree"]}
{"id": "C34", "title": "TueBa format round-trip", "statement": "Writing a projective tree in TueBa format and reading it back gives the same structure, labels, tags, forms, node annotations and edge labels, for admissible strings.", "quantifier": "every projective well-formed tree over admissible strings", "why_tests_cant": "Round-trip over all trees.", "anchors": ["lumberjack/src/io/ptb.rs: PTBFormat::TueBa"]}
{"id": "C35", "title": "PTB format round-trip", "statement": "Reading \"(TAG-annotation ...)\" gives label TAG and annotation \"annotation\", and writing it back in PTB format gives the same text.", "quantifier": "every label with an annotation", "why_tests_cant": "All labels.", "anchors": ["lumberjack/src/io/ptb.rs: PTBFormat::PTB, process_label, fmt_inner"]}
{"id": "C36", "title": "Bracketed writing fails exactly on non-projective trees", "statement": "tree_to_string returns Err iff the tree is not projective and otherwise a string whose words from left to right are the sentence, with balanced brackets.", "quantifier": "every well-formed tree and format", "why_tests_cant": "All trees.", "anchors": ["lumberjack/src/io/ptb.rs: tree_to_string, format_sub_tree"]}
{"id": "C37", "title": "PTBReader delivers every tree in order", "statement": "In single-line mode the reader yields exactly one result per line not starting with '%', in order; in multi-line mode it yields one result per balanced group of lines and the result equals parsing the group's text; it never panics.", "quantifier": "every input stream", "why_tests_cant": "All streams of lines.", "anchors": ["lumberjack/src/io/ptb.rs: PTBReader::next, count_pars"]}
{"id": "C38", "title": "NegraReader segments and resynchronises", "statement": "The reader yields one result per #BOS..#EOS block; a malformed block produces errors but does not prevent later well-formed blocks from being delivered unchanged; text outside blocks is ignored; the reader never panics.", "quantifier": "every input stream", "why_tests_cant": "All streams, including malformed ones.", "anchors": ["lumberjack/src/io/negra.rs: NegraReader::next, Builder"]}
{"id": "C39", "title": "Trees read from NEGRA are well-formed", "statement": "Every tree delivered by NegraReader is well-formed: all nodes below the root, spans accurate, is_projective() accurate.", "quantifier": "every accepted NEGRA block", "why_tests_cant": "All blocks, including any order of nonterminal lines.", "anchors": ["lumberjack/src/io/negra.rs: Builder::process_nonterminal_line, process_terminal_line, try_into_tree"]}
{"id": "C40", "title": "NEGRA round-trip", "statement": "Writing a well-formed tree with NegraWriter and reading it back gives an equal tree (structure, labels, annotations, edge labels, form, tag, lemma, morph), for admissible strings and a root labelled VROOT.", "quantifier": "every well-formed tree (projective or not) over admissible strings", "why_tests_cant": "Round-trip over all trees; node numbering uses a work queue.", "anchors": ["lumberjack/src/io/negra.rs: NegraWriter::write_tree, NegraReader"]}
{"id": "C41", "title": "NegraWriter numbers nonterminals bottom-up", "statement": "The writer never panics and emits one line per terminal in sentence order followed by one line per non-root nonterminal, children before parents, with distinct ids from 500 upward.", "quantifier": "every well-formed tree", "why_tests_cant": "All trees.", "anchors": ["lumberjack/src/io/negra.rs: write_tree"]}
{"id": "C42", "title": "Relative encoding is the conversion of the absolute encoding", "statement": "encode_relative(t) equals RelativeEncoding::from(encode_absolute(t)), and both fail iff the tree is not projective.", "quantifier": "every well-formed tree", "why_tests_cant": "All trees.", "anchors": ["lumberjack/src/io/encode.rs: encode_relative, encode_absolute, From<AbsoluteEncoding> for RelativeEncoding"]}
{"id": "C43", "title": "Relative to absolute conversion inverts absolute to relative", "statement": "try_from_relative(RelativeEncoding::from(a)) succeeds with a, for every absolute encoding with positive depths.", "quantifier": "every absolute encoding with n_common >= 1", "why_tests_cant": "All encodings.", "anchors": ["lumberjack/src/io/encode.rs: try_from_relative"]}
{"id": "C44", "title": "Repairing relative encodings", "statement": "unwrap_or_fix always returns an encoding of the same length with the same labels and unary chains, all depths >= 1; it equals the exact conversion when that succeeds, and otherwise replaces each offending depth with 2.", "quantifier": "every relative encoding", "why_tests_cant": "All encodings with arbitrary offsets.", "anchors": ["lumberjack/src/io/encode.rs: try_from_relative, RelativeToAbsoluteError::fix, ConversionResult::unwrap_or_fix"]}
{"id": "C45", "title": "Decoding inverts encoding", "statement": "decode(encode_absolute(t), terminals of t) gives a tree equal in structure and labels to t, for every projective tree without unary chains whose labels contain no '_'.", "quantifier": "every projective tree without unary chains", "why_tests_cant": "Round-trip over all trees.", "anchors": ["lumberjack/src/io/encode.rs: encode_absolute, get_common, Decode::decode"]}
{"id": "C46", "title": "Decoding any label sequence gives a tree", "statement": "decode of any label sequence with depths >= 1 and as many labels as terminals (at least one, the i-th one having position i) terminates, does not panic and gives a well-formed projective tree over exactly these terminals in order.", "quantifier": "every label sequence with positive depths", "why_tests_cant": "All (also inconsistent) predicted sequences.", "anchors": ["lumberjack/src/io/encode.rs: Decode::decode"]}
{"id": "C47", "title": "Ancestor tags survive their textual form", "statement": "Printing an ancestor tag and parsing it gives the tag back, for labels without '+'.", "quantifier": "every tag", "why_tests_cant": "All labels and offsets.", "anchors": ["lumberjack/src/io/encode.rs: ToString / TryFrom<&str> for AbsoluteAncestor, RelativeAncestor"]}
{"id": "C48", "title": "CONLLX encoding round-trip", "statement": "collapse_unary_chains, annotate_absolute (or annotate_relative), conversion to CONLLX and try_from_conllx give back the original structure, labels, forms and tags, for admissible labels.", "quantifier": "every projective well-formed tree over admissible labels", "why_tests_cant": "Composition of five transformations over all trees.", "anchors": ["lumberjack/src/io/conllx.rs", "lumberjack/src/io/encode.rs: annotate_absolute, annotate_relative"]}
{"id": "C49", "title": "CONLLX conversion keeps the sentence", "statement": "to_conllx (both variants) yields one token per terminal, in sentence order, carrying form, lemma, tag and features.", "quantifier": "every well-formed tree", "why_tests_cant": "All trees, any node numbering.", "anchors": ["lumberjack/src/io/conllx.rs: From<&Tree> for Sentence, From<Tree> for Sentence"]}
{"id": "C50", "title": "remove_dummy_nodes removes exactly the dummies", "statement": "remove_dummy_nodes never fails; afterwards no non-root node is labelled DUMMY, all other nodes, their spans and dominance are kept, and a DUMMY root with one child is removed.", "quantifier": "every well-formed tree", "why_tests_cant": "All trees.", "anchors": ["lumberjack/src/io/encode.rs: remove_dummy_nodes"]}
{"id": "C51", "title": "Label sets", "statement": "LabelSet::matches is membership for Positive and non-membership for Negative sets.", "quantifier": "every set and query", "why_tests_cant": "All sets.", "anchors": ["lumberjack/src/util.rs: LabelSet::matches"]}
{"id": "C52", "title": "Encoding computes lowest common ancestors", "statement": "encode_absolute of a projective tree has one entry per word; entry i carries the label (with the chain feature in front) and the depth of the lowest node dominating words i and i+1, the last entry none, and every entry the chain feature of its word.", "quantifier": "every well-formed projective tree", "why_tests_cant": "All trees.", "anchors": ["lumberjack/src/io/encode.rs: encode_absolute, get_common"]}
{"id": "C53", "title": "Ancestor annotation", "statement": "annotate_absolute / annotate_relative fail without change exactly on non-projective trees; otherwise every terminal receives the text of its entry (with '~' and its chain) under abs_ancestor / rel_ancestor and nothing else changes.", "quantifier": "every well-formed tree", "why_tests_cant": "All trees; the loop reads and writes the same graph.", "anchors": ["lumberjack/src/io/encode.rs: annotate_absolute, annotate_relative"]}
{"id": "C54", "title": "Readers number words in sentence order", "statement": "Every tree delivered by any reader (bracket formats, NEGRA, absolute and relative tags) has node numbers that grow with the positions of its words; on such trees annotate_pos assigns tags in sentence order and insert_intermediate groups maximal runs.", "quantifier": "every input of every reader; every well-formed tree so numbered", "why_tests_cant": "The conditions of C26 and C27 depend on the history of the tree, so tests on read trees never see them violated and tests on edited trees rarely do.", "anchors": ["lumberjack/src/io/ptb.rs: parse_tree", "lumberjack/src/io/negra.rs: build_tree", "lumberjack/src/io/encode.rs: from_conllx", "lumberjack/src/tree_modification.rs: annotate_pos, insert_intermediate"]}
{"id": "C55", "title": "The conversion pipeline does what its options say and keeps the words", "statement": "For every combination of options the loop body of lumberjack-conversion either exits, exactly for input that lacks tags, lacks a parent where one is needed or is discontinuous where tags are wanted, or composes the effects of its options in the documented order; no word, lemma or word position ever changes and the written sentence has the words of the input in order.", "quantifier": "every option combination, well-formed input tree and tag file", "why_tests_cant": "2^11 option combinations times all trees; steps interact through the mutated graph.", "anchors": ["lumberjack-utils/src/bin/lumberjack-conversion.rs: main"]}
{"id": "C56", "title": "Projectivized output can be written", "statement": "With --projectivize (or projective input), bracketed, tag and CONLL-X output of the conversion tool never fails for a structural reason.", "quantifier": "every option combination and well-formed input tree", "why_tests_cant": "Later steps could reintroduce gaps after projectivize ran.", "anchors": ["lumberjack-utils/src/bin/lumberjack-conversion.rs: main", "lumberjack/src/projectivize.rs: projectivize"]}
{"id": "C57", "title": "The conversion run", "statement": "The tool writes one item per tree in input order, pairing tree i with tag sentence i; it succeeds iff every tree was written, stops at the first tree that cannot be read, converted or written, never panics or hangs, and converts files of good trees completely.", "quantifier": "every stream of read results, option combination and tag file", "why_tests_cant": "Unbounded streams with state (tag file position, sentence counter) carried between trees.", "anchors": ["lumberjack-utils/src/bin/lumberjack-conversion.rs: main"]}
{"id": "C58", "title": "Reading tagged sentences", "statement": "Reading a CONLL-X sentence with absolute or relative ancestor tags fails with an error exactly when some word lacks a readable tag; otherwise it gives the well-formed projective tree over exactly the words, forms, lemmas and features of the sentence that its tags describe, for any tags a tagger may predict, and never panics.", "quantifier": "every sentence of tokens with arbitrary feature texts", "why_tests_cant": "Predicted tag sequences are arbitrary; only consistent ones occur in test files.", "anchors": ["lumberjack/src/io/conllx.rs: TryFromConllx", "lumberjack/src/io/encode.rs: TryFrom<&str>, try_from_relative, fix, decode"]}
{"id": "C59", "title": "Converting back and forth keeps the treebank", "statement": "Running the conversion tool on a treebank and running it again on its own output (tags, NEGRA, bracketed lines) yields the bracketed texts of the original trees, tree by tree and in order.", "quantifier": "every list of well-formed projective trees whose strings fit the format", "why_tests_cant": "Composition of writer, line splitting, reader and pipeline over whole files.", "anchors": ["lumberjack-utils/src/bin/lumberjack-conversion.rs: main", "lumberjack/src/io/ptb.rs", "lumberjack/src/io/negra.rs", "lumberjack/src/io/conllx.rs", "lumberjack/src/io/encode.rs"]}
{"id": "C60", "title": "Editing keeps secondary edges", "statement": "Secondary edges are only added, moved, relabelled or deleted by calls that name them. An edit or transformation that removes no node keeps each of them with number, ends and label; one that removes nodes loses exactly the secondary edges of removed nodes; a conversion run invents none except, with --sec_edges, the np edges of the reattachments.", "quantifier": "every graph, every edit, history of edits, transformation and option combination", "why_tests_cant": "Primary and secondary edges share one store and recycled numbers; a test would have to compare all edges after every call on trees that carry secondary edges, which the project's tests do not contain.", "anchors": ["lumberjack/src/tree.rs: remove_node, reattach_node, insert_unary_above, insert_unary_below, remove_terminal", "lumberjack/src/tree_modification.rs", "lumberjack/src/projectivize.rs", "lumberjack/src/io/encode.rs: annotate_absolute, annotate_relative, remove_dummy_nodes", "lumberjack-utils/src/bin/lumberjack-conversion.rs: main"]}
{"id": "C61", "title": "The conversion tool from bracketed text to output", "statement": "For every bracketed file, in single-line and multi-line mode and with every combination of options, the tool writes one item per tree text and succeeds, or stops with an error at the first text that is no bracketed tree or cannot be converted; it does not panic or hang. Item i belongs to text i: a written sentence has exactly its words in order, and a written bracketed tree has the same words. A file of bracketed trees is converted completely. No reader delivers a tree with a secondary edge that starts at a word.", "quantifier": "every file, format, mode and option combination", "why_tests_cant": "The claim composes parser, every editing step, encoder and writer for unbounded texts; tests run single steps on a few trees, and the tool itself has no test.", "anchors": ["lumberjack-utils/src/bin/lumberjack-conversion.rs: main", "lumberjack-utils/src/bin/lumberjack-conversion.rs: get_reader", "lumberjack/src/io/ptb.rs: PTBReader::next, PTBFormat::string_to_tree", "lumberjack/src/io/encode.rs", "lumberjack/src/io/negra.rs"]}
{"id": "C62", "title": "A NEGRA sentence is read line by line into its tree", "statement": "The tree delivered for a NEGRA sentence has the root and exactly one node per line. A word line gives a terminal with its form, lemma, tag, morphology and the position of the line; a '#' line gives a nonterminal with its label and annotation. The primary edges are exactly those from the node with the parent number of a line to the node of that line, with its edge label; the secondary edges are exactly those the lines name. The root is VROOT with the sentence number, which the footer repeats, and the metadata of the header.", "quantifier": "every stream of lines and every delivered tree", "why_tests_cant": "The reader creates nodes when they are first mentioned and fills them in later; the content of a node depends on all earlier lines. Tests read one sentence and compare selected nodes.", "anchors": ["lumberjack/src/io/negra.rs: NegraReader::next, Builder::from_header, process_line, process_terminal_line, process_nonterminal_line, process_edges, parse_optional_fields, try_into_tree"]}
{"id": "C63", "title": "The conversion tool from NEGRA files to output", "statement": "For every NEGRA stream whose sentences are sound and bottom-up and with every combination of options the tool writes a result or stops with an error, without panic or hang; every item belongs to a sentence of the stream. For a file of complete sentences with other lines between them item i belongs to sentence i, a written sentence has exactly the forms and lemmas of its word lines in order, and without --reattach and --pos the file is converted completely if discontinuous trees are made projective or the output is NEGRA.", "quantifier": "every stream, file and option combination", "why_tests_cant": "The claim composes the line reader, every editing step, encoder and writer over unbounded files; the tool has no test.", "anchors": ["lumberjack-utils/src/bin/lumberjack-conversion.rs: main", "lumberjack-utils/src/bin/lumberjack-conversion.rs: get_reader", "lumberjack/src/io/negra.rs", "lumberjack/src/io/encode.rs", "lumberjack/src/io/ptb.rs"]}
{"id": "C64", "title": "The conversion tool from tagged sentences to output", "statement": "For every file of sentences with absolute or relative ancestor tags and every combination of options the tool writes a result or stops with an error, without panic or hang. Item i belongs to sentence i, whose tags can all be read; a written sentence has exactly its words in order. If every token has a readable tag the file is converted completely.", "quantifier": "every list of sentences, arbitrary tags, every option combination", "why_tests_cant": "Tags come from a tagger and can be any text; the claim composes reading, repairing, decoding, every editing step and every writer. The tool has no test.", "anchors": ["lumberjack-utils/src/bin/lumberjack-conversion.rs: main", "lumberjack-utils/src/bin/lumberjack-conversion.rs: get_reader", "lumberjack/src/io/encode.rs", "lumberjack/src/io/conllx.rs"]}
{"id": "C65", "title": "The NEGRA reader on any stream", "statement": "For every stream of lines (some of them possibly unreadable) the results of the NEGRA reader are determined by the text: lines outside sentences are ignored; an unreadable line, a footer without sentence, a header without number, a header inside a sentence and a line that does not fit the lines before it give one Err each and end the sentence; a footer gives one tree or one Err; an unfinished sentence at the end gives nothing. The reader panics exactly at the footer of a sentence whose lines are all acceptable but that is empty or names an unknown secondary parent, when the footer has the number of the header. It always terminates.", "quantifier": "all streams of lines", "why_tests_cant": "a test covers single malformed files; the claim is a complete case distinction over all interleavings of headers, footers, lines and I/O errors", "anchors": ["lumberjack/src/io/negra.rs:43-75", "lumberjack/src/io/negra.rs:97-300"]}
{"id": "C66", "title": "Secondary edge queries", "statement": "secondary_parent reports None exactly for nodes without an incoming secondary edge and otherwise an existing secondary edge with its source; secondary_children lists exactly the outgoing secondary edges, each once. A new secondary edge becomes the answer of secondary_parent for its child and the first of secondary_children for its parent and changes no other answer; after removal an answer that did not name the removed edge stays.", "quantifier": "all trees whose graph is well-formed, all nodes, all secondary edges", "why_tests_cant": "tests query single trees; the claim covers any number of secondary edges between any nodes and any order of adding and removing", "anchors": ["lumberjack/src/tree.rs:84-142"]}
{"id": "C67", "title": "Removing nodes while climbing", "statement": "The documented use of map_climber_path, for any two tests A and B on labels: climbing from every terminal, removing every ancestor that passes A and stopping at the first one that passes B after noting its label on the terminal. It does not panic or hang; it removes exactly the nonterminals passing A that some terminal reaches without a stopping node in between; every terminal carries the label of its closest stopping ancestor, and is unchanged when it has none; dominance among the remaining nodes is unchanged and the tree is well-formed.", "quantifier": "all well-formed trees, all tests on labels, all feature names", "why_tests_cant": "the tree is mutated under the climber and each terminal's climb runs on the tree left by the climbs before; tests run single trees", "anchors": ["lumberjack/src/tree.rs:442-492", "lumberjack/src/util.rs:17-56", "lumberjack/src/tree.rs:319-340"]}
{"id": "C68", "title": "The two tag formats describe the same tree", "statement": "If two sentences have the same words and the relative tags of one are the differences of the absolute tags of the other, with depths between 1 and 2^63 - 1, then reading them gives the same tree, node numbers included. In particular the sentences obtained from one tree by absolute and relative annotation are read into the same tree (the assertion of the conllx_roundtrip test, for all trees).", "quantifier": "every pair of such sentences; every well-formed projective tree with admissible labels", "why_tests_cant": "The test compares the two readings on the trees of one file only; the depth difference, repair and decoding paths depend on every tag before the current one.", "anchors": ["lumberjack/src/io/conllx.rs:85-123", "lumberjack/src/io/encode.rs:462-492", "lumberjack/src/io/encode.rs:583-603", "lumberjack/src/io/mod.rs:124-155"]}
{"id": "C69", "title": "Writing what was read and reading it again gives the same tree", "statement": "For every well-bracketed text: reading it, writing the tree in the same format and reading the written text gives the identical tree (node numbers, labels, annotations, edge labels, positions) if and only if the format is not PTB, or no inner label contains a hyphen and no tag begins with one. In particular every text accepted in the Simple and TueBa formats is stable after one pass.", "quantifier": "every format and every well-bracketed text, whatever its blanks, labels and shape", "why_tests_cant": "The roundtrip test takes the lines of one file in one format; whether the written labels are taken apart as before depends on every separator character in every label.", "anchors": ["lumberjack/src/io/ptb.rs:81-97", "lumberjack/src/io/ptb.rs:99-159", "lumberjack/src/io/ptb.rs:161-265", "lumberjack/src/io/mod.rs:33-42"]}
{"id": "C70", "title": "NEGRA sentences can be written again, with their secondary edges", "statement": "A well-formed tree that the NEGRA reader delivers can always be written in NEGRA again, and reading the written text delivers exactly one tree: the same up to node numbers in all strings, positions, spans, primary edges and secondary edges, with the same sentence number and metadata, and equal for the library's own equality. For trees from any source the same holds if the strings fit the format and all secondary edges into a node have the same source and label; without that bound a secondary edge is lost silently.", "quantifier": "every stream of lines and every well-formed tree delivered from it; every well-formed tree with fitting strings", "why_tests_cant": "The tests write the trees of one file and compare text; whether every string that can come out of a field, every node numbering and every secondary edge survives the second pass depends on all of them.", "anchors": ["lumberjack/src/io/negra.rs:169-296", "lumberjack/src/io/negra.rs:346-412", "lumberjack/src/io/negra.rs:414-490", "lumberjack/src/io/negra.rs:94-167"]}
{"id": "C71", "title": "The NEGRA text does not depend on node numbers, and reformatting is idempotent", "statement": "If two well-formed trees are the same up to node numbers and no node has two different incoming secondary edges, the NEGRA writer produces the same text for both, given the same sentence number and metadata. Hence a NEGRA file whose sentences give well-formed trees can be reformatted without loss, and reformatting the result gives the result byte for byte, whatever the sentence counter. With two incoming secondary edges the text depends on the order in which they were added.", "quantifier": "every pair of well-formed trees that are the same up to node numbers; every list of writable trees; every stream of lines whose sentences give well-formed trees", "why_tests_cant": "Node numbers depend on the whole edit history and the numbering of the writer is a queue over them; a test compares one text with one stored file.", "anchors": ["lumberjack/src/io/negra.rs:392-412", "lumberjack/src/io/negra.rs:414-497", "lumberjack/src/tree.rs:75-106"]}
