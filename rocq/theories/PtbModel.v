(** Model of /repo/lumberjack/src/io/ptb.rs and /repo/lumberjack/src/io/ptb.pest. *)
From Verif Require Export ModModel.

(** io/mod.rs:14 [NODE_ANNOTATION_FEATURE_KEY]. *)
Definition annotation_key : str := lit "node_annotation".

(** ptb.rs:47-77 [PTBFormat]. *)
Inductive ptb_format := PTB | Simple | TueBa.

(** ** Grammar, ptb.pest *)

(** ptb.pest:10 [WHITESPACE]: space, LF, CR, CR LF; repeated it is any run of these three
    characters.  A tab is not whitespace. *)
Definition is_ws (c : char) : bool := (N.eqb c 32 || N.eqb c 10 || N.eqb c 13)%bool.
(** ptb.pest:4 [char]. *)
Definition is_char (c : char) : bool := negb (is_ws c || N.eqb c 40 || N.eqb c 41)%bool.

(** The implicit [WHITESPACE*] of a non-atomic [~]. *)
Fixpoint skip_ws (s : str) : str :=
  match s with
  | c :: s' => if is_ws c then skip_ws s' else s
  | [] => []
  end.
(** [char*] in an atomic rule (greedy). *)
Fixpoint take_chars (s : str) : str * str :=
  match s with
  | c :: s' => if is_char c then let '(a, r) := take_chars s' in (c :: a, r) else ([], s)
  | [] => ([], [])
  end.
(** ptb.pest:6-7 [terminal] and [node_label]: [char+]. *)
Definition p_token (s : str) : option (str * str) :=
  match take_chars s with ([], _) => None | (a, r) => Some (a, r) end.
(** ptb.pest:8-9 [open], [close]. *)
Definition p_lit (c : char) (s : str) : option str :=
  match s with x :: s' => if N.eqb x c then Some s' else None | [] => None end.

(** The tree of pest [Pair]s. *)
Inductive ast :=
| APre (label form : str)
| ANode (label : str) (cs : list ast).

(** ptb.pest:5 [preterminal]. *)
Definition p_preterminal (s : str) : option (ast * str) :=
  match p_lit 40%N s with
  | None => None
  | Some s1 =>
      match p_token (skip_ws s1) with
      | None => None
      | Some (label, s2) =>
          match p_token (skip_ws s2) with
          | None => None
          | Some (form, s3) =>
              match p_lit 41%N (skip_ws s3) with
              | None => None
              | Some s4 => Some (APre label form, s4)
              end
          end
      end
  end.
(** ptb.pest:3 [open ~ node_label], the beginning of [nonterminal]. *)
Definition p_head (s : str) : option (str * str) :=
  match p_lit 40%N s with None => None | Some s1 => p_token (skip_ws s1) end.

(** ptb.pest:2-3 [node] (ordered choice) and [nonterminal]; [p_nodes] is the repetition [node*]
    with the implicit whitespace before each node, it stops at the position where the next [node]
    fails.  Fuel bounds the recursion ([Diverge] is shown to be unreachable); pest itself recurses
    on the native stack, stack exhaustion is not modelled. *)
Fixpoint p_node (fuel : nat) (s : str) : outcome (option (ast * str)) :=
  match fuel with
  | 0 => Diverge
  | S fuel =>
      match p_preterminal s with
      | Some r => Ret (Some r)
      | None =>
          match p_head s with
          | None => Ret None
          | Some (label, s) =>
              '(cs, s) ← p_nodes fuel s;
              match cs with
              | [] => Ret None
              | _ =>
                  match p_lit 41%N (skip_ws s) with
                  | Some s => Ret (Some (ANode label cs, s))
                  | None => Ret None
                  end
              end
          end
      end
  end
with p_nodes (fuel : nat) (s : str) : outcome (list ast * str) :=
  match fuel with
  | 0 => Diverge
  | S fuel =>
      r ← p_node fuel (skip_ws s);
      match r with
      | None => Ret ([], s)
      | Some (a, s) => '(cs, s) ← p_nodes fuel s; Ret (a :: cs, s)
      end
  end.

(** ptb.pest:1 [tree]: [SOI ~ node ~ EOI]. *)
Definition p_tree (s : str) : outcome (option ast) :=
  r ← p_node (2 * length s + 2) (skip_ws s);
  match r with
  | Some (a, s) => match skip_ws s with [] => Ret (Some a) | _ => Ret None end
  | None => Ret None
  end.

(** ** Labels, ptb.rs:233-265 [process_label] *)

(** [str::find(char)] and slicing at the index found: text before, text from there on. *)
Fixpoint find_split (c : char) (s : str) : option (str * str) :=
  match s with
  | [] => None
  | x :: s' =>
      if N.eqb x c then Some ([], s)
      else match find_split c s' with
           | Some (a, b) => Some (x :: a, b)
           | None => None
           end
  end.
(** Label, edge label, annotation. *)
Definition process_label (f : ptb_format) (label : str) : str * option str * option str :=
  match f with
  | PTB =>
      match find_split 45%N label with
      | Some (a, b) => (a, None, Some b)
      | None => (label, None, None)
      end
  | TueBa =>
      let parts := split_char 58%N label in
      let tag := default [] (head parts) in
      let edge := match parts !! 1 with
                  | Some e => if str_eqb e (lit "--") then None else Some e
                  | None => None
                  end in
      let label_parts := split_char 61%N tag in
      (default [] (head label_parts), edge, label_parts !! 1)
  | Simple => (label, None, None)
  end.

(** ** Building the graph, ptb.rs:161-209 [parse_value], 212-230 [process_preterminal] *)
Fixpoint parse_value (f : ptb_format) (a : ast) (g : graph) (k : nat)
  : outcome (graph * nat * (span * nat * edgew)) :=
  match a with
  | APre label form =>
      let '(tag, edge, _) := process_label f label in
      let '(g, n) := add_node g (T (term_new form tag k)) in
      Ret (g, S k, (span_of k, n, Primary edge))
  | ANode label cs =>
      let '(lab, edge, annotation) := process_label f label in
      let nt := NT (nt_new lab (span_of 0)) in
      let nt := match annotation with
                | Some a => node_insert_feat nt annotation_key (Some a)
                | None => nt
                end in
      let '(g, n) := add_node g nt in
      '(g, k, lower, upper) ←
        (fix go (cs : list ast) (first : bool) (g : graph) (k lower upper : nat)
           : outcome (graph * nat * nat * nat) :=
           match cs with
           | [] => Ret (g, k, lower, upper)
           | c :: cs =>
               '(g, k, (sp, child, edge)) ← parse_value f c g k;
               '(g, _) ← add_edge g n child edge;
               go cs false g k (if first then sp_start sp else lower) (sp_end sp)
           end) cs true g k 0 0;
      sp ← span_new lower upper;
      w ← unwrap (g_nodes g !! n);
      nt ← unwrap (node_nonterminal w);
      Ret (set_node g n (NT (nt_set_span nt sp)), k, (sp, n, Primary edge))
  end.

(** ptb.rs:90-97 [string_to_tree]. *)
Definition string_to_tree (f : ptb_format) (s : str) : outcome (result tree) :=
  r ← p_tree s;
  match r with
  | None => Ret Err
  | Some a =>
      '(g, k, (_, root, _)) ← parse_value f a graph_empty 0;
      Ret (Ok (mk_tree g k root 0))
  end.

(** ** Printing *)

(** [str::replace] of a character by a string. *)
Definition replace_char (c : char) (by_ s : str) : str :=
  concat (map (fun x => if N.eqb x c then by_ else [x]) s).
(** ptb.rs:150-159 [fmt_term]. *)
Definition fmt_term (f : ptb_format) (form pos : str) (edge : option str) : str :=
  let pos := replace_char 41%N (lit "RBR") (replace_char 40%N (lit "LBR") pos) in
  let form := replace_char 41%N (lit "RBR") (replace_char 40%N (lit "LBR") form) in
  match f with
  | TueBa => [40%N] ++ pos ++ [58%N] ++ default (lit "--") edge ++ [32%N] ++ form ++ [41%N]
  | _ => [40%N] ++ pos ++ [32%N] ++ form ++ [41%N]
  end.
(** ptb.rs:120-148 [fmt_inner]. *)
Definition nt_annotation (nt : nonterminal) : option str :=
  match nt_feats nt with
  | Some m => mjoin (feats_get m annotation_key)
  | None => None
  end.
Definition fmt_inner (f : ptb_format) (nt : nonterminal) (edge : option str) : str :=
  match f with
  | PTB => nt_label nt ++ match nt_annotation nt with Some a => [45%N] ++ a | None => [] end
  | Simple => nt_label nt
  | TueBa =>
      nt_label nt ++ match nt_annotation nt with Some a => [61%N] ++ a | None => [] end
        ++ [58%N] ++ default (lit "--") edge
  end.
Definition node_sep (f : ptb_format) : str := match f with TueBa => [] | _ => [32%N] end.

(** ptb.rs:99-118 [format_sub_tree]; the recursion is bounded by fuel (the depth of the tree). *)
Fixpoint format_sub_tree (fuel : nat) (f : ptb_format) (t : tree) (n : nat) (edge : option str)
  : outcome str :=
  match fuel with
  | 0 => Diverge
  | S fuel =>
      w ← node_at t n;
      match w with
      | T tm => Ret (fmt_term f (t_form tm) (t_pos tm) edge)
      | NT nt =>
          let cs := sort_by (fun a b =>
                       match g_nodes (tr_graph t) !! (fst a), g_nodes (tr_graph t) !! (fst b) with
                       | Some wa, Some wb => span_cmp (node_span wa) (node_span wb)
                       | _, _ => Eq (* not reached: children are live *)
                       end) (children t n) in
          reps ← mapO (fun ce : nat * nat =>
                         we ← edge_at t (snd ce);
                         format_sub_tree fuel f t (fst ce) (edge_label we)) cs;
          Ret ([40%N] ++ join (node_sep f) (fmt_inner f nt edge :: reps) ++ [41%N])
      end
  end.
(** ptb.rs:81-87 [tree_to_string]. *)
Definition tree_to_string (f : ptb_format) (t : tree) : outcome (result str) :=
  if is_projective t then
    s ← format_sub_tree (S (node_count (tr_graph t))) f t (tr_root t) None;
    Ret (Ok s)
  else Ret Err.
(** ptb.rs:33-37 [PTBWriter::write_tree]: the text appended to the stream. *)
Definition ptb_write (f : ptb_format) (t : tree) : outcome (result str) :=
  r ← tree_to_string f t;
  match r with Ok s => Ret (Ok (s ++ [10%N])) | Err => Ret Err end.

(** ** Reading streams, ptb.rs:289-323 [PTBReader::next]

    The stream is the sequence of [Lines] items: [Some line] without its terminator, [None] for an
    I/O error. *)
Inductive line_format := SingleLine | MultiLine.
(** ptb.rs:340-352 [count_pars]. *)
Definition count_char (c : char) (s : str) : nat := length (filter (fun x => x = c) s).
Definition count_pars (s : str) : nat * nat := (count_char 40%N s, count_char 41%N s).
Definition starts_percent (s : str) : bool := match s with c :: _ => N.eqb c 37 | [] => false end.

Fixpoint next_single (f : ptb_format) (ls : list (option str))
  : outcome (option (result tree) * list (option str)) :=
  match ls with
  | [] => Ret (None, [])
  | None :: ls => Ret (Some Err, ls)
  | Some l :: ls =>
      if starts_percent l then next_single f ls
      else r ← string_to_tree f l; Ret (Some r, ls)
  end.
Fixpoint next_multi (f : ptb_format) (ls : list (option str)) (buffer : str) (open : nat)
  : outcome (option (result tree) * list (option str)) :=
  match ls with
  | [] => Ret (None, [])
  | None :: ls => Ret (Some Err, ls)
  | Some l :: ls =>
      if ((starts_percent l && match buffer with [] => true | _ => false end)
          || match l with [] => true | _ => false end)%bool
      then next_multi f ls buffer open
      else
        let '(o, c) := count_pars l in
        open ← sub_chk (open + o) c;
        let buffer := buffer ++ l in
        if Nat.eqb open 0 then r ← string_to_tree f buffer; Ret (Some r, ls)
        else next_multi f ls buffer open
  end.
Definition ptb_next (f : ptb_format) (lf : line_format) (ls : list (option str))
  : outcome (option (result tree) * list (option str)) :=
  match lf with
  | SingleLine => next_single f ls
  | MultiLine => next_multi f ls [] 0
  end.
(** The results of iterating until [None]. *)
Fixpoint ptb_read_all (fuel : nat) (f : ptb_format) (lf : line_format) (ls : list (option str))
  : outcome (list (result tree)) :=
  match fuel with
  | 0 => Diverge
  | S fuel =>
      '(r, ls) ← ptb_next f lf ls;
      match r with
      | None => Ret []
      | Some r => rs ← ptb_read_all fuel f lf ls; Ret (r :: rs)
      end
  end.
Definition ptb_read (f : ptb_format) (lf : line_format) (ls : list (option str))
  : outcome (list (result tree)) := ptb_read_all (S (length ls)) f lf ls.

Example ptb_smoke :
  match string_to_tree TueBa (lit "(S:-- (NP=X:ON (D:HD the)(N:-- dog)) (V:b barks))") with
  | Ret (Ok t) => tree_to_string TueBa t
  | _ => Panic
  end = Ret (Ok (lit "(S:--(NP=X:ON(D:HD the)(N:-- dog))(V:b barks))")).
Proof. vm_compute. reflexivity. Qed.
