(** Model of the conversion tool /repo/lumberjack-utils/src/bin/lumberjack-conversion.rs. *)
From Verif Require Export UtilModel PtbModel NegraModel ConllModel.

(** lumberjack-conversion.rs:183-192 [OutFormat]; the three bracket formats share one constructor. *)
Inductive out_format := OAbsolute | OConllx | ONegra | OBracket (f : ptb_format) | ORelative.
(** lumberjack-conversion.rs:156-165 [InFormat]. *)
Inductive in_format := IAbsolute | IRelative | INegra | IBracket (f : ptb_format).

(** The command line options read in lumberjack-conversion.rs:36-48 ([clap] itself is not modelled);
    the default values of [id_feature_name] and [insertion_label] are filled in by [clap]. *)
Record options := mk_opts {
  o_out : out_format;
  o_dummies : bool;
  o_proj : bool;
  o_sec : bool;
  o_reattach : option str;
  o_ids : option label_set;
  o_id_name : str;
  o_filter : option label_set;
  o_insert : option label_set;
  o_insert_label : str;
  o_parent : option str
}.

(** lumberjack-conversion.rs:146-154 [get_set_from_file], given the contents of the file. *)
Definition set_of_text (s : str) : label_set := Positive (list_to_set (split_whitespace s)).

(** A closure [|tree, n| p(tree[n].label())]; the modified tree only applies it to live nodes. *)
Definition label_test (p : str -> bool) (t : tree) (n : nat) : bool :=
  match g_nodes (tr_graph t) !! n with Some w => p (node_label w) | None => false end.

(** [stdinout::OrExit::or_exit] on the value of a fallible method: exit is [Err], the tree is dropped. *)
Definition or_exit (m : outcome (tree * result ())) : outcome (result tree) :=
  '(t, r) ← m; Ret (match r with Ok _ => Ok t | Err => Err end).
(** Sequencing of the steps of the loop body: nothing is done after an exit. *)
Definition next {A B} (m : outcome (result A)) (k : A -> outcome (result B)) : outcome (result B) :=
  r ← m; match r with Ok a => k a | Err => Ret Err end.

(** lumberjack-conversion.rs:60-63. *)
Definition step_dummies (o : options) (t : tree) : outcome (result tree) :=
  if o_dummies o then or_exit (remove_dummy_nodes t) else Ret (Ok t).
(** lumberjack-conversion.rs:69-73, the label of a secondary edge. *)
Definition np_label (w : edgew) : str :=
  match edge_label w with Some l => lit "np_" ++ l | None => lit "np" end.
(** lumberjack-conversion.rs:65-78. *)
Definition step_proj (choose : nat -> gset nat -> nat) (o : options) (t : tree) : outcome (result tree) :=
  if o_proj o then
    '(t, v) ← projectivize choose t;
    match v with
    | Some edges =>
        if o_sec o then
          t ← foldM (fun t (r : report) =>
                 let '(p, w, c) := r in '(t, _) ← add_secondary_edge t p c (Some (np_label w)); Ret t) edges t;
          Ret (Ok t)
        else Ret (Ok t)
    | None => Ret (Ok t)
    end
  else Ret (Ok t).
(** lumberjack-conversion.rs:80-95.  [pos] are the sentences that the external reader of the [conllx]
    crate still delivers, [Err] for one it cannot read.  The tags are drawn lazily in the code; a token
    without a tag makes the tool exit when it is drawn, and it is drawn unless the number of tags is
    wrong, which makes the tool exit as well. *)
Definition step_pos (pos : option (list (result (list token)))) (t : tree)
  : outcome (result (tree * option (list (result (list token))))) :=
  match pos with
  | None => Ret (Ok (t, None))
  | Some [] => Ret Err
  | Some (Err :: _) => Ret Err
  | Some (Ok s :: rest) =>
      match mapM k_pos s with
      | None => Ret Err
      | Some tags => next (or_exit (annotate_pos t tags)) (fun t => Ret (Ok (t, Some rest)))
      end
  end.
(** lumberjack-conversion.rs:97-100. *)
Definition step_reattach (o : options) (t : tree) : outcome (result tree) :=
  match o_reattach o with
  | Some label => t ← reattach_terminals t (tr_root t) (label_test (is_prefix label)); Ret (Ok t)
  | None => Ret (Ok t)
  end.
(** lumberjack-conversion.rs:102-106. *)
Definition step_ids (o : options) (t : tree) : outcome (result tree) :=
  match o_ids o with
  | Some s =>
      t ← project_ids t (o_id_name o) (fun t n => Nat.eqb (tr_root t) n || label_test (label_matches s) t n)%bool;
      Ret (Ok t)
  | None => Ret (Ok t)
  end.
(** lumberjack-conversion.rs:108-111. *)
Definition step_filter (o : options) (t : tree) : outcome (result tree) :=
  match o_filter o with
  | Some s => or_exit (filter_nonterminals t (label_test (label_matches s)))
  | None => Ret (Ok t)
  end.
(** lumberjack-conversion.rs:113-122. *)
Definition step_insert (o : options) (t : tree) : outcome (result tree) :=
  match o_insert o with
  | Some s =>
      or_exit (insert_intermediate t (fun t n =>
        if negb (label_test (label_matches s) t n) then Some (o_insert_label o) else None))
  | None => Ret (Ok t)
  end.
(** lumberjack-conversion.rs:124-127. *)
Definition step_parent (o : options) (t : tree) : outcome (result tree) :=
  match o_parent o with
  | Some name => or_exit (annotate_parent_tag t name)
  | None => Ret (Ok t)
  end.
(** lumberjack-conversion.rs:129-139. *)
Definition step_encode (o : options) (t : tree) : outcome (result tree) :=
  match o_out o with
  | OAbsolute => next (or_exit (collapse_unary_chains t (lit "_"))) (fun t => or_exit (annotate_absolute t))
  | ORelative => next (or_exit (collapse_unary_chains t (lit "_"))) (fun t => or_exit (annotate_relative t))
  | _ => Ret (Ok t)
  end.

(** lumberjack-conversion.rs:57-139, the loop body up to writing.  Exiting is [Err]. *)
Definition convert_tree (choose : nat -> gset nat -> nat) (o : options)
    (pos : option (list (result (list token)))) (t : tree)
  : outcome (result (tree * option (list (result (list token))))) :=
  next (step_dummies o t) (fun t =>
  next (step_proj choose o t) (fun t =>
  next (step_pos pos t) (fun '(t, pos) =>
  next (next (step_reattach o t) (fun t =>
        next (step_ids o t) (fun t =>
        next (step_filter o t) (fun t =>
        next (step_insert o t) (fun t =>
        next (step_parent o t) (fun t => step_encode o t))))))
       (fun t => Ret (Ok (t, pos)))))).

(** What is written for one tree: text, or a sentence handed to the writer of the [conllx] crate
    (conllx.rs:13-20 [write_tree] hands over [Sentence::from(&tree)]). *)
Inductive item := Text (s : str) | Sentence (l : list token).
(** lumberjack-conversion.rs:245-257 [get_writer] and the [write_tree] of the chosen writer.  The
    counter belongs to the NEGRA writer.  The underlying [Write] is assumed not to fail. *)
Definition write_tree (f : out_format) (c : nat) (t : tree) : outcome (result (item * nat)) :=
  match f with
  | OAbsolute | OConllx | ORelative => l ← to_conllx t; Ret (Ok (Sentence l, c))
  | ONegra => '(s, c) ← negra_write c t; Ret (Ok (Text s, c))
  | OBracket f => next (ptb_write f t) (fun s => Ret (Ok (Text s, c)))
  end.

(** lumberjack-conversion.rs:57-143, the whole loop over what the reader delivers: the items written and
    whether the loop ran to its end ([false]: the tool exits with status 1).  [choose k] resolves the
    iteration order of the hash sets used while tree number [k] is made projective. *)
Fixpoint convert_all (choose : nat -> nat -> gset nat -> nat) (o : options)
    (pos : option (list (result (list token)))) (c : nat) (rs : list (result tree))
  : outcome (list item * bool) :=
  match rs with
  | [] => Ret ([], true)
  | Err :: _ => Ret ([], false)
  | Ok t :: rs =>
      r ← convert_tree (choose 0) o pos t;
      match r with
      | Err => Ret ([], false)
      | Ok (t, pos) =>
          w ← write_tree (o_out o) c t;
          match w with
          | Err => Ret ([], false)
          | Ok (it, c) =>
              '(its, ok) ← convert_all (fun k => choose (S k)) o pos c rs;
              Ret (it :: its, ok)
          end
      end
  end.

(** lumberjack-conversion.rs:209-243 [get_reader] on text input; [multiline] selects the line format. *)
Definition read_text (f : in_format) (multiline : bool) (ls : list (option str))
  : outcome (list (result tree)) :=
  match f with
  | INegra => negra_read ls
  | IBracket f => ptb_read f (if multiline then MultiLine else SingleLine) ls
  | _ => Ret []
  end.
(** lumberjack-conversion.rs:224-235 [get_reader] on the sentences read by the [conllx] crate. *)
Definition read_sentences (f : in_format) (ss : list (list token)) : outcome (list (result tree)) :=
  match f with
  | IAbsolute => mapO from_conllx_absolute ss
  | IRelative => mapO from_conllx_relative ss
  | _ => Ret []
  end.
(** The whole run of the tool, lumberjack-conversion.rs:55-143.  The reader is an iterator in the code;
    reading everything first differs only when reading panics: by then the code has written the trees
    before that point, or has stopped with an error at one of them. *)
Definition tool_text choose (fi : in_format) (multiline : bool) (o : options) (pos : option (list (result (list token))))
    (ls : list (option str)) : outcome (list item * bool) :=
  rs ← read_text fi multiline ls; convert_all choose o pos 0 rs.
Definition tool_sentences choose (fi : in_format) (o : options) (pos : option (list (result (list token))))
    (ss : list (list token)) : outcome (list item * bool) :=
  rs ← read_sentences fi ss; convert_all choose o pos 0 rs.
