(** Model of /repo/lumberjack/src/io/negra.rs. *)
From Verif Require Export TreeModel PtbModel.

(** ** Text primitives of the Rust standard library used by negra.rs *)

(** [char::is_whitespace]: the Unicode property White_Space. *)
Definition is_white (c : char) : bool :=
  ((N.leb 9 c && N.leb c 13) || N.eqb c 32 || N.eqb c 133 || N.eqb c 160 || N.eqb c 5760
   || (N.leb 8192 c && N.leb c 8202) || N.eqb c 8232 || N.eqb c 8233 || N.eqb c 8239
   || N.eqb c 8287 || N.eqb c 12288)%bool.
(** [str::trim]. *)
Fixpoint trim_left (s : str) : str :=
  match s with
  | [] => []
  | c :: s' => if is_white c then trim_left s' else s
  end.
Definition trim (s : str) : str := rev (trim_left (rev (trim_left s))).
(** [str::split(char::is_whitespace)]. *)
Fixpoint split_white (s : str) : list str :=
  match s with
  | [] => [[]]
  | x :: s' =>
      if is_white x then [] :: split_white s'
      else match split_white s' with
           | [] => [[x]]
           | p :: ps => (x :: p) :: ps
           end
  end.
(** [str::split_whitespace]: the non-empty pieces. *)
Definition split_whitespace (s : str) : list str := filter (fun p => p <> []) (split_white s).
(** [str::splitn(2, char::is_whitespace)]: text before the first whitespace, text after it. *)
Fixpoint cut_white (s : str) : str * option str :=
  match s with
  | [] => ([], None)
  | x :: s' =>
      if is_white x then ([], Some s')
      else let '(a, b) := cut_white s' in (x :: a, b)
  end.
(** [str::starts_with]. *)
Definition starts_with (p s : str) : bool := is_prefix p s.
(** [str::len]: the length of the UTF-8 encoding. *)
Definition char_len (c : char) : nat :=
  if N.ltb c 128 then 1 else if N.ltb c 2048 then 2 else if N.ltb c 65536 then 3 else 4.
Definition byte_len (s : str) : nat := foldr (fun c n => char_len c + n) 0 s.

(** [BufRead::lines] on a text: pieces ended by a line feed, without it and without a carriage
    return before it; the text after the last line feed is a line unless it is empty. *)
Definition drop_cr (s : str) : str :=
  match rev s with
  | c :: r => if N.eqb c 13 then rev r else s
  | [] => s
  end.
Fixpoint drop_last_empty (l : list str) : list str :=
  match l with
  | [] => []
  | [p] => match p with [] => [] | _ => [p] end
  | p :: l => drop_cr p :: drop_last_empty l
  end.
Definition text_lines (s : str) : list str := drop_last_empty (split_char 10%N s).

(** ** Reading *)

(** negra.rs:79-88 [Builder]. *)
Record builder := mk_b {
  b_idx : gmap nat nat;
  b_graph : graph;
  b_nterm : nat;
  b_sid : str;
  b_fin : bool;
  b_nproj : nat;
  b_done : nat;
  b_sec : list (nat * str * nat)
}.
Definition b_set_graph (b : builder) (g : graph) : builder :=
  mk_b (b_idx b) g (b_nterm b) (b_sid b) (b_fin b) (b_nproj b) (b_done b) (b_sec b).

(** The [?] operator on an optional field: negra.rs:298-300 [read_required_string_field]. *)
Definition field {A B} (o : option A) (k : A -> outcome (result B)) : outcome (result B) :=
  match o with Some a => k a | None => Ret Err end.
(** negra.rs:302-308 [read_required_numerical_field]. *)
Definition num_field {B} (o : option str) (k : nat -> outcome (result B)) : outcome (result B) :=
  match o with
  | Some s => match parse_usize s with Some n => k n | None => Ret Err end
  | None => Ret Err
  end.
(** The [?] operator on a result. *)
Definition try {A B} (m : outcome (result A)) (k : A -> outcome (result B)) : outcome (result B) :=
  r ← m; match r with Ok a => k a | Err => Ret Err end.

Definition sid_key : str := lit "sentence_id".
Definition meta_key : str := lit "metadata".
Definition morph_key : str := lit "morph".

(** negra.rs:94-125 [Builder::from_header]. *)
Definition from_header (header : str) : outcome (result builder) :=
  _ ← assert (starts_with (lit "#BOS") header);
  let '(_, rest) := cut_white header in
  let '(id, metadata) := match rest with
                         | Some r => let '(a, b) := cut_white r in (Some a, b)
                         | None => (None, None)
                         end in
  num_field id (fun bos =>
    let root := NT (nt_new (lit "VROOT") (span_of 0)) in
    let root := node_insert_feat root sid_key (Some (print_nat bos)) in
    let root := match metadata with
                | Some m => node_insert_feat root meta_key (Some (trim m))
                | None => root
                end in
    let '(g, r) := add_node graph_empty root in
    Ret (Ok (mk_b {[0 := r]} g 0 (print_nat bos) false 0 1 []))).

(** negra.rs:284-295 [parse_optional_fields]. *)
Definition parse_optional_fields (parts : list str) : outcome (result (option (str * nat))) :=
  match parts with
  | p :: parts =>
      if starts_percent p then Ret (Ok None)
      else num_field (head parts) (fun id => Ret (Ok (Some (p, id))))
  | [] => Ret (Ok None)
  end.

Definition dashes : str := lit "--".

(** negra.rs:260-282 [process_edges]. *)
Definition process_edges (b : builder) (n : nat) (parts : list str) : outcome (result builder) :=
  field (parts !! 0) (fun edge =>
  num_field (parts !! 1) (fun pid =>
    let edge := if str_eqb edge dashes then None else Some edge in
    let '(idx, g, p) :=
      match b_idx b !! pid with
      | Some p => (b_idx b, b_graph b, p)
      | None =>
          let '(g, p) := add_node (b_graph b) (NT (nt_new [] (span_of (b_nterm b)))) in
          (<[pid := p]> (b_idx b), g, p)
      end in
    '(g, _) ← add_edge g p n (Primary edge);
    try (parse_optional_fields (drop 2 parts)) (fun o =>
      let sec := match o with
                 | Some (label, id) => b_sec b ++ [(id, label, n)]
                 | None => b_sec b
                 end in
      Ret (Ok (mk_b idx g (b_nterm b) (b_sid b) (b_fin b) (b_nproj b) (b_done b) sec))))).

(** negra.rs:182-225 [process_nonterminal_line].  [&part[1..]] does not panic: the line starts with
    the one-byte character ['#'].  Updates made before an error are lost with the builder, so the
    model does not carry a builder in the [Err] case. *)
Definition process_nonterminal_line (b : builder) (line : str) : outcome (result builder) :=
  if Nat.eqb (b_nterm b) 0 then Ret Err else
  let parts := split_whitespace line in
  num_field (tail <$> parts !! 0) (fun self_id =>
  field (b_idx b !! self_id) (fun n =>
  field (parts !! 1) (fun _ =>
  field (parts !! 2) (fun lab =>
    let label_parts := split_char 61%N lab in
    field (label_parts !! 0) (fun label =>
      w ← unwrap (g_nodes (b_graph b) !! n);
      let w := node_set_label w label in
      let w := match label_parts !! 1 with
               | Some a => node_insert_feat w annotation_key (Some a)
               | None => w
               end in
      field (parts !! 3) (fun _ =>
        try (process_edges
               (mk_b (b_idx b) (set_node (b_graph b) n w) (b_nterm b) (b_sid b) true (b_nproj b)
                     (b_done b + 1) (b_sec b)) n (drop 4 parts)) (fun b =>
          spans ← mapO (fun m => w ← unwrap (g_nodes (b_graph b) !! m); Ret (span_iter (node_span w)))
                       (neighbors (b_graph b) n);
          try (span_from_vec (concat spans)) (fun sp =>
            w ← unwrap (g_nodes (b_graph b) !! n);
            match node_set_span w sp with
            | Err => Ret Err
            | Ok w =>
                Ret (Ok (mk_b (b_idx b) (set_node (b_graph b) n w) (b_nterm b) (b_sid b) (b_fin b)
                              (b_nproj b + match sp_skips sp with Some _ => 1 | None => 0 end)
                              (b_done b) (b_sec b)))
            end)))))))).

(** negra.rs:232-258 [process_terminal_line]. *)
Definition process_terminal_line (b : builder) (line : str) : outcome (result builder) :=
  if b_fin b then Ret Err else
  let parts := split_whitespace line in
  field (parts !! 0) (fun form =>
  field (parts !! 1) (fun lemma =>
  field (parts !! 2) (fun pos =>
  field (parts !! 3) (fun morph =>
    let tm := term_new form pos (b_nterm b) in
    let tm := if str_eqb lemma dashes then tm else t_set_lemma tm (Some lemma) in
    let w := if str_eqb morph dashes then T tm
             else node_insert_feat (T tm) morph_key (Some morph) in
    let '(g, n) := add_node (b_graph b) w in
    try (process_edges (b_set_graph b g) n (drop 4 parts)) (fun b =>
      Ret (Ok (mk_b (b_idx b) (b_graph b) (b_nterm b + 1) (b_sid b) (b_fin b) (b_nproj b)
                    (b_done b) (b_sec b)))))))).

(** negra.rs:169-175 [process_line]. *)
Definition process_line (b : builder) (line : str) : outcome (result builder) :=
  if starts_with (lit "#") line then process_nonterminal_line b line
  else process_terminal_line b line.

(** negra.rs:132-166 [try_into_tree]. *)
Definition try_into_tree (b : builder) (footer : str) : outcome (result tree) :=
  _ ← assert (starts_with (lit "#EOS") footer);
  field (split_whitespace footer !! 1) (fun eos =>
    if negb (str_eqb eos (b_sid b)) then Ret Err else
    g ← foldM (fun g (e : nat * str * nat) =>
                 let '(source, label, target) := e in
                 p ← unwrap (b_idx b !! source);
                 '(g, _) ← add_edge g p target (Secondary (Some label));
                 Ret g) (b_sec b) (b_graph b);
    root ← unwrap (b_idx b !! 0);
    if negb (Nat.eqb (b_done b) (size (b_idx b))) then Ret Err else
    sp ← span_new 0 (b_nterm b);
    w ← unwrap (g_nodes g !! root);
    match node_set_span w sp with
    | Err => Ret Err
    | Ok w => Ret (Ok (mk_tree (set_node g root w) (b_nterm b) root (b_nproj b)))
    end).

(** negra.rs:43-75 [NegraReader::next].  The stream is the sequence of [Lines] items: [Some line]
    or [None] for an I/O error. *)
Fixpoint negra_next (ls : list (option str)) (cur : option builder)
  : outcome (option (result tree) * list (option str)) :=
  match ls with
  | [] => Ret (None, [])
  | None :: ls => Ret (Some Err, ls)
  | Some l :: ls =>
      let line := trim l in
      if starts_with (lit "#BOS") line then
        match cur with
        | Some _ => Ret (Some Err, ls)
        | None =>
            r ← from_header line;
            match r with
            | Ok b => negra_next ls (Some b)
            | Err => Ret (Some Err, ls)
            end
        end
      else if starts_with (lit "#EOS") line then
        match cur with
        | Some b => r ← try_into_tree b line; Ret (Some r, ls)
        | None => Ret (Some Err, ls)
        end
      else
        match cur with
        | Some b =>
            r ← process_line b line;
            match r with
            | Ok b => negra_next ls (Some b)
            | Err => Ret (Some Err, ls)
            end
        | None => negra_next ls None
        end
  end.
(** The results of iterating until [None]. *)
Fixpoint negra_read_all (fuel : nat) (ls : list (option str)) : outcome (list (result tree)) :=
  match fuel with
  | 0 => Diverge
  | S fuel =>
      '(r, ls) ← negra_next ls None;
      match r with
      | None => Ret []
      | Some r => rs ← negra_read_all fuel ls; Ret (r :: rs)
      end
  end.
Definition negra_read (ls : list (option str)) : outcome (list (result tree)) :=
  negra_read_all (S (length ls)) ls.

(** ** Writing *)

(** negra.rs:333-341 [pad]; the last branch is not reachable. *)
Definition pad (len to : nat) : str :=
  if Nat.leb (to + 8) len then [32%N] else replicate (to + 8 - len) 32%N.
(** [features.and_then(|f| f.get_val(k))] matched against [Some(Some(v))]. *)
Definition feat_val (f : option features) (k : str) : option str :=
  match f with Some m => mjoin (feats_get m k) | None => None end.
(** negra.rs:346-364 [terminal_to_negra_line]. *)
Definition terminal_to_negra_line (tm : terminal) : str :=
  let lemma := default dashes (t_lemma tm) in
  t_form tm ++ pad (byte_len (t_form tm)) 24 ++ lemma ++ pad (byte_len lemma) 24
    ++ t_pos tm ++ pad (byte_len (t_pos tm)) 8
    ++ match feat_val (t_feats tm) morph_key with
       | Some morph => morph ++ pad (byte_len morph) 16
       | None => dashes ++ pad 2 16
       end.
(** negra.rs:369-389 [nonterminal_to_negra_line]. *)
Definition nonterminal_to_negra_line (id : str) (nt : nonterminal) : str :=
  let label := nt_label nt ++ match feat_val (nt_feats nt) annotation_key with
                              | Some a => [61%N] ++ a
                              | None => []
                              end in
  [35%N] ++ id ++ pad (byte_len id + 1) 24 ++ dashes ++ pad 2 24
    ++ label ++ pad (byte_len label) 8 ++ dashes ++ pad 2 16.
(** negra.rs:392-407 [get_parent_edge]. *)
Definition get_parent_edge (n : nat) (t : tree) (ids : gmap nat str) : outcome str :=
  '(p, e) ← unwrap (parent t n);
  we ← edge_at t e;
  let label := default dashes (edge_label we) in
  id ← unwrap (A := str) (ids !! p);
  match secondary_parent t n with
  | None => Ret (label ++ pad (byte_len label) 8 ++ id)
  | Some (p2, e2) =>
      we2 ← edge_at t e2;
      let label2 := default dashes (edge_label we2) in
      id2 ← unwrap (A := str) (ids !! p2);
      Ret (label ++ pad (byte_len label) 8 ++ id ++ pad (byte_len id) 8 ++ label2
             ++ pad (byte_len label2) 8 ++ id2)
  end.

(** negra.rs:442-450: the terminals are marked as visited, parents of terminals only are queued.
    ([tree[n]] does not panic for a child [n].) *)
Definition queue_step (t : tree) (qv : list nat * gset nat) (n : nat) : list nat * gset nat :=
  let v := {[n]} ∪ snd qv in
  match parent t n with
  | Some (p, _) =>
      if forallb (fun c => node_is_term t (fst c)) (children t p) then (fst qv ++ [p], v)
      else (fst qv, v)
  | None => (fst qv, v)
  end.
Definition start_queue (t : tree) (terms : list nat) : list nat * gset nat :=
  foldl (queue_step t) ([], ∅) terms.
(** negra.rs:452-467: numbering; nonterminals in the order of their numbers and the map of ids. *)
Fixpoint number_nts (fuel : nat) (t : tree) (q : list nat) (v : gset nat) (count : nat)
    (ids : gmap nat str) (nts : list nat) : outcome (gmap nat str * list nat) :=
  match q with
  | [] => Ret (ids, nts)
  | n :: q =>
      match fuel with
      | 0 => Diverge
      | S fuel =>
          if (bool_decide (n ∈ v) || Nat.eqb (tr_root t) n)%bool then
            number_nts fuel t q ({[n]} ∪ v) count ids nts
          else
            let v := {[n]} ∪ v in
            let q := match parent t n with
                     | Some (p, _) =>
                         if forallb (fun c => bool_decide (fst c ∈ v)) (children t p) then p :: q
                         else q
                     | None => q
                     end in
            number_nts fuel t q v (count + 1) (<[n := print_nat count]> ids) (nts ++ [n])
      end
  end.
(** Fuel: every turn takes one node from the queue, and a node that is numbered adds at most one. *)
Definition number_fuel (t : tree) (q : list nat) : nat := length q + node_count (tr_graph t).

(** negra.rs:469-477 and 479-492: one line each, without the line feed. *)
Definition terminal_line (t : tree) (ids : gmap nat str) (n : nat) : outcome str :=
  w ← node_at t n;
  tm ← unwrap (node_terminal w);
  e ← get_parent_edge n t ids;
  Ret (terminal_to_negra_line tm ++ e).
Definition nonterminal_line (t : tree) (ids : gmap nat str) (n : nat) : outcome str :=
  id ← unwrap (ids !! n);
  w ← node_at t n;
  nt ← unwrap (node_nonterminal w);
  e ← get_parent_edge n t ids;
  Ret (nonterminal_to_negra_line id nt ++ e).

(** negra.rs:414-496 [write_tree]: the text appended to the stream and the new counter.  I/O errors
    of the stream are not modelled. *)
Definition negra_write (counter : nat) (t : tree) : outcome (str * nat) :=
  wr ← node_at t (tr_root t);
  let '(sid, counter) := match feat_val (node_feats wr) sid_key with
                         | Some s => (s, counter)
                         | None => (print_nat counter, counter + 1)
                         end in
  let header := lit "#BOS " ++ sid ++ match feat_val (node_feats wr) meta_key with
                                      | Some m => lit "  " ++ m
                                      | None => []
                                      end in
  let terms := sort_indices t (terminals t) in
  let '(q, v) := start_queue t terms in
  '(ids, nts) ← number_nts (number_fuel t q) t q v 500 {[tr_root t := lit "0"]} [];
  tlines ← mapO (terminal_line t ids) terms;
  nlines ← mapO (nonterminal_line t ids) nts;
  Ret (concat (map (fun l => l ++ [10%N]) ((header :: tlines) ++ nlines
                                            ++ [lit "#EOS " ++ sid; []])), counter).

Example negra_smoke :
  let s := lit "#BOS 1  x y
Der     --  ART nom  NK 500
Hund    Hund NN --   HD 500
bellt   --   V  --   -- 501 OA 500
schoen  --   ADJ --  -- 0
#500    -- NP=X -- SB 501
#501    -- VP   -- -- 0
#EOS 1
" in
  match negra_read (map Some (text_lines s)) with
  | Ret [Ok t] => match negra_write 0 t with
                  | Ret (s2, _) => match negra_read (map Some (text_lines s2)) with
                                   | Ret [Ok t2] => Some (negra_write 0 t2 = negra_write 0 t)
                                   | _ => None
                                   end
                  | _ => None
                  end
  | _ => None
  end <> None.
Proof. vm_compute. discriminate. Qed.
