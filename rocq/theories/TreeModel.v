(** Model of /repo/lumberjack/src/tree.rs and the [Climber] of /repo/lumberjack/src/util.rs. *)
From Verif Require Export GraphModel.

(** tree.rs:17-23 [Tree]. *)
Record tree := mk_tree {
  tr_graph : graph;
  tr_nterm : nat;
  tr_root : nat;
  tr_ndisc : nat
}.
Definition set_graph (t : tree) (g : graph) : tree :=
  mk_tree g (tr_nterm t) (tr_root t) (tr_ndisc t).
Definition set_nterm (t : tree) (n : nat) : tree :=
  mk_tree (tr_graph t) n (tr_root t) (tr_ndisc t).
Definition set_root (t : tree) (n : nat) : tree :=
  mk_tree (tr_graph t) (tr_nterm t) n (tr_ndisc t).
Definition set_ndisc (t : tree) (n : nat) : tree :=
  mk_tree (tr_graph t) (tr_nterm t) (tr_root t) n.

(** tree.rs:815-833 [Index<NodeIndex>], [Index<EdgeIndex>]: panics when absent. *)
Definition node_at (t : tree) (n : nat) : outcome node := unwrap (g_nodes (tr_graph t) !! n).
Definition edge_at (t : tree) (e : nat) : outcome edgew :=
  unwrap (e_w <$> find_edge (tr_graph t) e).
(** tree.rs:829-839 [IndexMut]: only used on indices that have just been read. *)
Definition put_node (t : tree) (n : nat) (w : node) : tree := set_graph t (set_node (tr_graph t) n w).
Definition put_edge (t : tree) (e : nat) (w : edgew) : tree :=
  set_graph t (set_edge_weight (tr_graph t) e w).

(** tree.rs:35-45 [Tree::new]. *)
Definition tree_new (form pos : str) : tree :=
  let '(g, root) := add_node graph_empty (T (term_new form pos 0)) in
  mk_tree g 1 root 0.

(** tree.rs:58-62 [terminals], tree.rs:65-69 [nonterminals]: in node index order. *)
Definition node_is_term (t : tree) (n : nat) : bool :=
  match g_nodes (tr_graph t) !! n with Some w => is_terminal w | None => false end.
Definition terminals (t : tree) : list nat :=
  filter (fun n => node_is_term t n = true) (node_indices (tr_graph t)).
Definition nonterminals (t : tree) : list nat :=
  filter (fun n => node_is_term t n = false) (node_indices (tr_graph t)).

(** tree.rs:75-82 [parent]: the first (newest) primary incoming edge. *)
Definition parent (t : tree) (n : nat) : option (nat * nat) :=
  (fun r => (e_src r, e_id r)) <$>
    head (filter (fun r => is_primary (e_w r) = true) (in_edges (tr_graph t) n)).
(** tree.rs:88-95 [secondary_parent]. *)
Definition secondary_parent (t : tree) (n : nat) : option (nat * nat) :=
  (fun r => (e_src r, e_id r)) <$>
    head (filter (fun r => is_primary (e_w r) = false) (in_edges (tr_graph t) n)).
(** tree.rs:98-106 [children]. *)
Definition children (t : tree) (n : nat) : list (nat * nat) :=
  map (fun r => (e_tgt r, e_id r))
      (filter (fun r => is_primary (e_w r) = true) (out_edges (tr_graph t) n)).
(** tree.rs:109-117 [secondary_children]. *)
Definition secondary_children (t : tree) (n : nat) : list (nat * nat) :=
  map (fun r => (e_tgt r, e_id r))
      (filter (fun r => is_primary (e_w r) = false) (out_edges (tr_graph t) n)).
(** tree.rs:373-385 [siblings]. *)
Definition siblings (t : tree) (n : nat) : list (nat * nat) :=
  match parent t n with
  | Some (p, _) => filter (fun c => c.1 <> n) (children t p)
  | None => []
  end.
(** tree.rs:395-400 [are_siblings]: compares the (node, edge) pairs. *)
Definition are_siblings (t : tree) (a b : nat) : bool :=
  match parent t a, parent t b with
  | Some p1, Some p2 => bool_decide (p1 = p2)
  | _, _ => false
  end.
(** tree.rs:408-410 [is_projective]. *)
Definition is_projective (t : tree) : bool := Nat.eqb (tr_ndisc t) 0.

(** tree.rs:120-131 [add_secondary_edge]. *)
Definition add_secondary_edge (t : tree) (p c : nat) (l : option str) : outcome (tree * nat) :=
  '(g, e) ← add_edge (tr_graph t) p c (Secondary l);
  Ret (set_graph t g, e).
(** tree.rs:136-142 [remove_secondary_edge]: [self[edge]] panics when the edge is absent. *)
Definition remove_secondary_edge (t : tree) (e : nat) : outcome (tree * option edgew) :=
  w ← edge_at t e;
  if negb (is_primary w) then
    let '(g, o) := remove_edge (tr_graph t) e in Ret (set_graph t g, o)
  else Ret (t, None).

(** util.rs:17-56 [Climber]: the state is the next (parent, edge) to report; it advances before
    reporting. *)
Definition climber := option (nat * nat).
Definition climber_new (n : nat) (t : tree) : climber := parent t n.
Definition climber_next (c : climber) (t : tree) : option ((nat * nat) * climber) :=
  match c with
  | Some (n, e) => Some ((n, e), parent t n)
  | None => None
  end.
(** Fuel for a climb: a path to the root never visits more than all nodes. *)
Definition climb_fuel (t : tree) : nat := S (node_count (tr_graph t)).

(** tree.rs:742-764 [sort_indices], the comparison.  Absent nodes do not occur: the lists sorted are
    always lists of live nodes ([self[..]] would panic). *)
Definition node_cmp (t : tree) (a b : nat) : comparison :=
  match g_nodes (tr_graph t) !! a, g_nodes (tr_graph t) !! b with
  | Some na, Some nb =>
      match span_cmp (node_span na) (node_span nb) with
      | Eq =>
          match na, nb with
          | NT _, T _ => Gt
          | T _, NT _ => Lt
          | NT n1, NT n2 =>
              match Nat.compare (length (children t a)) (length (children t b)) with
              | Eq => str_cmp (nt_label n1) (nt_label n2)
              | c => c
              end
          | T t1, T t2 => str_cmp (t_form t1) (t_form t2)
          end
      | c => c
      end
  | _, _ => Eq
  end.
Definition sort_indices (t : tree) (l : list nat) : list nat := sort_by (node_cmp t) l.

(** tree.rs:584-591 [projectivity_change]; [-= 1] panics on underflow. *)
Definition projectivity_change (t : tree) (before after : continuity) : outcome tree :=
  match before, after with
  | Continuous, Discontinuous => Ret (set_ndisc t (tr_ndisc t + 1))
  | Discontinuous, Continuous => n ← sub_chk (tr_ndisc t) 1; Ret (set_ndisc t n)
  | _, _ => Ret t
  end.

(** tree.rs:721-732, the loop body of [reset_nt_spans] for one node. *)
Definition reset_nt_span (t : tree) (n : nat) : outcome tree :=
  w ← node_at t n;
  match w with
  | T _ => Ret t
  | NT nt =>
      spans ← mapO (fun c => wc ← node_at t c.1; Ret (span_iter (node_span wc))) (children t n);
      r ← span_from_vec (concat spans);
      s ← unwrap_ok r;
      let t := match sp_skips s with Some _ => set_ndisc t (tr_ndisc t + 1) | None => t end in
      Ret (put_node t n (NT (nt_set_span nt s)))
  end.
Fixpoint reset_loop (fuel : nat) (t : tree) (d : dfs_post) : outcome tree :=
  match fuel with
  | 0 => Diverge
  | S fuel =>
      o ← dfs_post_next (dfs_fuel (tr_graph t) d) (tr_graph t) d;
      match o with
      | None => Ret t
      | Some (n, d) => t ← reset_nt_span t n; reset_loop fuel t d
      end
  end.
(** tree.rs:717-733 [reset_nt_spans]. *)
Definition reset_nt_spans (t : tree) : outcome tree :=
  reset_loop (S (node_count (tr_graph t))) (set_ndisc t 0) (dfs_post_new (tr_root t)).

(** tree.rs:707-714 [compact_terminal_spans]. *)
Fixpoint set_spans_from (t : tree) (idx : nat) (l : list nat) : outcome (tree * result ()) :=
  match l with
  | [] => Ret (t, Ok ())
  | n :: l =>
      w ← node_at t n;
      match node_set_span w (span_of idx) with
      | Ok w' => set_spans_from (put_node t n w') (S idx) l
      | Err => Ret (t, Err)
      end
  end.
Definition compact_terminal_spans (t : tree) : outcome (tree * result ()) :=
  set_spans_from t 0 (sort_indices t (terminals t)).

(** [self[terminal].terminal_mut().expect(..).set_idx(f idx)], the loop bodies of
    tree.rs:160-172 and 191-199. *)
Definition shift_terminal (f : nat -> outcome (option nat)) (t : tree) (n : nat) : outcome tree :=
  w ← node_at t n;
  tm ← unwrap (node_terminal w);
  o ← f (t_idx tm);
  match o with
  | Some i => Ret (put_node t n (T (t_set_span tm (span_of i))))
  | None => Ret t
  end.

(** tree.rs:149-175 [move_terminal]. *)
Definition move_terminal (t : tree) (n : nat) (index : nat) : outcome tree :=
  w ← node_at t n;
  if Nat.eqb (sp_start (node_span w)) index then Ret t
  else
    _ ← assert (is_terminal w);
    _ ← assert (Nat.ltb index (tr_nterm t));
    let old_pos := sp_start (node_span w) in
    let shift pos :=
      if (Nat.leb old_pos pos && Nat.leb pos index)%bool then
        p ← sub_chk pos 1; Ret (Some p)
      else if (Nat.leb index pos && Nat.leb pos old_pos)%bool then Ret (Some (pos + 1))
      else Ret None in
    t ← foldM (shift_terminal shift) (filter (fun m => m <> n) (terminals t)) t;
    w ← node_at t n;
    w' ← unwrap_ok (node_set_span w (span_of index));
    reset_nt_spans (put_node t n w').

(** tree.rs:183-206 [insert_terminal].  [Terminal] values can only be built with a singleton span. *)
Definition insert_terminal (t : tree) (p : nat) (tm : terminal) : outcome (tree * nat) :=
  w ← node_at t p;
  _ ← assert (negb (is_terminal w));
  let index := sp_start (t_span tm) in
  _ ← assert (Nat.leb index (tr_nterm t));
  let shift pos := if Nat.leb index pos then Ret (Some (pos + 1)) else Ret None in
  t ← foldM (shift_terminal shift) (terminals t) t;
  let '(g, n) := add_node (tr_graph t) (T tm) in
  '(g, _) ← add_edge g p n (Primary None);
  t ← reset_nt_spans (set_graph t g);
  Ret (set_nterm t (tr_nterm t + 1), n).

(** tree.rs:225-243 [push_terminal]. *)
Definition push_terminal (t : tree) (form pos : str) : outcome (tree * result nat) :=
  w ← node_at t (tr_root t);
  if is_terminal w then Ret (t, Err)
  else
    let tm := term_new form pos (tr_nterm t) in
    let t := set_nterm t (tr_nterm t + 1) in
    let '(g, n) := add_node (tr_graph t) (T tm) in
    '(g, _) ← add_edge g (tr_root t) n (Primary None);
    let t := set_graph t g in
    w ← node_at t (tr_root t);
    w' ← unwrap_ok (node_extend_span w);
    Ret (put_node t (tr_root t) w', Ok n).

(** tree.rs:248-268 [insert_unary_above]. *)
Definition insert_unary_above (t : tree) (child : nat) (label : str) : outcome (tree * nat) :=
  w ← node_at t child;
  let nt := NT (nt_new label (node_span w)) in
  let '(g, ins) := add_node (tr_graph t) nt in
  let t := set_graph t g in
  match parent t child with
  | Some (p, old_edge) =>
      let '(g, o) := remove_edge (tr_graph t) old_edge in
      old ← unwrap o;
      '(g, _) ← add_edge g p ins (Primary None);
      '(g, _) ← add_edge g ins child old;
      Ret (set_graph t g, ins)
  | None =>
      '(g, _) ← add_edge (tr_graph t) ins child (Primary None);
      let t := set_graph t g in
      Ret (if Nat.eqb child (tr_root t) then set_root t ins else t, ins)
  end.

(** tree.rs:277-301 [insert_unary_below]. *)
Definition insert_unary_below (t : tree) (n : nat) (label : str) : outcome (tree * result nat) :=
  w ← node_at t n;
  if is_terminal w then Ret (t, Err)
  else
    let chs := children t n in
    let '(g, ins) := add_node (tr_graph t) (NT (nt_new label (node_span w))) in
    '(g, _) ← add_edge g n ins (Primary None);
    g ← foldM (fun g (ce : nat * nat) =>
                 let '(g, o) := remove_edge g ce.2 in
                 _ ← unwrap o;
                 '(g, _) ← add_edge g ins ce.1 (Primary None);
                 Ret g) chs g;
    Ret (set_graph t g, Ok ins).

(** tree.rs:661-683 [remove_nonterminal]. *)
Definition remove_nonterminal (t : tree) (n : nat) : outcome (tree * result node) :=
  w ← node_at t n;
  _ ← assert (negb (is_terminal w));
  let finish (t : tree) : outcome (tree * result node) :=
    let '(g, o) := remove_node_g (tr_graph t) n in
    w ← unwrap o;
    let t := set_graph t g in
    match sp_skips (node_span w) with
    | Some _ => k ← sub_chk (tr_ndisc t) 1; Ret (set_ndisc t k, Ok w)
    | None => Ret (t, Ok w)
    end in
  match parent t n with
  | Some (p, _) =>
      g ← foldM (fun g (ce : nat * nat) =>
                   '(g, _) ← add_edge g p ce.1 (Primary None); Ret g)
                (children t n) (tr_graph t);
      finish (set_graph t g)
  | None =>
      match children t (tr_root t) with
      | [(c, _)] => finish (set_root t c)
      | _ => Ret (t, Err)
      end
  end.

(** tree.rs:688-700 [remove_terminal].  [compact_terminal_spans()?] and [reset_nt_spans] run before
    the node is removed from the graph. *)
Definition remove_terminal (t : tree) (n : nat) : outcome (tree * result node) :=
  w ← node_at t n;
  _ ← assert (is_terminal w);
  match siblings t n with
  | [] => Ret (t, Err)
  | _ =>
      '(t, r) ← compact_terminal_spans t;
      match r with
      | Err => Ret (t, Err)
      | Ok _ =>
          t ← reset_nt_spans t;
          k ← sub_chk (tr_nterm t) 1;
          let t := set_nterm t k in
          let '(g, o) := remove_node_g (tr_graph t) n in
          w ← unwrap o;
          Ret (set_graph t g, Ok w)
      end
  end.

(** tree.rs:319-329 [remove_node]. *)
Definition remove_node (t : tree) (n : nat) : outcome (tree * result node) :=
  w ← node_at t n;
  if is_terminal w then remove_terminal t n else remove_nonterminal t n.

(** tree.rs:606-625, climbing from the old parent; the path is collected and, when the new parent
    is met, the child's coverage is removed from every node on it. *)
Definition remove_coverage (coverage : list nat) (t : tree) (n : nat) : outcome tree :=
  w ← node_at t n;
  nt ← unwrap (node_nonterminal w);
  '(s, after) ← span_remove (nt_span nt) coverage;
  projectivity_change (put_node t n (NT (nt_set_span nt s))) (span_continuity (nt_span nt)) after.
Fixpoint reattach_climb (fuel : nat) (t : tree) (new_parent child : nat) (c : climber)
    (path : list nat) : outcome tree :=
  match climber_next c t with
  | None => Ret t
  | Some ((n, _), c) =>
      match fuel with
      | 0 => Diverge
      | S fuel =>
          let path := path ++ [n] in
          if Nat.eqb new_parent n then
            w ← node_at t child;
            foldM (remove_coverage (span_iter (node_span w))) path t
          else reattach_climb fuel t new_parent child c path
      end
  end.
(** tree.rs:632-645, merging the child's span into the ancestors that do not cover it yet. *)
Fixpoint reattach_merge (fuel : nat) (t : tree) (cs : span) (c : climber) : outcome tree :=
  match climber_next c t with
  | None => Ret t
  | Some ((p, _), c) =>
      match fuel with
      | 0 => Diverge
      | S fuel =>
          w ← node_at t p;
          if span_covers (node_span w) cs then Ret t
          else
            nt ← unwrap (node_nonterminal w);
            s ← span_merge (nt_span nt) cs;
            t ← projectivity_change (put_node t p (NT (nt_set_span nt s)))
                  (span_continuity (nt_span nt)) (span_continuity s);
            reattach_merge fuel t cs c
      end
  end.
(** tree.rs:593-647 [reattach_primary]. *)
Definition reattach_primary (t : tree) (new_parent edge : nat)
  : outcome (tree * result (nat * edgew)) :=
  r ← unwrap (find_edge (tr_graph t) edge);
  let par := e_src r in
  let child := e_tgt r in
  w ← node_at t new_parent;
  if is_terminal w then Ret (t, Err)
  else if (Nat.eqb (length (siblings t child)) 0 && negb (Nat.eqb par new_parent))%bool
  then Ret (t, Err)
  else
    t ← reattach_climb (climb_fuel t) t new_parent child (climber_new par t) [par];
    let '(g, o) := remove_edge (tr_graph t) edge in
    old ← unwrap o;
    '(g, edge_idx) ← add_edge g new_parent child (Primary None);
    let t := set_graph t g in
    w ← node_at t child;
    t ← reattach_merge (climb_fuel t) t (node_span w) (climber_new child t);
    Ret (t, Ok (edge_idx, old)).

(** tree.rs:649-656 [reattach_secondary]. *)
Definition reattach_secondary (t : tree) (new_parent edge : nat) : outcome (tree * (nat * edgew)) :=
  r ← unwrap (find_edge (tr_graph t) edge);
  let '(g, o) := remove_edge (tr_graph t) edge in
  old ← unwrap o;
  '(g, i) ← add_edge g new_parent (e_tgt r) (Secondary None);
  Ret (set_graph t g, (i, old)).

(** tree.rs:346-370 [reattach_node]. *)
Definition reattach_node (t : tree) (new_parent edge : nat)
  : outcome (tree * result (nat * edgew)) :=
  _ ← assert (contains_node (tr_graph t) new_parent);
  r ← unwrap (find_edge (tr_graph t) edge);
  if Nat.eqb (e_tgt r) new_parent then Ret (t, Err)
  else match e_w r with
       | Primary _ => reattach_primary t new_parent edge
       | Secondary _ => '(t, x) ← reattach_secondary t new_parent edge; Ret (t, Ok x)
       end.

(** tree.rs:388-390, 846-876 [descendent_terminals]: everything the iterator yields. *)
Definition descendent_terminals (t : tree) (n : nat) : outcome (list nat) :=
  _ ← node_at t n;
  l ← dfs_all (S (node_count (tr_graph t) + length (g_edges (tr_graph t)))) (tr_graph t) [n] {[n]};
  Ret (filter (fun m => node_is_term t m = true) l).

(** tree.rs:432-438, the climb of [project_nt_indices] for one terminal. *)
Fixpoint climb_find (fuel : nat) (t : tree) (f : tree -> nat -> bool) (c : climber)
  : outcome (option nat) :=
  match climber_next c t with
  | None => Ret None
  | Some ((p, _), c) =>
      match fuel with
      | 0 => Diverge
      | S fuel => if f t p then Ret (Some p) else climb_find fuel t f c
      end
  end.
(** tree.rs:423-440 [project_nt_indices]; [indices[..] = parent] panics out of bounds. *)
Definition project_nt_indices (t : tree) (f : tree -> nat -> bool) : outcome (list nat) :=
  foldM (fun (ind : list nat) n =>
           o ← climb_find (climb_fuel t) t f (climber_new n t);
           match o with
           | None => Ret ind
           | Some p =>
               w ← node_at t n;
               let i := sp_start (node_span w) in
               _ ← assert (Nat.ltb i (length ind));
               Ret (<[i := p]> ind)
           end)
        (sort_indices t (terminals t)) (replicate (tr_nterm t) (tr_root t)).

(** tree.rs:479-492 [map_climber_path].  The [FnMut] closure gets and returns an explicit state. *)
Fixpoint climb_map {S} (fuel : nat) (f : tree * S -> nat -> nat -> outcome (tree * S * bool))
    (ts : tree * S) (n : nat) (c : climber) : outcome (tree * S) :=
  match climber_next c ts.1 with
  | None => Ret ts
  | Some ((p, _), c) =>
      match fuel with
      | 0 => Diverge
      | S fuel =>
          '(ts, stop) ← f ts p n;
          if (stop : bool) then Ret ts else climb_map fuel f ts n c
      end
  end.
Definition map_climber_path {S} (f : tree * S -> nat -> nat -> outcome (tree * S * bool))
    (ts : tree * S) : outcome (tree * S) :=
  foldM (fun ts n => climb_map (climb_fuel ts.1) f ts n (climber_new n ts.1)) (terminals ts.1) ts.

(** tree.rs:512-525 [project_tag_set]. *)
Definition project_tag_set (t : tree) (feature : str) (f : tree -> nat -> bool) : outcome tree :=
  fst <$> map_climber_path
    (fun (ts : tree * ()) p n =>
       let t := ts.1 in
       if f t p then
         wp ← node_at t p;
         wn ← node_at t n;
         Ret (put_node t n (node_insert_feat wn feature (Some (node_label wp))), tt, true)
       else Ret (ts, false))
    (t, tt).

(** tree.rs:548-565 [project_ids]; the [HashMap<NodeIndex, usize>] is the closure's state. *)
Definition project_ids (t : tree) (feature : str) (f : tree -> nat -> bool) : outcome tree :=
  fst <$> map_climber_path
    (fun (ts : tree * gmap nat nat) p n =>
       let '(t, m) := ts in
       if f t p then
         let '(id, m) := match m !! p with
                         | Some i => (i, m)
                         | None => (size m, <[p := size m]> m)
                         end in
         wn ← node_at t n;
         Ret (put_node t n (node_insert_feat wn feature (Some (print_nat id))), m, true)
       else Ret (ts, false))
    (t, ∅).

(** tree.rs:768-799 [subtree_eq]; the recursion is bounded by the depth of the first tree. *)
Definition edge_info (t : tree) (n : nat) : outcome (option (node * edgew)) :=
  match parent t n with
  | None => Ret None
  | Some (p, e) => wp ← node_at t p; we ← edge_at t e; Ret (Some (wp, we))
  end.
Definition edge_info_eqb (a b : option (node * edgew)) : bool :=
  match a, b with
  | None, None => true
  | Some (n1, e1), Some (n2, e2) => (node_eqb n1 n2 && bool_decide (e1 = e2))%bool
  | _, _ => false
  end.
Fixpoint subtree_eq (fuel : nat) (t1 : tree) (n1 : nat) (t2 : tree) (n2 : nat) : outcome bool :=
  match fuel with
  | 0 => Diverge
  | S fuel =>
      let nodes1 := sort_indices t1 (map fst (children t1 n1)) in
      let nodes2 := sort_indices t2 (map fst (children t2 n2)) in
      (fix go l1 l2 : outcome bool :=
         match l1, l2 with
         | a :: l1, b :: l2 =>
             wa ← node_at t1 a;
             wb ← node_at t2 b;
             if negb (node_eqb wa wb) then Ret false
             else
               p1 ← edge_info t1 a;
               p2 ← edge_info t2 b;
               if negb (edge_info_eqb p1 p2) then Ret false
               else
                 r ← subtree_eq fuel t1 a t2 b;
                 if (r : bool) then go l1 l2 else Ret false
         | _, _ => Ret true
         end) nodes1 nodes2
  end.
(** tree.rs:801-813 [PartialEq for Tree]. *)
Definition tree_eqb (t1 t2 : tree) : outcome bool :=
  if negb (Nat.eqb (tr_nterm t1) (tr_nterm t2)) then Ret false
  else if negb (Nat.eqb (node_count (tr_graph t1)) (node_count (tr_graph t2))) then Ret false
  else subtree_eq (S (node_count (tr_graph t1))) t1 (tr_root t1) t2 (tr_root t2).
