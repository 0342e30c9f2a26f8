(** Model of the parts of petgraph 0.4.13's [StableGraph] and its traversals that lumberjack uses.

    - Node and edge indices are [nat] (petgraph: u32; overflow not modelled).
    - [g_nodes] maps live node indices to weights.  Removed indices go to a LIFO free list
      ([g_nfree]) and are handed out again before the bound [g_ncap] grows
      (petgraph stable_graph [add_node], [remove_node]).
    - [g_edges] lists the live edges, newest first.  petgraph prepends a new edge to the outgoing
      list of its source and to the incoming list of its target, so both adjacency lists are
      this list filtered by endpoint.  Edge indices are reused the same way as node indices. *)
From Verif Require Export NodeModel.

Record erec := mk_e { e_id : nat; e_src : nat; e_tgt : nat; e_w : edgew }.
Global Instance erec_eq_dec : EqDecision erec.
Proof. solve_decision. Defined.

Record graph := mk_graph {
  g_nodes : gmap nat node;
  g_ncap : nat;
  g_nfree : list nat;
  g_edges : list erec;
  g_ecap : nat;
  g_efree : list nat
}.

Definition graph_empty : graph := mk_graph ∅ 0 [] [] 0 [].

(** [StableGraph::node_indices]: live indices in increasing order. *)
Definition node_indices (g : graph) : list nat :=
  filter (fun i => is_Some (g_nodes g !! i)) (seq 0 (g_ncap g)).
Definition node_count (g : graph) : nat := size (g_nodes g).
Definition contains_node (g : graph) (n : nat) : bool := bool_decide (is_Some (g_nodes g !! n)).

Definition set_nodes (g : graph) (m : gmap nat node) : graph :=
  mk_graph m (g_ncap g) (g_nfree g) (g_edges g) (g_ecap g) (g_efree g).
Definition set_edges (g : graph) (l : list erec) : graph :=
  mk_graph (g_nodes g) (g_ncap g) (g_nfree g) l (g_ecap g) (g_efree g).

(** [StableGraph::add_node]. *)
Definition add_node (g : graph) (w : node) : graph * nat :=
  match g_nfree g with
  | i :: free =>
      (mk_graph (<[i := w]> (g_nodes g)) (g_ncap g) free (g_edges g) (g_ecap g) (g_efree g), i)
  | [] =>
      (mk_graph (<[g_ncap g := w]> (g_nodes g)) (S (g_ncap g)) [] (g_edges g) (g_ecap g)
                (g_efree g), g_ncap g)
  end.

(** [StableGraph::add_edge]: panics when an endpoint does not exist. *)
Definition add_edge (g : graph) (a b : nat) (w : edgew) : outcome (graph * nat) :=
  if (contains_node g a && contains_node g b)%bool then
    match g_efree g with
    | i :: free =>
        Ret (mk_graph (g_nodes g) (g_ncap g) (g_nfree g) (mk_e i a b w :: g_edges g) (g_ecap g)
                      free, i)
    | [] =>
        Ret (mk_graph (g_nodes g) (g_ncap g) (g_nfree g) (mk_e (g_ecap g) a b w :: g_edges g)
                      (S (g_ecap g)) [], g_ecap g)
    end
  else Panic.

Definition find_edge (g : graph) (e : nat) : option erec :=
  head (filter (fun r => e_id r = e) (g_edges g)).

(** [StableGraph::remove_edge]: [None] when the edge does not exist. *)
Definition remove_edge (g : graph) (e : nat) : graph * option edgew :=
  match find_edge g e with
  | None => (g, None)
  | Some r =>
      (mk_graph (g_nodes g) (g_ncap g) (g_nfree g) (filter (fun r => e_id r <> e) (g_edges g))
                (g_ecap g) (e :: g_efree g), Some (e_w r))
  end.

(** [StableGraph::edges_directed]. *)
Definition out_edges (g : graph) (n : nat) : list erec := filter (fun r => e_src r = n) (g_edges g).
Definition in_edges (g : graph) (n : nat) : list erec := filter (fun r => e_tgt r = n) (g_edges g).

(** [StableGraph::remove_node]: outgoing edges are removed first, then incoming ones, each list
    from its newest edge on. *)
Definition remove_edges (g : graph) (es : list nat) : graph :=
  foldl (fun g e => (remove_edge g e).1) g es.
Definition remove_node_g (g : graph) (n : nat) : graph * option node :=
  match g_nodes g !! n with
  | None => (g, None)
  | Some w =>
      let g1 := remove_edges g (map e_id (out_edges g n)) in
      let g2 := remove_edges g1 (map e_id (in_edges g1 n)) in
      (mk_graph (delete n (g_nodes g2)) (g_ncap g2) (n :: g_nfree g2) (g_edges g2) (g_ecap g2)
                (g_efree g2), Some w)
  end.

(** [IndexMut<NodeIndex>]/[IndexMut<EdgeIndex>] assignments. *)
Definition set_node (g : graph) (n : nat) (w : node) : graph := set_nodes g (<[n := w]> (g_nodes g)).
Definition set_edge_weight (g : graph) (e : nat) (w : edgew) : graph :=
  set_edges g (map (fun r => if Nat.eqb (e_id r) e then mk_e (e_id r) (e_src r) (e_tgt r) w else r)
                   (g_edges g)).

(** tree.rs:895-905 [GraphWrap::neighbors]: targets of primary outgoing edges. *)
Definition neighbors (g : graph) (n : nat) : list nat :=
  map e_tgt (filter (fun r => is_primary (e_w r) = true) (out_edges g n)).

(** petgraph 0.4.13 [visit::DfsPostOrder].  The stack's top is the head of the list; successors
    are pushed in adjacency order, so the last one ends up on top. *)
Record dfs_post := mk_dfs { d_stack : list nat; d_disc : gset nat; d_fin : gset nat }.
Definition dfs_post_new (start : nat) : dfs_post := mk_dfs [start] ∅ ∅.

Fixpoint dfs_post_next (fuel : nat) (g : graph) (d : dfs_post) : outcome (option (nat * dfs_post)) :=
  match d_stack d with
  | [] => Ret None
  | nx :: rest =>
      match fuel with
      | 0 => Diverge
      | S fuel =>
          if bool_decide (nx ∈ d_disc d) then
            if bool_decide (nx ∈ d_fin d) then
              dfs_post_next fuel g (mk_dfs rest (d_disc d) (d_fin d))
            else Ret (Some (nx, mk_dfs rest (d_disc d) ({[nx]} ∪ d_fin d)))
          else
            let disc := {[nx]} ∪ d_disc d in
            let succs := filter (fun s => s ∉ disc) (neighbors g nx) in
            dfs_post_next fuel g (mk_dfs (rev succs ++ d_stack d) disc (d_fin d))
      end
  end.
(** Fuel for one call: every turn pops, or discovers a node and pushes its successors. *)
Definition dfs_fuel (g : graph) (d : dfs_post) : nat :=
  S (length (d_stack d) + node_count g + length (g_edges g)).

(** petgraph 0.4.13 [visit::Dfs] (nodes are marked when pushed).  [start] is marked by
    [Dfs::new]. *)
Fixpoint push_new (succs : list nat) (stack : list nat) (disc : gset nat) : list nat * gset nat :=
  match succs with
  | [] => (stack, disc)
  | s :: ss =>
      if bool_decide (s ∈ disc) then push_new ss stack disc
      else push_new ss (s :: stack) ({[s]} ∪ disc)
  end.
(** All nodes the iterator yields, in order. *)
Fixpoint dfs_all (fuel : nat) (g : graph) (stack : list nat) (disc : gset nat)
  : outcome (list nat) :=
  match stack with
  | [] => Ret []
  | n :: rest =>
      match fuel with
      | 0 => Diverge
      | S fuel =>
          let '(stack', disc') := push_new (neighbors g n) rest disc in
          l ← dfs_all fuel g stack' disc';
          Ret (n :: l)
      end
  end.
