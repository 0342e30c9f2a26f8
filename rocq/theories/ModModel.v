(** Model of /repo/lumberjack/src/tree_modification.rs.

    Closures of type [Fn(&Tree, NodeIndex) -> X] are functions [tree -> nat -> X] (a closure that
    panics is not modelled).  Functions returning [Result<(), Error>] return the tree as it is left
    behind together with the result. *)
From Verif Require Export TreeModel.

(** [self[terminal].terminal_mut().unwrap().set_label(pos)] (tree_modification.rs:28,
    node.rs:380-383). *)
Definition set_term_label (t : tree) (n : nat) (pos : str) : outcome tree :=
  w ← node_at t n;
  tm ← unwrap (node_terminal w);
  Ret (put_node t n (T (mk_term (t_form tm) pos (t_lemma tm) (t_feats tm) (t_span tm)))).

(** tree_modification.rs:26-39 [annotate_pos]: the loop over the terminals, in node index order. *)
Fixpoint annotate_pos_loop (t : tree) (terms : list nat) (tags : list str)
  : outcome (tree * result ()) :=
  match terms with
  | [] => match tags with [] => Ret (t, Ok ()) | _ => Ret (t, Err) end
  | n :: terms =>
      match tags with
      | [] => Ret (t, Err)
      | pos :: tags => t ← set_term_label t n pos; annotate_pos_loop t terms tags
      end
  end.
(** tree_modification.rs:21-40 [annotate_pos]. *)
Definition annotate_pos (t : tree) (tags : list str) : outcome (tree * result ()) :=
  annotate_pos_loop t (terminals t) tags.

(** tree_modification.rs:143-156 [annotate_parent_tag]. *)
Definition annotate_parent_tag (t : tree) (feature : str) : outcome (tree * result ()) :=
  foldR (fun t n =>
           match parent t n with
           | None => Ret (t, Err)
           | Some (p, _) =>
               wp ← node_at t p;
               wn ← node_at t n;
               Ret (put_node t n (node_insert_feat wn feature (Some (node_label wp))), Ok ())
           end) (terminals t) t.

(** tree_modification.rs:178 [children.sort_by(|c1, c2| self[c1.0].span().cmp(self[c2.0].span()))];
    the children are live nodes. *)
Definition span_order (t : tree) (a b : nat * nat) : comparison :=
  match g_nodes (tr_graph t) !! a.1, g_nodes (tr_graph t) !! b.1 with
  | Some na, Some nb => span_cmp (node_span na) (node_span nb)
  | _, _ => Eq
  end.

(** tree_modification.rs:183-193, the loop over the remaining terminal children. *)
Fixpoint insert_runs (t : tree) (vis : gset nat) (label : str) (ins prev : nat)
    (chs : list (nat * nat)) : outcome (tree * gset nat * result ()) :=
  match chs with
  | [] => Ret (t, vis, Ok ())
  | (c, e) :: chs =>
      let vis := {[c]} ∪ vis in
      w ← node_at t c;
      let i := sp_start (node_span w) in
      if Nat.eqb i (prev + 1) then
        '(t, r) ← reattach_node t ins e;
        match r with
        | Err => Ret (t, vis, Err)
        | Ok _ => insert_runs t vis label ins (prev + 1) chs
        end
      else
        '(t, ins) ← insert_unary_above t c label;
        insert_runs t vis label ins i chs
  end.
(** tree_modification.rs:165-195, the loop body for one terminal. *)
Definition insert_intermediate_step (f : tree -> nat -> option str) (tv : tree * gset nat) (n : nat)
  : outcome ((tree * gset nat) * result ()) :=
  let '(t, vis) := tv in
  if bool_decide (n ∈ vis) then Ret (tv, Ok ())
  else
    let vis := {[n]} ∪ vis in
    match parent t n with
    | None => Ret ((t, vis), Err)
    | Some (p, _) =>
        match f t p with
        | None => Ret ((t, vis), Ok ())
        | Some label =>
            let chs := filter (fun ce => node_is_term t ce.1 = true) (children t p) in
            match sort_by (span_order t) chs with
            | [] => Panic
            | (c, _) :: rest =>
                '(t, ins) ← insert_unary_above t c label;
                w ← node_at t c;
                insert_runs t vis label ins (sp_start (node_span w)) rest
            end
        end
    end.
(** tree_modification.rs:158-197 [insert_intermediate]. *)
Definition insert_intermediate (t : tree) (f : tree -> nat -> option str)
  : outcome (tree * result ()) :=
  '(tv, r) ← foldR (insert_intermediate_step f) (terminals t) (t, ∅);
  Ret (tv.1, r).

(** tree_modification.rs:199-214 [filter_nonterminals]. *)
Definition filter_nonterminals (t : tree) (f : tree -> nat -> bool) : outcome (tree * result ()) :=
  foldR (fun t n =>
           if negb (f t n) then
             '(t, r) ← remove_node t n;
             match r with Ok _ => Ret (t, Ok ()) | Err => Ret (t, Err) end
           else Ret (t, Ok ()))
        (filter (fun n => n <> tr_root t) (nonterminals t)) t.

(** tree_modification.rs:224-231, the loop dissolving the unary chain above a terminal.  When the
    climber is exhausted nothing changes any more and the loop runs forever. *)
Fixpoint dissolve_chain (fuel : nat) (t : tree) (attachment n : nat) (c : climber) : outcome tree :=
  if Nat.eqb (length (siblings t n)) 0 then
    match fuel with
    | 0 => Diverge
    | S fuel =>
        match climber_next c t with
        | Some ((p, _), c) =>
            if (negb (Nat.eqb p (tr_root t)) && negb (Nat.eqb p attachment))%bool then
              '(t, r) ← remove_node t p;
              _ ← unwrap_ok r;
              dissolve_chain fuel t attachment n c
            else dissolve_chain fuel t attachment n c
        | None => dissolve_chain fuel t attachment n c
        end
    end
  else Ret t.
(** tree_modification.rs:216-237 [reattach_terminals]. *)
Definition reattach_terminals_step (attachment : nat) (f : tree -> nat -> bool) (t : tree) (n : nat)
  : outcome tree :=
  if f t n then
    t ← dissolve_chain (climb_fuel t) t attachment n (climber_new n t);
    '(_, e) ← unwrap (parent t n);
    '(t, r) ← reattach_node t attachment e;
    _ ← unwrap_ok r;
    Ret t
  else Ret t.
Definition reattach_terminals (t : tree) (attachment : nat) (f : tree -> nat -> bool)
  : outcome tree :=
  t ← foldM (reattach_terminals_step attachment f) (terminals t) t;
  reset_nt_spans t.

(** The key ["unary_chain"] (tree_modification.rs:273, 276, 288). *)
Definition unary_chain : str := lit "unary_chain".

(** tree_modification.rs:270-276, appending one label to the chain stored on a node. *)
Definition push_chain (w : node) (delim label : str) : node :=
  let m := default ∅ (node_feats w) in
  let chain := match m !! unary_chain with
               | Some (Some c) => c ++ delim ++ label
               | _ => label
               end in
  node_set_feats w (Some (feats_insert m unary_chain (Some chain)).1).

(** tree_modification.rs:264-280, the climb from one terminal. *)
Fixpoint collapse_climb (fuel : nat) (t : tree) (delim : str) (cur : nat) (c : climber)
  : outcome tree :=
  match climber_next c t with
  | None => Ret t
  | Some ((n, _), c) =>
      match fuel with
      | 0 => Diverge
      | S fuel =>
          wn ← node_at t n;
          wc ← node_at t cur;
          if span_eqb (node_span wn) (node_span wc) then
            '(t, r) ← remove_node t n;
            w ← unwrap_ok r;
            wc ← node_at t cur;
            collapse_climb fuel (put_node t cur (push_chain wc delim (node_label w))) delim cur c
          else collapse_climb fuel t delim n c
      end
  end.
(** tree_modification.rs:261-283 [collapse_unary_chains]; it never returns [Err]. *)
Definition collapse_unary_chains (t : tree) (delim : str) : outcome (tree * result ()) :=
  t ← foldM (fun t n => collapse_climb (climb_fuel t) t delim n (climber_new n t)) (terminals t) t;
  Ret (t, Ok ()).

(** tree_modification.rs:291-293, inserting the nodes of one chain. *)
Fixpoint insert_chain (t : tree) (cur : nat) (labels : list str) : outcome tree :=
  match labels with
  | [] => Ret t
  | l :: labels => '(t, cur) ← insert_unary_above t cur l; insert_chain t cur labels
  end.
(** tree_modification.rs:285-299 [restore_unary_chains].  [features_mut] initialises the features of
    every node. *)
Definition restore_unary_chains (t : tree) (delim : str) : outcome (tree * result ()) :=
  foldR (fun t n =>
           w ← node_at t n;
           let '(m, o) := feats_remove (default ∅ (node_feats w)) unary_chain in
           let t := put_node t n (node_set_feats w (Some m)) in
           match o with
           | None => Ret (t, Ok ())
           | Some None => Ret (t, Err)
           | Some (Some chain) => t ← insert_chain t n (split_str delim chain); Ret (t, Ok ())
           end)
        (node_indices (tr_graph t)) t.

(** tree_modification.rs:327-350, the climb from a skipped terminal: the first ancestor covering the
    attachment point's span, the edge leading to it, and the node below.  The mutation happens after
    the [break], so the search is separated from it. *)
Fixpoint find_handle (fuel : nat) (t : tree) (s : span) (prev : nat) (c : climber)
  : outcome (option (nat * nat * nat)) :=
  match climber_next c t with
  | None => Ret None
  | Some ((h, e), c) =>
      match fuel with
      | 0 => Diverge
      | S fuel =>
          w ← node_at t h;
          if span_covers (node_span w) s then Ret (Some (h, e, prev))
          else find_handle fuel t s h c
      end
  end.

(** Reports of [projectivize]: (old parent, edge, moved node). *)
Notation report := (nat * edgew * nat)%type.

(** tree_modification.rs:320-351, the loop filling the gaps of one node.  [s.iter().next()] on a
    [HashSet] is an arbitrary element: [choose k s], where [k] counts the choices made so far.  A
    climb that finds nothing leaves everything as it is and the loop runs forever. *)
Fixpoint fill_gaps (fuel : nat) (choose : nat -> gset nat -> nat) (terms : list nat) (a : nat)
    (t : tree) (v : list report) (k : nat) : outcome (tree * list report * nat) :=
  w ← node_at t a;
  match sp_skips (node_span w) with
  | None => Ret (t, v, k)
  | Some s =>
      if Nat.eqb (size s) 0 then Ret (t, v, k)
      else
        match fuel with
        | 0 => Diverge
        | S fuel =>
            skipped ← unwrap (terms !! choose k s);
            o ← find_handle (climb_fuel t) t (node_span w) skipped (climber_new skipped t);
            match o with
            | None => fill_gaps fuel choose terms a t v (S k)
            | Some (h, e, prev) =>
                '(t, r) ← reattach_node t a e;
                '(new_edge, edge) ← unwrap_ok r;
                _ ← edge_at t new_edge;
                fill_gaps fuel choose terms a (put_edge t new_edge edge) (v ++ [(h, edge, prev)]) (S k)
            end
        end
  end.
(** tree_modification.rs:318-356, the traversal. *)
Fixpoint proj_loop (fuel : nat) (choose : nat -> gset nat -> nat) (terms : list nat) (t : tree)
    (d : dfs_post) (v : list report) (k : nat) : outcome (tree * list report) :=
  match fuel with
  | 0 => Diverge
  | S fuel =>
      o ← dfs_post_next (dfs_fuel (tr_graph t) d) (tr_graph t) d;
      match o with
      | None => Ret (t, v)
      | Some (a, d) =>
          '(t, v, k) ← fill_gaps (S (tr_nterm t)) choose terms a t v k;
          if is_projective t then Ret (t, v) else proj_loop fuel choose terms t d v k
      end
  end.
(** tree_modification.rs:311-361 [projectivize]. *)
Definition projectivize (choose : nat -> gset nat -> nat) (t : tree)
  : outcome (tree * option (list report)) :=
  if negb (is_projective t) then
    '(t, v) ← proj_loop (S (node_count (tr_graph t))) choose (sort_indices t (terminals t)) t
                (dfs_post_new (tr_root t)) [] 0;
    Ret (t, Some v)
  else Ret (t, None).
