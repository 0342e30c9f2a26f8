(** Rose trees: the order-sorted, graph-free reading of a constituency tree.

    [Den N es n r]: the subtree below node [n] reads as [r].  Children are listed by their least
    position.  Nothing here calls a function of the model. *)
From Verif Require Export ModModel TreeSpec.

Inductive rose :=
| RLeaf (tm : terminal)
| RNode (nt : nonterminal) (cs : list (option str * rose)).

Section rose_ind.
  Context (P : rose -> Prop).
  Hypothesis Hleaf : forall tm, P (RLeaf tm).
  Hypothesis Hnode : forall nt cs, Forall (fun c => P c.2) cs -> P (RNode nt cs).
  Fixpoint rose_ind' (r : rose) : P r :=
    match r with
    | RLeaf tm => Hleaf tm
    | RNode nt cs =>
        Hnode nt cs ((fix go cs : Forall (fun c => P c.2) cs :=
                        match cs with
                        | [] => @List.Forall_nil _ _
                        | c :: cs => @List.Forall_cons _ _ c cs (rose_ind' c.2) (go cs)
                        end) cs)
    end.
End rose_ind.

(** First position of the span stored at a node. *)
Definition first_pos (N : gmap nat node) (n : nat) : nat :=
  match N !! n with Some w => sp_start (node_span w) | None => 0 end.

Inductive Den (N : gmap nat node) (es : list erec) : nat -> rose -> Prop :=
| Den_leaf n tm : N !! n = Some (T tm) -> Den N es n (RLeaf tm)
| Den_node n nt l cs :
    N !! n = Some (NT nt) ->
    (forall r, r ∈ l <-> r ∈ es /\ is_primary (e_w r) = true /\ e_src r = n) ->
    StronglySorted (fun a b => first_pos N (e_tgt a) < first_pos N (e_tgt b)) l ->
    Forall2 (fun r c => c.1 = edge_label (e_w r) /\ Den N es (e_tgt r) c.2) l cs ->
    Den N es n (RNode nt cs).

(** The rose tree of a whole tree. *)
Definition Reads (t : tree) (r : rose) : Prop := Den (nodes t) (edges t) (tr_root t) r.

(** Terminals from left to right. *)
Fixpoint leaves (r : rose) : list terminal :=
  match r with
  | RLeaf tm => [tm]
  | RNode _ cs => concat (map (fun c => leaves c.2) cs)
  end.

(** Two rose trees of the same shape whose labels are related. *)
Inductive rose_rel (RT : terminal -> terminal -> Prop) (RN : nonterminal -> nonterminal -> Prop)
    (RE : option str -> option str -> Prop) : rose -> rose -> Prop :=
| rel_leaf a b : RT a b -> rose_rel RT RN RE (RLeaf a) (RLeaf b)
| rel_node a b cs ds :
    RN a b -> Forall2 (fun c d => RE c.1 d.1 /\ rose_rel RT RN RE c.2 d.2) cs ds ->
    rose_rel RT RN RE (RNode a cs) (RNode b ds).
