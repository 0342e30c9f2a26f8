(** Specification vocabulary for trees: dominance, well-formedness.

    Nothing here calls a function of the model; only the data types of the model are used. *)
From Verif Require Export TreeModel SpanProofs.
From stdpp Require Export relations.

Notation nodes t := (g_nodes (tr_graph t)).
Notation edges t := (g_edges (tr_graph t)).

(** [PE es p c]: some primary edge leads from [p] to [c]. *)
Definition PE (es : list erec) (p c : nat) : Prop :=
  exists r, r ∈ es /\ is_primary (e_w r) = true /\ e_src r = p /\ e_tgt r = c.
(** Dominance: reflexive-transitive closure of primary edges. *)
Notation Dom es := (rtc (PE es)).

(** Allocation and adjacency bookkeeping of the graph. *)
Record graph_ok (g : graph) : Prop := {
  go_eids : NoDup (map e_id (g_edges g) ++ g_efree g);
  go_ebound : forall e, e ∈ map e_id (g_edges g) ++ g_efree g -> e < g_ecap g;
  go_nbound : forall n, is_Some (g_nodes g !! n) -> n < g_ncap g;
  go_nfree : NoDup (g_nfree g);
  go_nfree_dead : forall n, n ∈ g_nfree g -> n < g_ncap g /\ g_nodes g !! n = None;
  go_ends : forall r, r ∈ g_edges g ->
              is_Some (g_nodes g !! e_src r) /\ is_Some (g_nodes g !! e_tgt r)
}.

(** The primary edges form a tree over the live nodes, terminals are exactly the leaves. *)
Record shape_ok (N : gmap nat node) (es : list erec) (root : nat) : Prop := {
  sh_root : is_Some (N !! root);
  sh_root_top : forall p, ~ PE es p root;
  sh_uniq : forall r1 r2, r1 ∈ es -> r2 ∈ es -> is_primary (e_w r1) = true ->
              is_primary (e_w r2) = true -> e_tgt r1 = e_tgt r2 -> r1 = r2;
  sh_live : forall p c, PE es p c -> is_Some (N !! p) /\ is_Some (N !! c);
  sh_reach : forall n, is_Some (N !! n) -> Dom es root n;
  sh_leaf : forall n tm c, N !! n = Some (T tm) -> ~ PE es n c;
  sh_inner : forall n nt, N !! n = Some (NT nt) -> exists c, PE es n c
}.

(** [term_pos N n i]: node [n] is a terminal at sentence position [i]. *)
Definition term_pos (N : gmap nat node) (n i : nat) : Prop :=
  exists tm, N !! n = Some (T tm) /\ t_span tm = span_of i.

(** The terminals occupy the positions [0 .. k-1], one each. *)
Record terms_ok (N : gmap nat node) (k : nat) : Prop := {
  to_pos : forall n tm, N !! n = Some (T tm) -> exists i, t_span tm = span_of i /\ i < k;
  to_inj : forall n m i, term_pos N n i -> term_pos N m i -> n = m;
  to_surj : forall i, i < k -> exists n, term_pos N n i
}.

(** The yield of a node: positions of the dominated terminals. *)
Definition yields (N : gmap nat node) (es : list erec) (n i : nat) : Prop :=
  exists m, Dom es n m /\ term_pos N m i.

(** A nonterminal's span is canonical and covers exactly its yield. *)
Definition nts_ok (N : gmap nat node) (es : list erec) : Prop :=
  forall n nt, N !! n = Some (NT nt) ->
    span_ok (nt_span nt) /\ forall i, covers (nt_span nt) i <-> yields N es n i.

(** Number of nodes whose span has a gap. *)
Definition gappy (w : node) : Prop := sp_skips (node_span w) <> None.
Global Instance gappy_dec w : Decision (gappy w).
Proof. unfold gappy. apply _. Defined.
Definition ndisc_of (N : gmap nat node) : nat := size (filter (fun kv => gappy kv.2) N).

(** Well-formed trees. *)
Record WF (t : tree) : Prop := {
  wf_graph : graph_ok (tr_graph t);
  wf_shape : shape_ok (nodes t) (edges t) (tr_root t);
  wf_terms : terms_ok (nodes t) (tr_nterm t);
  wf_nts : nts_ok (nodes t) (edges t);
  wf_ndisc : tr_ndisc t = ndisc_of (nodes t)
}.
