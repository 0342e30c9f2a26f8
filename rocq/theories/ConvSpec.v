(** Specification of the conversion tool: one relation per option, in terms of trees only. *)
From Verif Require Import ConvModel TreeSpec NavProofs PropsMod PropsMod3 PropsDec2 PropsEnc AnnotProofs CollapseProofs PropsMod2 Ordered.

(** What no option may change: the words, their lemmas and positions. *)
Definition tword (N : gmap nat node) (n : nat) : option (str * option str * span) :=
  match N !! n with Some (T tm) => Some (t_form tm, t_lemma tm, t_span tm) | _ => None end.
Definition kept (t t' : tree) : Prop :=
  WF t' /\ tr_nterm t' = tr_nterm t /\ forall n, tword (nodes t') n = tword (nodes t) n.

(** A nonterminal (or terminal) whose label satisfies [P]. *)
Definition labelled (t : tree) (P : str -> Prop) (n : nat) : Prop :=
  exists w, nodes t !! n = Some w /\ P (node_label w).
Definition in_set (s : label_set) (l : str) : Prop :=
  match s with Positive ls => l ∈ ls | Negative ls => l ∉ ls end.
Definition has_prefix (p l : str) : Prop := exists r, l = p ++ r.

(** [--remove_dummies] *)
Definition undummied (t t' : tree) : Prop :=
  WF t' /\ tr_nterm t' = tr_nterm t /\
  (forall n w, nodes t' !! n = Some w <-> nodes t !! n = Some w /\ (proper w \/ (n = tr_root t /\ ~ single_top t))) /\
  (forall a b, is_Some (nodes t' !! a) -> is_Some (nodes t' !! b) -> Dom (edges t') a b <-> Dom (edges t) a b).

(** [--projectivize]: the reattachments [v] lead from [t] to [u]. *)
Definition projectivized (t : tree) (v : list report) (u : tree) : Prop :=
  PropsMod.steps t v u /\ Forall (fun rep : report => inner t rep.1.1) v /\ WF u /\ (forall n w, nodes u !! n = Some w -> ~ gappy w) /\
  same_but_nt_spans (nodes t) (nodes u) /\ same_edge_labels t u /\ tr_root u = tr_root t /\ tr_nterm u = tr_nterm t.
(** [--sec_edges]: one more edge per reattachment. *)
Definition sec_of (r : erec) (rep : report) : Prop :=
  let '(p, w, c) := rep in
  e_src r = p /\ e_tgt r = c /\
  e_w r = Secondary (Some (match w with Primary (Some l) | Secondary (Some l) => lit "np_" ++ l | _ => lit "np" end)).
Definition with_secs (u : tree) (v : list report) (t' : tree) : Prop :=
  psame u t' /\ WF t' /\ exists es, edges t' = reverse es ++ edges u /\ Forall2 sec_of es v.
Definition spec_proj (o : options) (t t' : tree) : Prop :=
  if o_proj o then
    (is_projective t = true /\ t' = t) \/
    (is_projective t = false /\ exists v u, v <> [] /\ projectivized t v u /\ if o_sec o then with_secs u v t' else t' = u)
  else t' = t.

(** [--pos]: the word at position [i] gets tag [i]. *)
Definition sentence_tagged (t : tree) (tags : list str) (t' : tree) : Prop :=
  WF t' /\ edges t' = edges t /\ tr_root t' = tr_root t /\ tr_nterm t' = tr_nterm t /\
  (forall n nt, nodes t' !! n = Some (NT nt) <-> nodes t !! n = Some (NT nt)) /\
  (forall n, nodes t' !! n = None <-> nodes t !! n = None) /\
  (forall n i tm, term_pos (nodes t) n i -> nodes t !! n = Some (T tm) ->
     exists pos, tags !! i = Some pos /\
       nodes t' !! n = Some (T (mk_term (t_form tm) pos (t_lemma tm) (t_feats tm) (t_span tm)))).
(** The tags of a sentence: every token has one. *)
Definition tags_of (s : list token) (tags : list str) : Prop :=
  Forall2 (fun k pos => k_pos k = Some pos) s tags.

(** [--id_set]: terminals below a matching node get the number of the closest one. *)
Definition id_node (t : tree) (s : label_set) (p : nat) : Prop := p = tr_root t \/ labelled t (in_set s) p.
Definition numbered (t : tree) (k : str) (s : label_set) (t' : tree) : Prop :=
  WF t' /\ edges t' = edges t /\ tr_root t' = tr_root t /\ tr_nterm t' = tr_nterm t /\
  (forall n nt, nodes t' !! n = Some (NT nt) <-> nodes t !! n = Some (NT nt)) /\
  (forall n, nodes t' !! n = None <-> nodes t !! n = None) /\
  (forall n tm, nodes t !! n = Some (T tm) ->
     (forall p, closest t (id_node t s) n p -> exists i, nodes t' !! n = Some (T (featured tm k (print_nat i)))) /\
     (no_match t (id_node t s) n -> nodes t' !! n = Some (T tm))) /\
  (forall n n' p p' tm tm' i i',
     nodes t !! n = Some (T tm) -> nodes t !! n' = Some (T tm') ->
     closest t (id_node t s) n p -> closest t (id_node t s) n' p' ->
     nodes t' !! n = Some (T (featured tm k i)) -> nodes t' !! n' = Some (T (featured tm' k i')) ->
     i = i' <-> p = p').

(** [--filter] *)
Definition filtered (t : tree) (s : label_set) (t' : tree) : Prop :=
  WF t' /\ tr_root t' = tr_root t /\ tr_nterm t' = tr_nterm t /\
  (forall n w, nodes t' !! n = Some w <->
     nodes t !! n = Some w /\ (n = tr_root t \/ is_terminal w = true \/ in_set s (node_label w))) /\
  (forall a b, is_Some (nodes t' !! a) -> is_Some (nodes t' !! b) -> Dom (edges t') a b <-> Dom (edges t) a b).

(** [--parent] *)
Definition parent_tagged (t : tree) (k : str) (t' : tree) : Prop :=
  WF t' /\ edges t' = edges t /\ tr_root t' = tr_root t /\ tr_nterm t' = tr_nterm t /\
  (forall n nt, nodes t' !! n = Some (NT nt) <-> nodes t !! n = Some (NT nt)) /\
  (forall n, nodes t' !! n = None <-> nodes t !! n = None) /\
  (forall n tm p w, nodes t !! n = Some (T tm) -> PE (edges t) p n -> nodes t !! p = Some w ->
     nodes t' !! n = Some (T (featured tm k (node_label w)))).

(** Output as tags: unary chains are collapsed. *)
Definition collapsed_to (t t' : tree) : Prop :=
  WF t' /\ tr_nterm t' = tr_nterm t /\
  (forall n nt, nodes t' !! n = Some (NT nt) -> exists c d, c <> d /\ PE (edges t') n c /\ PE (edges t') n d) /\
  (forall n, is_Some (nodes t' !! n) <-> anchor t n) /\
  (forall n w l ls, nodes t !! n = Some w -> anchor t n -> uchain (edges t) n l -> labels_of t l ls ->
     nodes t' !! n = Some (recorded (lit "_") w ls)) /\
  (forall a b, anchor t a -> anchor t b -> Dom (edges t') a b <-> Dom (edges t) a b).

(** A terminal that is the root has no parent. *)
Definition bare (t : tree) : Prop := exists tm, nodes t !! tr_root t = Some (T tm).

(** The chain of trees from the input to what is written. *)
Definition opt {A} (x : option A) (R : A -> tree -> tree -> Prop) (t t' : tree) : Prop :=
  match x with Some a => R a t t' | None => t' = t end.
Definition spec_encode (o : options) (t t' : tree) : Prop :=
  match o_out o with
  | OAbsolute => exists u e, collapsed_to t u /\ encode_absolute u = Ret (Ok e) /\
                   annotates u t' (lit "abs_ancestor") (fun i => entry_text abs_to_string <$> e !! i)
  | ORelative => exists u e, collapsed_to t u /\ encode_relative u = Ret (Ok e) /\
                   annotates u t' (lit "rel_ancestor") (fun i => entry_text rel_to_string <$> e !! i)
  | _ => t' = t
  end.
Definition spec_reattach (o : options) : tree -> tree -> Prop :=
  opt (o_reattach o) (fun p t t' => exists f,
    (forall t n, f t n = true <-> labelled t (has_prefix p) n) /\ reattached t t' (tr_root t) f).
Definition spec_insert (o : options) : tree -> tree -> Prop :=
  opt (o_insert o) (fun s t t' => exists f,
    (forall t n w, nodes t !! n = Some w ->
       (in_set s (node_label w) -> f t n = None) /\ (~ in_set s (node_label w) -> f t n = Some (o_insert_label o))) /\
    grouped t t' f).
(** From the input tree [t] to the tree before encoding. *)
Definition edited (o : options) (tags : option (list str)) (t t' : tree) : Prop :=
  exists t1 t2 t3 t4 t5 t6 t7,
    (if o_dummies o then undummied t t1 else t1 = t) /\
    spec_proj o t1 t2 /\
    opt tags (fun tags a b => sentence_tagged a tags b) t2 t3 /\
    spec_reattach o t3 t4 /\
    opt (o_ids o) (fun s a b => numbered a (o_id_name o) s b) t4 t5 /\
    opt (o_filter o) (fun s a b => filtered a s b) t5 t6 /\
    spec_insert o t6 t7 /\
    opt (o_parent o) (fun k a b => parent_tagged a k b) t7 t'.
