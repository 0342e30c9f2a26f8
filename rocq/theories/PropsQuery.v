(** The queries for secondary edges. *)
From Coq Require Import Lia.
From Verif Require Import TreeModel TreeSpec BaseProofs GraphProofs Ordered PropsTree.

(** *** Specification *)

(** [t] has a secondary edge with number [e] from [p] to [c]. *)
Definition sec_link (t : tree) (p c e : nat) : Prop := exists l, mk_e e p c (Secondary l) ∈ edges t.

(** *** Proofs *)
Lemma sec_link_rec t p c e : sec_link t p c e <->
  exists r, r ∈ edges t /\ is_primary (e_w r) = false /\ e_src r = p /\ e_tgt r = c /\ e_id r = e.
Proof.
  split.
  - intros [l H]. by exists (mk_e e p c (Secondary l)).
  - intros ([i s g w] & H & P & <- & <- & <-). destruct w as [l|l]; [done|]. by exists l.
Qed.
Lemma elem_of_secondary_children t n c e : (c, e) ∈ secondary_children t n <-> sec_link t n c e.
Proof.
  rewrite sec_link_rec. unfold secondary_children, out_edges. rewrite elem_of_list_fmap. split.
  - intros (r & [= -> ->] & Hr). rewrite !elem_of_list_filter in Hr. exists r. tauto.
  - intros (r & H1 & H2 & H3 & <- & <-). exists r. split; [done|]. rewrite !elem_of_list_filter. tauto.
Qed.

Lemma fmap_filter_NoDup (P : erec -> Prop) `{!forall r, Decision (P r)} l : NoDup (e_id <$> l) -> NoDup (e_id <$> filter P l).
Proof.
  induction l as [|r l IH]; [done|]. rewrite fmap_cons, NoDup_cons, filter_cons. intros [H1 H2]. destruct (decide (P r)); [|auto].
  rewrite fmap_cons, NoDup_cons. split; [|auto]. intros (x & E & Hx)%elem_of_list_fmap. apply H1. rewrite E.
  apply elem_of_list_fmap_1. by apply elem_of_list_filter in Hx as [_ ?].
Qed.

(** C66: the two queries report secondary edges only, [secondary_children] reports each once, and
    [secondary_parent] finds one when there is one. *)
Theorem C66_queries t : graph_ok (tr_graph t) ->
  (forall n p e, secondary_parent t n = Some (p, e) -> sec_link t p n e) /\
  (forall n, secondary_parent t n = None <-> forall p e, ~ sec_link t p n e) /\
  (forall n c e, (c, e) ∈ secondary_children t n <-> sec_link t n c e) /\
  (forall n, NoDup (map snd (secondary_children t n))).
Proof.
  intros G. split_and!.
  - intros n p e H. unfold secondary_parent, in_edges in H. apply fmap_Some in H as (r & Hr & [= -> ->]).
    apply head_Some_elem_of in Hr. rewrite !elem_of_list_filter in Hr. apply sec_link_rec. exists r. tauto.
  - intros n. unfold secondary_parent, in_edges. rewrite fmap_None. split.
    + intros H p e (r & H1 & H2 & H3 & H4 & H5)%sec_link_rec.
      assert (Hin : r ∈ filter (fun r0 => is_primary (e_w r0) = false) (filter (fun r0 => e_tgt r0 = n) (edges t)))
        by (rewrite !elem_of_list_filter; tauto).
      destruct (filter _ (filter _ _)); [set_solver|done].
    + intros H. destruct (filter _ (filter _ _)) as [|x l] eqn:E; [done|].
      assert (Hx : x ∈ x :: l) by set_solver. rewrite <- E in Hx. rewrite !elem_of_list_filter in Hx.
      destruct (H (e_src x) (e_id x)). apply sec_link_rec. exists x. tauto.
  - intros n c e. apply elem_of_secondary_children.
  - intros n. unfold secondary_children. rewrite map_map. simpl. change (map (fun x => e_id x)) with (fmap (M := list) e_id).
    destruct G as [Hid _ _ _ _ _]. apply NoDup_app in Hid as [Hid _].
    unfold out_edges. by do 2 apply fmap_filter_NoDup.
Qed.
Print Assumptions C66_queries.

(** C66: a new secondary edge is the one reported for its child and the first one for its parent; no
    other answer changes. *)
Theorem C66_add t p c l t' e : graph_ok (tr_graph t) -> add_secondary_edge t p c l = Ret (t', e) ->
  secondary_parent t' c = Some (p, e) /\ secondary_children t' p = (c, e) :: secondary_children t p /\
  (forall n, n <> c -> secondary_parent t' n = secondary_parent t n) /\
  (forall n, n <> p -> secondary_children t' n = secondary_children t n) /\
  (forall p' c', ~ sec_link t p' c' e).
Proof.
  intros G H. unfold add_secondary_edge in H. apply bind_inv in H as ([g e'] & H & [= <- <-]).
  destruct (add_edge_inv _ _ _ _ _ _ G H) as [H1 H2].
  destruct (add_edge_spec _ p c (Secondary l) G H1 H2) as (g' & e2 & H' & _ & _ & He & Hf). rewrite H in H'. injection H' as <- <-.
  unfold secondary_parent, secondary_children, in_edges, out_edges. cbn [set_graph tr_graph]. rewrite He. split_and!.
  - rewrite filter_cons_True by done. by rewrite filter_cons_True by done.
  - rewrite filter_cons_True by done. by rewrite filter_cons_True by done.
  - intros n Hn. by rewrite filter_cons_False by (simpl; congruence).
  - intros n Hn. by rewrite filter_cons_False by (simpl; congruence).
  - intros p' c' [l' Hl]. apply Hf. change e' with (e_id (mk_e e' p' c' (Secondary l'))). by apply (elem_of_list_fmap_1 e_id).
Qed.
Print Assumptions C66_add.

Lemma filter_head_other (P : erec -> Prop) `{!forall r, Decision (P r)} e l x :
  head (filter P l) = Some x -> e_id x <> e -> head (filter P (filter (fun r => e_id r <> e) l)) = Some x.
Proof.
  induction l as [|r l IH]; [done|]. rewrite filter_cons. intros Hh Hx. destruct (decide (P r)) as [Hp|Hp].
  - injection Hh as <-. rewrite (filter_cons_True (fun r => e_id r <> e)) by done. by rewrite filter_cons_True.
  - rewrite (filter_cons (fun r => e_id r <> e)). destruct (decide (e_id r <> e)); [rewrite filter_cons_False by done|]; auto.
Qed.
Lemma filter_swap (P Q : erec -> Prop) `{!forall r, Decision (P r)} `{!forall r, Decision (Q r)} (l : list erec) : filter P (filter Q l) = filter Q (filter P l).
Proof.
  induction l as [|r l IH]; [done|]. rewrite (filter_cons P), (filter_cons Q). destruct (decide (P r)), (decide (Q r)).
  - rewrite (filter_cons_True P), (filter_cons_True Q) by done. by rewrite IH.
  - by rewrite (filter_cons_False Q) by done.
  - by rewrite (filter_cons_False P) by done.
  - done.
Qed.

(** C66: after a removal the answers that named the edge are those without it, the others stay. *)
Theorem C66_remove t p c e t' : graph_ok (tr_graph t) -> sec_link t p c e ->
  remove_secondary_edge t e = Ret t' ->
  (forall n, secondary_children t'.1 n = filter (fun x => x.2 <> e) (secondary_children t n)) /\
  (forall n x, secondary_parent t n = Some x -> x.2 <> e -> secondary_parent t'.1 n = Some x) /\
  (forall n, secondary_parent t n = None -> secondary_parent t'.1 n = None) /\
  (forall p' c', ~ sec_link t'.1 p' c' e).
Proof.
  intros G Hl H. apply sec_link_rec in Hl as (r & Hr & Hp & <- & <- & <-).
  destruct (remove_edge_spec _ r G Hr) as (g' & E & G' & _ & He & Hin). unfold remove_secondary_edge, edge_at in H.
  assert (find_edge (tr_graph t) (e_id r) = Some r) as E2 by (by apply find_edge_Some). rewrite E2 in H. simpl in H.
  rewrite Hp, E in H. simpl in H. injection H as <-. simpl.
  assert (HS : forall p' c', ~ sec_link (set_graph t g') p' c' (e_id r)).
  { intros p' c' (x & Hx & _ & _ & _ & Ex)%sec_link_rec. cbn [set_graph tr_graph] in Hx. apply Hin in Hx as [Hx Hne].
    apply Hne. by apply (eid_inj _ x r G). }
  split_and!; [| | |done].
  - intros n. unfold secondary_children, out_edges. cbn [set_graph tr_graph]. rewrite He.
    rewrite (filter_swap (fun x => e_src x = n)), (filter_swap (fun x => is_primary (e_w x) = false)).
    generalize (filter (fun x => is_primary (e_w x) = false) (filter (fun x => e_src x = n) (edges t))). intros l.
    induction l as [|x l IH]; [done|]. cbn [map]. rewrite !filter_cons. cbn [snd].
    destruct (decide (e_id x <> e_id r)); [|done]. cbn [map]. by rewrite IH.
  - intros n x Hx Hne. unfold secondary_parent, in_edges in *. cbn [set_graph tr_graph]. rewrite He.
    apply fmap_Some in Hx as (y & Hy & ->). rewrite (filter_swap (fun x => e_tgt x = n)).
    by rewrite (filter_head_other _ _ _ y).
  - intros n Hn. apply (C66_queries (set_graph t g') G'). intros p' e' (x & Hx & Px & Sx & Tx & Ex)%sec_link_rec.
    destruct (proj1 (proj2 (C66_queries _ G)) n) as [HN _]. destruct (HN Hn p' e'). apply sec_link_rec. exists x.
    cbn [set_graph tr_graph] in Hx. apply Hin in Hx as [Hx _]. done.
Qed.
Print Assumptions C66_remove.

(** Two secondary edges into one word; the newer one is removed again. *)
Example C66_ex : graph_ok (tr_graph ex_disc) /\
  match (x ← add_secondary_edge ex_disc 1 6 None; y ← add_secondary_edge x.1 3 6 None;
         z ← remove_secondary_edge y.1 y.2;
         Ret (secondary_parent ex_disc 6, secondary_parent y.1 6, secondary_children y.1 1, secondary_parent z.1 6, (x.2, y.2))) with
  | Ret (a, b, c, d, (e1, e2)) => a = None /\ b = Some (3, e2) /\ c = [(6, e1)] /\ d = Some (1, e1)
  | _ => False
  end.
Proof. split; [apply (wf_graph _ ex_disc_WF)|]. by vm_compute. Qed.
