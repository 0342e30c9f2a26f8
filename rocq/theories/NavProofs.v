(** Navigation, secondary edges, descendent terminals. *)
From Coq Require Import Lia.
From Verif Require Import TreeSpec BaseProofs ShapeProofs GraphProofs DfsProofs ResetProofs ShapeOps TreeOps SortProofs UnaryProofs RemoveProofs ReattachProofs.

(** ** [Dfs] enumerates the dominated nodes *)
Lemma push_new_spec succs stack disc :
  NoDup succs -> (forall s, s ∈ succs -> s ∉ disc) ->
  exists disc', push_new succs stack disc = (rev succs ++ stack, disc') /\
    forall x, x ∈ disc' <-> x ∈ succs \/ x ∈ disc.
Proof.
  revert stack disc. induction succs as [|s ss IH]; intros stack disc Hnd Hd.
  - exists disc. simpl. split; [done|]. set_solver.
  - apply NoDup_cons in Hnd as [Hs Hnd]. simpl. rewrite bool_decide_false by (apply Hd; set_solver).
    destruct (IH (s :: stack) ({[s]} ∪ disc)) as (disc' & E & Hin); [done| |].
    + intros x Hx. rewrite elem_of_union, elem_of_singleton. intros [->|H]; [done|].
      apply (Hd x); [set_solver|done].
    + exists disc'. rewrite E. rewrite <- app_assoc. split; [done|]. intros x. rewrite Hin. set_solver.
Qed.

Section dfs.
  Context {t : tree}.
  Hypothesis (G : graph_ok (tr_graph t)) (Sh : shape_ok (nodes t) (edges t) (tr_root t)).
  Lemma dfs_all_spec fuel n0 popped stack disc :
    is_Some (nodes t !! n0) ->
    (forall x, x ∈ disc <-> x ∈ popped \/ x ∈ stack) -> NoDup (popped ++ stack) ->
    (forall x, x ∈ popped \/ x ∈ stack -> Dom (edges t) n0 x) ->
    (n0 ∈ popped \/ n0 ∈ stack) ->
    (forall x c, x ∈ popped -> PE (edges t) x c -> c ∈ popped \/ c ∈ stack) ->
    (forall x p, x ∈ popped \/ x ∈ stack -> x <> n0 -> PE (edges t) p x -> p ∈ popped) ->
    size (nodes t) < fuel + length popped ->
    exists l, dfs_all fuel (tr_graph t) stack disc = Ret l /\ NoDup (popped ++ l) /\
      forall x, x ∈ popped ++ l <-> Dom (edges t) n0 x.
  Proof.
    intros Hn0. revert popped stack disc. induction fuel as [|fuel IH];
      intros popped stack disc Hdisc Hnd Hdom H0 Hkids Hpar Hf.
    - exfalso. assert (Hsub : list_to_set popped ⊆ dom (nodes t)).
      { intros x Hx. apply elem_of_list_to_set in Hx. apply elem_of_dom.
        apply (Dom_live_r Sh n0 x); [done|]. apply Hdom. by left. }
      apply subseteq_size in Hsub. rewrite size_list_to_set in Hsub by (by apply NoDup_app in Hnd as [? _]). rewrite size_dom in Hsub.
      simpl in Hf. lia.
    - destruct stack as [|n rest].
      + exists []. rewrite app_nil_r in *. split_and!; [done|done|]. intros x. split.
        * intros Hx. apply Hdom. by left.
        * revert x. refine (rtc_ind_r _ _ _ _); [destruct H0; [done|set_solver]|].
          intros x y _ Hxy IHx. destruct (Hkids x y IHx Hxy); [done|set_solver].
      + cbn [dfs_all]. rewrite neighbors_children.
        assert (Hnn : n ∉ popped).
        { intros H. apply NoDup_app in Hnd as (_ & Hd & _). apply (Hd n H). apply elem_of_list_here. }
        destruct (push_new_spec (map fst (children t n)) rest disc) as (disc' & -> & Hdisc').
        { by apply children_nodup. }
        { intros s Hs%children_fst Hin%Hdisc. apply Hnn. apply (Hpar s n); [done| |done].
          intros ->. assert (Dom (edges t) n0 n) by (apply Hdom; right; apply elem_of_list_here).
          by apply (Dom_PE_acyclic Sh n0 n). }
        destruct (IH (popped ++ [n]) (rev (map fst (children t n)) ++ rest) disc') as (l & -> & Hl1 & Hl2).
        * intros x. rewrite Hdisc', !elem_of_app, elem_of_list_rev, Hdisc, !elem_of_cons, elem_of_nil. tauto.
        * rewrite <- app_assoc. simpl. apply NoDup_app in Hnd as (Hp & Hd & Hnr).
          apply NoDup_cons in Hnr as [Hn Hr].
          assert (Hfresh : forall c, PE (edges t) n c -> c ∉ popped /\ c ∉ n :: rest).
          { intros c Hc. assert (~ (c ∈ popped \/ c ∈ n :: rest)); [|tauto]. intros Hin. apply Hnn.
            apply (Hpar c n); [done| |done]. intros ->.
            assert (Dom (edges t) n0 n) by (apply Hdom; right; apply elem_of_list_here). by apply (Dom_PE_acyclic Sh n0 n). }
          apply NoDup_app. split_and!; [done| |].
          -- intros x Hx. rewrite elem_of_cons, elem_of_app, elem_of_list_rev, children_fst.
             intros [->|[Hc|Hx']]; [done|by destruct (Hfresh x Hc)|]. apply (Hd x Hx). by apply elem_of_list_further.
          -- constructor.
             ++ rewrite elem_of_app, elem_of_list_rev, children_fst. intros [Hc|Hx]; [|done].
                by apply (PE_irrefl Sh) in Hc.
             ++ apply NoDup_app. split_and!; [|intros x Hx|done].
                ** apply NoDup_ListNoDup, NoDup_rev, NoDup_ListNoDup, children_nodup; done.
                ** rewrite elem_of_list_rev, children_fst in Hx. destruct (Hfresh x Hx) as [_ Hq]. rewrite elem_of_cons in Hq. tauto.
        * intros x. rewrite !elem_of_app, elem_of_list_rev, children_fst, elem_of_list_singleton.
          assert (Hnd0 : Dom (edges t) n0 n) by (apply Hdom; right; apply elem_of_list_here).
          intros [[H| ->]|[H|H]]; [apply Hdom; by left|done|by eapply rtc_r|apply Hdom; right; by apply elem_of_list_further].
        * rewrite !elem_of_app, elem_of_list_singleton. rewrite elem_of_cons in H0. tauto.
        * intros x c. rewrite !elem_of_app, elem_of_list_rev, children_fst, elem_of_list_singleton.
          intros [H| ->] Hc; [|tauto]. destruct (Hkids x c H Hc) as [?|H']; [tauto|].
          rewrite elem_of_list_singleton. apply elem_of_cons in H' as [?|?]; tauto.
        * intros x p. rewrite !elem_of_app, elem_of_list_rev, children_fst, elem_of_list_singleton.
          intros H Hne Hp. destruct H as [[H| ->]|[H|H]].
          -- left. apply (Hpar x); [by left|done|done].
          -- left. apply (Hpar n); [right; apply elem_of_list_here|done|done].
          -- right. apply elem_of_list_singleton. by apply (PE_parent_unique Sh p n x).
          -- left. apply (Hpar x); [right; by apply elem_of_list_further|done|done].
        * rewrite app_length. simpl. lia.
        * exists (n :: l). split; [done|]. rewrite <- app_assoc in Hl1, Hl2. done.
  Qed.
End dfs.

Lemma descendent_terminals_spec t n :
  WF t -> is_Some (nodes t !! n) ->
  exists l, descendent_terminals t n = Ret l /\ NoDup l /\
    (forall m, m ∈ l <-> Dom (edges t) n m /\ exists tm, nodes t !! m = Some (T tm)).
Proof.
  intros [G Sh Tm Nt Nd] [w Hw]. unfold descendent_terminals. rewrite (node_at_Some _ _ _ Hw).
  cbn [mbind outcome_bind].
  destruct (dfs_all_spec G Sh (S (node_count (tr_graph t) + length (edges t))) n [] [n] {[n]})
    as (l & -> & Hnd & Hl).
  - eauto.
  - set_solver.
  - apply NoDup_singleton.
  - intros x [?|H%elem_of_list_singleton]; [set_solver|by subst].
  - set_solver.
  - set_solver.
  - intros x p [?|H%elem_of_list_singleton]; [set_solver|by subst].
  - unfold node_count. simpl. lia.
  - cbn [mbind outcome_bind]. eexists. split; [reflexivity|]. simpl in Hnd, Hl.
    split; [by apply NoDup_filter|]. intros m. rewrite elem_of_list_filter, Hl. unfold node_is_term.
    destruct (nodes t !! m) as [[|tm]|]; naive_solver.
Qed.

(** ** Trees that agree up to secondary edges *)
Definition prim_edges (t : tree) : list erec := filter (fun r => is_primary (e_w r) = true) (edges t).
Record psame (t t' : tree) : Prop := {
  ps_nodes : nodes t' = nodes t;
  ps_prim : prim_edges t' = prim_edges t;
  ps_root : tr_root t' = tr_root t;
  ps_nterm : tr_nterm t' = tr_nterm t;
  ps_ndisc : tr_ndisc t' = tr_ndisc t
}.
Lemma filter_comm {A} (P Q : A -> Prop) `{!forall x, Decision (P x)} `{!forall x, Decision (Q x)} (l : list A) :
  filter P (filter Q l) = filter Q (filter P l).
Proof. rewrite !filter_filter_and. apply filter_ext_in. tauto. Qed.
Lemma psame_parent t t' n : psame t t' -> parent t' n = parent t n.
Proof.
  intros [_ H _ _ _]. unfold parent, in_edges. rewrite (filter_comm _ _ (edges t')), (filter_comm _ _ (edges t)).
  unfold prim_edges in H. by rewrite H.
Qed.
Lemma psame_children t t' n : psame t t' -> children t' n = children t n.
Proof.
  intros [_ H _ _ _]. unfold children, out_edges. rewrite (filter_comm _ _ (edges t')), (filter_comm _ _ (edges t)).
  unfold prim_edges in H. by rewrite H.
Qed.
Lemma psame_siblings t t' n : psame t t' -> siblings t' n = siblings t n.
Proof.
  intros H. unfold siblings. rewrite (psame_parent _ _ _ H). destruct (parent t n) as [[p e]|]; [|done].
  by rewrite (psame_children _ _ _ H).
Qed.
Lemma psame_PE t t' a b : psame t t' -> PE (edges t') a b <-> PE (edges t) a b.
Proof. intros H. rewrite !children_PE. by rewrite (psame_children _ _ _ H). Qed.
Lemma psame_in t t' r : psame t t' -> is_primary (e_w r) = true -> r ∈ edges t' <-> r ∈ edges t.
Proof.
  intros [_ H _ _ _] Hp. assert (r ∈ prim_edges t' <-> r ∈ prim_edges t) as E by (by rewrite H).
  unfold prim_edges in E. rewrite !elem_of_list_filter in E. tauto.
Qed.
Lemma Dom_ext es es' : (forall a b, PE es' a b <-> PE es a b) -> forall a b, Dom es' a b <-> Dom es a b.
Proof. intros H a b. split; apply rtc_subrel; intros x y; apply H. Qed.
Lemma shape_ok_ext N es es' root :
  (forall r, is_primary (e_w r) = true -> r ∈ es' <-> r ∈ es) -> shape_ok N es root -> shape_ok N es' root.
Proof.
  intros H [S1 S2 S3 S4 S5 S6 S7].
  assert (HPE : forall a b, PE es' a b <-> PE es a b).
  { intros a b. unfold PE. split; intros (r & Hr & Hp & H1); exists r; (split; [by apply H|done]). }
  constructor; try done.
  - intros p Hp%HPE. by apply (S2 p).
  - intros r1 r2 H1 H2 P1 P2. apply H in H1, H2; try done. by apply S3.
  - intros p c Hp%HPE. by apply S4.
  - intros n Hn. apply (Dom_ext _ _ HPE). by apply S5.
  - intros n tm c Hn Hp%HPE. by apply (S6 n tm c).
  - intros n nt Hn. destruct (S7 n nt Hn) as [c Hc]. exists c. by apply HPE.
Qed.
Lemma psame_WF t t' : psame t t' -> graph_ok (tr_graph t') -> WF t -> WF t'.
Proof.
  intros Hs G' [G Sh Tm Nt Nd].
  assert (HD : forall a b, Dom (edges t') a b <-> Dom (edges t) a b).
  { apply Dom_ext. intros a b. by apply psame_PE. }
  pose proof Hs as [H1 H2 H3 H4 H5]. constructor; rewrite ?H1, ?H3, ?H4, ?H5; try done.
  - eapply shape_ok_ext; [|exact Sh]. intros r Hp. by apply psame_in.
  - intros n nt Hn. destruct (Nt n nt Hn) as [Ho Hc]. split; [done|]. intros i. rewrite Hc.
    unfold yields. split; intros (m & Hm & Hp); exists m; (split; [by apply HD|done]).
Qed.

(** Equality does not see secondary edges. *)
Lemma psame_node_cmp t t' a b : psame t t' -> node_cmp t' a b = node_cmp t a b.
Proof.
  intros H. unfold node_cmp. rewrite (ps_nodes _ _ H), !(psame_children _ _ _ H). done.
Qed.
Lemma insert_by_ext {A} (f g : A -> A -> comparison) x l :
  (forall a b, f a b = g a b) -> insert_by f x l = insert_by g x l.
Proof. intros H. induction l as [|y l IH]; simpl; [done|]. by rewrite H, IH. Qed.
Lemma sort_by_ext {A} (f g : A -> A -> comparison) l :
  (forall a b, f a b = g a b) -> sort_by f l = sort_by g l.
Proof. intros H. induction l as [|y l IH]; simpl; [done|]. rewrite IH. by apply insert_by_ext. Qed.
Lemma psame_sort t t' l : psame t t' -> sort_indices t' l = sort_indices t l.
Proof. intros H. apply sort_by_ext. intros a b. by apply psame_node_cmp. Qed.
Lemma psame_edge_at t t' n p e :
  graph_ok (tr_graph t) -> graph_ok (tr_graph t') -> psame t t' -> parent t n = Some (p, e) ->
  edge_at t' e = edge_at t e.
Proof.
  intros G G' H Hp. unfold parent in Hp. apply fmap_Some in Hp as (r & Hr & [= -> ->]).
  apply head_Some_elem_of in Hr. unfold in_edges in Hr. rewrite !elem_of_list_filter in Hr.
  destruct Hr as (Hp & _ & Hin). unfold edge_at.
  rewrite (proj2 (find_edge_Some (tr_graph t) (e_id r) r G)) by done.
  by rewrite (proj2 (find_edge_Some (tr_graph t') (e_id r) r G')) by (split; [by apply (psame_in _ _ _ H)|done]).
Qed.
Lemma psame_edge_info t t' n :
  graph_ok (tr_graph t) -> graph_ok (tr_graph t') -> psame t t' -> edge_info t' n = edge_info t n.
Proof.
  intros G G' H. unfold edge_info. rewrite (psame_parent _ _ _ H).
  destruct (parent t n) as [[p e]|] eqn:E; [|done].
  unfold node_at. rewrite (ps_nodes _ _ H). by rewrite (psame_edge_at _ _ _ _ _ G G' H E).
Qed.
Lemma psame_subtree_eq t1 t1' t2 t2' fuel n1 n2 :
  graph_ok (tr_graph t1) -> graph_ok (tr_graph t1') -> graph_ok (tr_graph t2) -> graph_ok (tr_graph t2') ->
  psame t1 t1' -> psame t2 t2' -> subtree_eq fuel t1' n1 t2' n2 = subtree_eq fuel t1 n1 t2 n2.
Proof.
  intros G1 G1' G2 G2' H1 H2. revert n1 n2. induction fuel as [|fuel IH]; intros n1 n2; [done|].
  cbn [subtree_eq]. rewrite (psame_children _ _ _ H1), (psame_children _ _ _ H2),
    (psame_sort _ _ _ H1), (psame_sort _ _ _ H2).
  generalize (sort_indices t1 (map fst (children t1 n1))).
  generalize (sort_indices t2 (map fst (children t2 n2))).
  unfold node_at. rewrite (ps_nodes _ _ H1), (ps_nodes _ _ H2).
  intros l2 l1. revert l2. induction l1 as [|a l1 IHl]; intros [|b l2]; try done.
  destruct (nodes t1 !! a) as [wa|]; [|done]. destruct (nodes t2 !! b) as [wb|]; [|done].
  cbn [unwrap mbind outcome_bind]. destruct (negb (node_eqb wa wb)); [done|].
  rewrite (psame_edge_info _ _ _ G1 G1' H1), (psame_edge_info _ _ _ G2 G2' H2).
  destruct (edge_info t1 a) as [i1| |]; [|done|done].
  destruct (edge_info t2 b) as [i2| |]; [|done|done]. cbn [mbind outcome_bind].
  destruct (negb (edge_info_eqb i1 i2)); [done|]. rewrite IH.
  destruct (subtree_eq fuel t1 a t2 b) as [[]| |]; try done. cbn [mbind outcome_bind].
  apply IHl.
Qed.
Lemma psame_tree_eqb t1 t1' t2 t2' :
  graph_ok (tr_graph t1) -> graph_ok (tr_graph t1') -> graph_ok (tr_graph t2) -> graph_ok (tr_graph t2') ->
  psame t1 t1' -> psame t2 t2' -> tree_eqb t1' t2' = tree_eqb t1 t2.
Proof.
  intros G1 G1' G2 G2' H1 H2. unfold tree_eqb, node_count.
  rewrite (ps_nterm _ _ H1), (ps_nterm _ _ H2), (ps_nodes _ _ H1), (ps_nodes _ _ H2),
    (ps_root _ _ H1), (ps_root _ _ H2).
  by rewrite (psame_subtree_eq t1 t1' t2 t2').
Qed.
Lemma psame_refl t : psame t t.
Proof. done. Qed.

Lemma add_secondary_edge_ok t p c l :
  WF t -> is_Some (nodes t !! p) -> is_Some (nodes t !! c) ->
  exists t' e, add_secondary_edge t p c l = Ret (t', e) /\ WF t' /\ psame t t' /\
    edges t' = mk_e e p c (Secondary l) :: edges t.
Proof.
  intros W Hp Hc. pose proof W as [G Sh Tm Nt Nd]. unfold add_secondary_edge.
  destruct (add_edge_spec (tr_graph t) p c (Secondary l) G Hp Hc) as (g & e & -> & G' & N' & Ed' & _).
  cbn [mbind outcome_bind]. eexists _, e. split; [reflexivity|].
  assert (Hs : psame t (set_graph t g)).
  { constructor; simpl; try done. unfold prim_edges. simpl. by rewrite Ed', filter_cons. }
  split_and!; [by eapply psame_WF|done|done].
Qed.
Lemma remove_secondary_edge_ok t r :
  WF t -> r ∈ edges t -> is_primary (e_w r) = false ->
  exists t', remove_secondary_edge t (e_id r) = Ret (t', Some (e_w r)) /\ WF t' /\ psame t t' /\
    forall x, x ∈ edges t' <-> x ∈ edges t /\ x <> r.
Proof.
  intros W Hr Pr. pose proof W as [G Sh Tm Nt Nd]. unfold remove_secondary_edge, edge_at.
  rewrite (proj2 (find_edge_Some _ _ r G) (conj Hr eq_refl)). simpl. rewrite Pr. simpl.
  destruct (remove_edge_spec (tr_graph t) r G Hr) as (g & -> & G' & N' & Ed' & El').
  eexists. split; [reflexivity|].
  assert (Hs : psame t (set_graph t g)).
  { constructor; simpl; try done. unfold prim_edges. simpl. rewrite Ed', filter_filter_and.
    apply filter_ext_in. intros x Hx. split; [tauto|]. intros H. split; [done|]. intros E.
    rewrite (eid_inj _ _ _ G Hx Hr E) in H. congruence. }
  split_and!; [by eapply psame_WF|done|done].
Qed.
Lemma remove_secondary_edge_primary t r :
  WF t -> r ∈ edges t -> is_primary (e_w r) = true -> remove_secondary_edge t (e_id r) = Ret (t, None).
Proof.
  intros W Hr Pr. pose proof W as [G Sh Tm Nt Nd]. unfold remove_secondary_edge, edge_at.
  rewrite (proj2 (find_edge_Some _ _ r G) (conj Hr eq_refl)). simpl. by rewrite Pr.
Qed.
Lemma remove_secondary_edge_absent t e :
  WF t -> (forall r, r ∈ edges t -> e_id r <> e) -> remove_secondary_edge t e = Panic.
Proof.
  intros W He. pose proof W as [G Sh Tm Nt Nd]. unfold remove_secondary_edge, edge_at.
  destruct (find_edge (tr_graph t) e) as [r|] eqn:E; [|done].
  apply find_edge_Some in E as [H1 H2]; [|done]. by apply He in H1.
Qed.
Lemma reattach_secondary_ok t np r :
  WF t -> r ∈ edges t -> is_primary (e_w r) = false -> is_Some (nodes t !! np) -> e_tgt r <> np ->
  exists t' e, reattach_node t np (e_id r) = Ret (t', Ok (e, e_w r)) /\ WF t' /\ psame t t' /\
    forall x, x ∈ edges t' <-> x = mk_e e np (e_tgt r) (Secondary None) \/ (x ∈ edges t /\ x <> r).
Proof.
  intros W Hr Pr Hnp Hne. pose proof W as [G Sh Tm Nt Nd]. unfold reattach_node.
  rewrite (proj2 (contains_node_true _ _) Hnp). simpl.
  rewrite (proj2 (find_edge_Some _ _ r G) (conj Hr eq_refl)). simpl.
  destruct (Nat.eqb_spec (e_tgt r) np); [done|]. destruct (e_w r) as [|l] eqn:Ew; [done|].
  unfold reattach_secondary. rewrite (proj2 (find_edge_Some _ _ r G) (conj Hr eq_refl)). simpl.
  destruct (remove_edge_spec (tr_graph t) r G Hr) as (g & -> & G' & N' & Ed' & El'). simpl.
  destruct (add_edge_spec g np (e_tgt r) (Secondary None) G') as (g2 & e & -> & G2 & N2 & Ed2 & _).
  { by rewrite N'. } { rewrite N'. by apply (go_ends _ G r). }
  simpl. eexists _, e. split; [by rewrite Ew|].
  assert (Hs : psame t (set_graph t g2)).
  { constructor; simpl; try done; [by rewrite N2|]. unfold prim_edges. simpl.
    rewrite Ed2, filter_cons, decide_False by done. rewrite Ed', filter_filter_and.
    apply filter_ext_in. intros x Hx. split; [tauto|]. intros H. split; [done|]. intros E.
    rewrite (eid_inj _ _ _ G Hx Hr E) in H. rewrite Ew in H. done. }
  split_and!; [by eapply psame_WF|done|]. intros x. simpl. rewrite Ed2, elem_of_cons, El'. done.
Qed.
