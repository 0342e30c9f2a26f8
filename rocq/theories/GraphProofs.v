(** The graph operations preserve [graph_ok]; their effect on nodes and edges. *)
From Coq Require Import Lia.
From Verif Require Import TreeSpec BaseProofs ShapeProofs.

Lemma NoDup_map_filter {A B} (f : A -> B) (P : A -> Prop) `{!forall x, Decision (P x)} l :
  NoDup (map f l) -> NoDup (map f (filter P l)).
Proof.
  induction l as [|x l IH]; [done|]. simpl. rewrite NoDup_cons. intros [Hx Hl].
  rewrite filter_cons. destruct (decide (P x)); [|by apply IH]. simpl.
  constructor; [|by apply IH]. intros Hin.
  apply elem_of_list_fmap in Hin as (y & Hin & [_ Hy]%elem_of_list_filter).
  apply Hx. rewrite Hin. by apply elem_of_list_fmap_1.
Qed.
Lemma filter_ext_in {A} (P Q : A -> Prop) `{!forall x, Decision (P x)} `{!forall x, Decision (Q x)} (l : list A) :
  (forall x, x ∈ l -> P x <-> Q x) -> filter P l = filter Q l.
Proof.
  induction l as [|x l IH]; [done|]. intros He. rewrite !filter_cons.
  rewrite IH by (intros y Hy; apply He; set_solver).
  pose proof (He x ltac:(set_solver)). destruct (decide (P x)), (decide (Q x)); tauto.
Qed.
Lemma filter_filter_and {A} (P Q : A -> Prop) `{!forall x, Decision (P x)} `{!forall x, Decision (Q x)} (l : list A) :
  filter P (filter Q l) = filter (fun x => P x /\ Q x) l.
Proof.
  induction l as [|x l IH]; [done|]. rewrite !filter_cons.
  destruct (decide (Q x)); rewrite ?filter_cons;
    repeat case_decide; rewrite ?IH; tauto.
Qed.

Lemma contains_node_true g n : contains_node g n = true <-> is_Some (g_nodes g !! n).
Proof. unfold contains_node. by rewrite bool_decide_eq_true. Qed.

(** ** Nodes *)
Lemma add_node_spec g w g' n :
  graph_ok g -> add_node g w = (g', n) ->
  graph_ok g' /\ g_nodes g !! n = None /\ g_nodes g' = <[n := w]> (g_nodes g) /\
  g_edges g' = g_edges g.
Proof.
  intros G. unfold add_node. destruct (g_nfree g) as [|i free] eqn:Hf; intros [= <- <-]; simpl.
  - assert (Hnone : g_nodes g !! g_ncap g = None).
    { destruct (g_nodes g !! g_ncap g) eqn:E; [|done].
      pose proof (go_nbound _ G (g_ncap g) ltac:(rewrite E; eauto)). lia. }
    split_and!; try done. destruct G as [go1 go2 go3 go4 go5 go6]. constructor; simpl; try done.
    + intros m. destruct (decide (m = g_ncap g)) as [->|Hne]; [lia|].
      rewrite lookup_insert_ne by done. intros H. specialize (go3 m H). lia.
    + constructor.
    + intros m Hm. by apply elem_of_nil in Hm.
    + intros r Hr. destruct (go6 r Hr) as [H1 H2].
      split; apply lookup_insert_is_Some'; by right.
  - pose proof (go_nfree_dead _ G i) as Hd. rewrite Hf in Hd.
    destruct (Hd ltac:(set_solver)) as [Hlt Hnone].
    split_and!; try done. pose proof (go_nfree _ G) as Hnd. rewrite Hf in Hnd.
    apply NoDup_cons in Hnd as [Hi Hnd].
    destruct G as [go1 go2 go3 go4 go5 go6]. constructor; simpl; try done.
    + intros m. destruct (decide (m = i)) as [->|Hne]; [lia|].
      rewrite lookup_insert_ne by done. apply go3.
    + intros m Hm. destruct (go5 m ltac:(rewrite Hf; set_solver)) as [H1 H2].
      split; [done|]. rewrite lookup_insert_ne by (intros ->; done). done.
    + intros r Hr. destruct (go6 r Hr) as [H1 H2].
      split; apply lookup_insert_is_Some'; by right.
Qed.

Lemma set_nodes_ok g N :
  graph_ok g -> dom N = dom (g_nodes g) -> graph_ok (set_nodes g N).
Proof.
  intros G Hd. assert (E : forall n, is_Some (N !! n) <-> is_Some (g_nodes g !! n)).
  { intros n. rewrite <- !elem_of_dom. by rewrite Hd. }
  destruct G as [go1 go2 go3 go4 go5 go6]. constructor; simpl; try done.
  - intros n Hn. by apply go3, E.
  - intros n Hn. destruct (go5 n Hn) as [H1 H2]. split; [done|].
    apply eq_None_not_Some. intros H%E. rewrite H2 in H. by inversion H.
  - intros r Hr. rewrite !E. by apply go6.
Qed.
Lemma dom_insert_live (N : gmap nat node) n w : is_Some (N !! n) -> dom (<[n := w]> N) = dom N.
Proof. intros H. rewrite dom_insert_L. apply elem_of_dom in H. set_solver. Qed.
Lemma set_node_ok g n w : graph_ok g -> is_Some (g_nodes g !! n) -> graph_ok (set_node g n w).
Proof. intros G H. apply set_nodes_ok; [done|]. by apply dom_insert_live. Qed.

(** ** Edges *)
Lemma eid_inj g r1 r2 :
  graph_ok g -> r1 ∈ g_edges g -> r2 ∈ g_edges g -> e_id r1 = e_id r2 -> r1 = r2.
Proof.
  intros G. pose proof (go_eids _ G) as H. apply NoDup_app in H as (H & _ & _).
  generalize dependent (g_edges g). induction l as [|r l IH]; [set_solver|].
  simpl. rewrite NoDup_cons. intros [Hr Hl] H1 H2 E.
  apply elem_of_cons in H1 as [->|H1], H2 as [->|H2]; [done| | |by apply IH].
  - exfalso. apply Hr. rewrite E. by apply elem_of_list_fmap_1.
  - exfalso. apply Hr. rewrite <- E. by apply elem_of_list_fmap_1.
Qed.
Lemma edges_nodup g : graph_ok g -> NoDup (g_edges g).
Proof.
  intros G. pose proof (go_eids _ G) as H. apply NoDup_app in H as (H & _ & _).
  by apply NoDup_fmap_1 in H.
Qed.
Lemma find_edge_Some g e r :
  graph_ok g -> find_edge g e = Some r <-> r ∈ g_edges g /\ e_id r = e.
Proof.
  intros G. unfold find_edge. split.
  - intros H. apply head_Some_elem_of, elem_of_list_filter in H. tauto.
  - intros [Hr He].
    assert (Hin : r ∈ filter (fun r => e_id r = e) (g_edges g)) by (by apply elem_of_list_filter).
    destruct (filter (fun r => e_id r = e) (g_edges g)) as [|x l] eqn:E; [set_solver|].
    simpl. f_equal. assert (Hx : x ∈ filter (fun r => e_id r = e) (g_edges g))
      by (rewrite E; set_solver).
    apply elem_of_list_filter in Hx as [Hx1 Hx2]. apply (eid_inj g); [done..|congruence].
Qed.

Lemma add_edge_spec g a b w :
  graph_ok g -> is_Some (g_nodes g !! a) -> is_Some (g_nodes g !! b) ->
  exists g' e, add_edge g a b w = Ret (g', e) /\ graph_ok g' /\ g_nodes g' = g_nodes g /\
    g_edges g' = mk_e e a b w :: g_edges g /\ e ∉ map e_id (g_edges g).
Proof.
  intros G Ha Hb. unfold add_edge.
  rewrite (proj2 (contains_node_true g a) Ha), (proj2 (contains_node_true g b) Hb). simpl.
  destruct (g_efree g) as [|i free] eqn:Hf; eexists _, _; (split; [reflexivity|]); simpl.
  - assert (Hni : g_ecap g ∉ map e_id (g_edges g)).
    { intros H. pose proof (go_ebound _ G (g_ecap g)) as Hb'.
      rewrite elem_of_app in Hb'. specialize (Hb' (or_introl H)). lia. }
    split_and!; try done. pose proof (go_eids _ G) as Hnd.
    pose proof (go_ebound _ G) as Hbd. rewrite Hf, app_nil_r in Hnd, Hbd.
    destruct G as [go1 go2 go3 go4 go5 go6]. constructor; simpl; try done.
    + rewrite app_nil_r. by constructor.
    + intros e. rewrite app_nil_r, elem_of_cons. intros [->|He]; [lia|].
      specialize (Hbd e He). lia.
    + intros r [->|Hr]%elem_of_cons; [done|]. by apply go6.
  - pose proof (go_eids _ G) as Hnd. pose proof (go_ebound _ G) as Hbd.
    rewrite Hf in Hnd, Hbd.
    assert (Hp : map e_id (g_edges g) ++ i :: free ≡ₚ i :: map e_id (g_edges g) ++ free)
      by (symmetry; apply Permutation_middle).
    assert (Hni : i ∉ map e_id (g_edges g)).
    { rewrite Hp in Hnd. apply NoDup_cons in Hnd as [Hi _]. set_solver. }
    split_and!; try done. rewrite Hp in Hnd.
    destruct G as [go1 go2 go3 go4 go5 go6]. constructor; simpl; try done.
    + intros e He. apply Hbd. rewrite Hp. set_solver.
    + intros r [->|Hr]%elem_of_cons; [done|]. by apply go6.
Qed.
Lemma add_edge_inv g a b w g' e :
  graph_ok g -> add_edge g a b w = Ret (g', e) ->
  is_Some (g_nodes g !! a) /\ is_Some (g_nodes g !! b).
Proof.
  intros G. unfold add_edge.
  destruct (contains_node g a) eqn:Ha, (contains_node g b) eqn:Hb; simpl; try done.
  apply contains_node_true in Ha, Hb. done.
Qed.

Lemma remove_edge_spec g r :
  graph_ok g -> r ∈ g_edges g ->
  exists g', remove_edge g (e_id r) = (g', Some (e_w r)) /\ graph_ok g' /\
    g_nodes g' = g_nodes g /\ g_edges g' = filter (fun x => e_id x <> e_id r) (g_edges g) /\
    forall x, x ∈ g_edges g' <-> x ∈ g_edges g /\ x <> r.
Proof.
  intros G Hr. unfold remove_edge.
  assert (find_edge g (e_id r) = Some r) as -> by (by apply find_edge_Some).
  eexists. split; [reflexivity|]. simpl.
  assert (Hmem : forall x, x ∈ filter (fun x => e_id x <> e_id r) (g_edges g) <->
                      x ∈ g_edges g /\ x <> r).
  { intros x. rewrite elem_of_list_filter. split.
    - intros [H1 H2]. split; [done|]. by intros ->.
    - intros [H1 H2]. split; [|done]. intros E. apply H2. by apply (eid_inj g). }
  split_and!; try done. pose proof (go_eids _ G) as Hnd. pose proof (go_ebound _ G) as Hbd.
  assert (Hsub : forall e, e ∈ map e_id (filter (fun x => e_id x <> e_id r) (g_edges g)) ->
                      e ∈ map e_id (g_edges g) /\ e <> e_id r).
  { intros e He. apply elem_of_list_fmap in He as (x & -> & Hx).
    apply elem_of_list_filter in Hx as [Hx1 Hx2]. split; [by apply elem_of_list_fmap_1|done]. }
  assert (Hid : e_id r ∈ map e_id (g_edges g)) by (by apply elem_of_list_fmap_1).
  destruct G as [go1 go2 go3 go4 go5 go6]. constructor; simpl; try done.
  - apply NoDup_app in Hnd as (H1 & H2 & H3). apply NoDup_app. split_and!.
    + by apply NoDup_map_filter.
    + intros e He%Hsub. rewrite elem_of_cons. intros [->|Hf]; [by destruct He|].
      by apply (H2 e); [apply He|].
    + constructor; [|done]. by apply H2.
  - intros e. rewrite elem_of_app, elem_of_cons. intros [He%Hsub|[->|He]]; apply Hbd;
      rewrite elem_of_app; [left; by apply He|by left|by right].
  - intros x Hx. apply go6. apply Hmem in Hx. tauto.
Qed.
Lemma remove_edge_absent g e : graph_ok g -> e ∉ map e_id (g_edges g) -> remove_edge g e = (g, None).
Proof.
  intros G He. unfold remove_edge. destruct (find_edge g e) as [r|] eqn:E; [|done].
  apply find_edge_Some in E as [H1 <-]; [|done]. exfalso. apply He. by apply elem_of_list_fmap_1.
Qed.

Lemma remove_edges_spec g rs :
  graph_ok g -> (forall r, r ∈ rs -> r ∈ g_edges g) -> NoDup rs ->
  graph_ok (remove_edges g (map e_id rs)) /\
  g_nodes (remove_edges g (map e_id rs)) = g_nodes g /\
  g_edges (remove_edges g (map e_id rs)) = filter (fun x => x ∉ rs) (g_edges g).
Proof.
  revert g. induction rs as [|r rs IH]; intros g G Hin Hnd; unfold remove_edges; simpl.
  - split_and!; [done..|]. symmetry. apply filter_all. intros x _. apply not_elem_of_nil.
  - destruct (remove_edge_spec g r G ltac:(set_solver)) as (g' & -> & G' & HN & HE & Hm). simpl.
    apply NoDup_cons in Hnd as [Hr Hnd].
    destruct (IH g' G' ltac:(intros x Hx; apply Hm; set_solver) Hnd) as (I1 & I2 & I3).
    unfold remove_edges in *. split_and!; [done|congruence|].
    rewrite I3, HE, filter_filter_and. apply filter_ext_in.
    intros x Hx. rewrite not_elem_of_cons. split.
    + intros [H1 H2]. split; [|done]. by intros ->.
    + intros [H1 H2]. split; [done|]. intros E. apply H1. by apply (eid_inj g); [..|set_solver|].
Qed.

Lemma remove_node_g_spec g n w :
  graph_ok g -> g_nodes g !! n = Some w ->
  exists g', remove_node_g g n = (g', Some w) /\ graph_ok g' /\
    g_nodes g' = delete n (g_nodes g) /\
    g_edges g' = filter (fun r => e_src r <> n /\ e_tgt r <> n) (g_edges g).
Proof.
  intros G Hn. unfold remove_node_g. rewrite Hn. eexists. split; [reflexivity|]. simpl.
  destruct (remove_edges_spec g (out_edges g n) G) as (G1 & N1 & E1).
  { intros r Hr%elem_of_list_filter. tauto. }
  { apply NoDup_filter, edges_nodup, G. }
  set (g1 := remove_edges g _) in *. clearbody g1.
  destruct (remove_edges_spec g1 (in_edges g1 n) G1) as (G2 & N2 & E2).
  { intros r Hr%elem_of_list_filter. tauto. }
  { apply NoDup_filter, edges_nodup, G1. }
  set (g2 := remove_edges g1 _) in *. clearbody g2.
  assert (HE : g_edges g2 = filter (fun r => e_src r <> n /\ e_tgt r <> n) (g_edges g)).
  { rewrite E2. unfold in_edges. rewrite E1. unfold out_edges.
    rewrite !filter_filter_and. apply filter_ext_in. intros x Hx.
    rewrite !elem_of_list_filter. tauto. }
  assert (HN : g_nodes g2 = g_nodes g) by congruence.
  split_and!; [|by rewrite HN|done].
  destruct G2 as [go1 go2 go3 go4 go5 go6]. constructor; simpl; try done.
  - intros m Hm. apply go3. rewrite lookup_delete_is_Some in Hm. tauto.
  - constructor; [|done]. intros Hin. apply go5 in Hin as [_ Hin]. rewrite HN in Hin. congruence.
  - intros m [->|Hm]%elem_of_cons.
    + split; [|apply lookup_delete]. apply go3. rewrite HN, Hn. eauto.
    + destruct (go5 m Hm) as [H1 H2]. split; [done|]. rewrite lookup_delete_None. by right.
  - intros r Hr. destruct (go6 r Hr) as [H1 H2].
    rewrite HE in Hr. apply elem_of_list_filter in Hr as [[Ha Hb] _].
    rewrite !lookup_delete_ne by done. done.
Qed.

Lemma set_edge_weight_ok g e w : graph_ok g -> graph_ok (set_edge_weight g e w).
Proof.
  intros G.
  assert (Hid : map e_id (g_edges (set_edge_weight g e w)) = map e_id (g_edges g)).
  { simpl. rewrite map_map. apply map_ext. intros r. by destruct (Nat.eqb (e_id r) e). }
  destruct G as [go1 go2 go3 go4 go5 go6]. constructor; try done.
  - by rewrite Hid.
  - by rewrite Hid.
  - simpl. intros r Hr. apply elem_of_list_fmap in Hr as (x & -> & Hx).
    apply go6 in Hx. by destruct (Nat.eqb (e_id x) e).
Qed.

(** ** Navigation *)
Lemma parent_Some t n p e :
  shape_ok (nodes t) (edges t) (tr_root t) ->
  parent t n = Some (p, e) <->
  exists r, r ∈ edges t /\ is_primary (e_w r) = true /\ e_src r = p /\ e_tgt r = n /\ e_id r = e.
Proof.
  intros S. unfold parent, in_edges. split.
  - intros H. apply fmap_Some in H as (r & Hr & [= -> ->]). exists r.
    apply head_Some_elem_of in Hr. rewrite !elem_of_list_filter in Hr. tauto.
  - intros (r & Hr & Hp & <- & <- & <-).
    assert (Hin : r ∈ filter (fun r0 => is_primary (e_w r0) = true)
                      (filter (fun r0 => e_tgt r0 = e_tgt r) (edges t)))
      by (rewrite !elem_of_list_filter; tauto).
    destruct (filter _ (filter _ _)) as [|x l] eqn:E; [set_solver|]. simpl.
    assert (Hx : x ∈ x :: l) by set_solver. rewrite <- E in Hx.
    rewrite !elem_of_list_filter in Hx. destruct Hx as (Hx1 & Hx2 & Hx3).
    by rewrite (sh_uniq _ _ _ S x r).
Qed.
Lemma parent_PE t n p :
  shape_ok (nodes t) (edges t) (tr_root t) ->
  PE (edges t) p n <-> exists e, parent t n = Some (p, e).
Proof.
  intros S. split.
  - intros (r & Hr & Hp & <- & <-). exists (e_id r). apply parent_Some; [done|]. by exists r.
  - intros (e & He). apply parent_Some in He as (r & ? & ? & ? & ? & ?); [|done]. by exists r.
Qed.
Lemma parent_None t n :
  shape_ok (nodes t) (edges t) (tr_root t) -> parent t n = None <-> forall p, ~ PE (edges t) p n.
Proof.
  intros S. split.
  - intros H p (e & He)%parent_PE; [|done]. congruence.
  - intros H. destruct (parent t n) as [[p e]|] eqn:E; [|done].
    exfalso. apply (H p), parent_PE; eauto.
Qed.
Lemma parent_None_root t n :
  shape_ok (nodes t) (edges t) (tr_root t) -> is_Some (nodes t !! n) ->
  parent t n = None <-> n = tr_root t.
Proof.
  intros S Hn. rewrite parent_None by done. split.
  - intros H. destruct (decide (n = tr_root t)) as [->|Hne]; [done|].
    destruct (live_parent S n Hn Hne) as [p Hp]. by apply H in Hp.
  - intros ->. apply (sh_root_top _ _ _ S).
Qed.
Lemma elem_of_children t n c e :
  (c, e) ∈ children t n <->
  exists r, r ∈ edges t /\ is_primary (e_w r) = true /\ e_src r = n /\ e_tgt r = c /\ e_id r = e.
Proof.
  unfold children, out_edges. rewrite elem_of_list_fmap. split.
  - intros (r & [= -> ->] & Hr). rewrite !elem_of_list_filter in Hr. exists r. tauto.
  - intros (r & H1 & H2 & H3 & <- & <-). exists r. split; [done|].
    rewrite !elem_of_list_filter. tauto.
Qed.
Lemma children_PE t n c : PE (edges t) n c <-> exists e, (c, e) ∈ children t n.
Proof.
  split.
  - intros (r & H1 & H2 & H3 & H4). exists (e_id r). apply elem_of_children. by exists r.
  - intros (e & He). apply elem_of_children in He as (r & ? & ? & ? & ? & ?). by exists r.
Qed.
Lemma children_fst t n c : c ∈ map fst (children t n) <-> PE (edges t) n c.
Proof.
  rewrite children_PE, elem_of_list_fmap. split.
  - intros ([c' e] & -> & H). by exists e.
  - intros (e & He). by exists (c, e).
Qed.
Lemma children_nodup t n :
  graph_ok (tr_graph t) -> shape_ok (nodes t) (edges t) (tr_root t) ->
  NoDup (map fst (children t n)).
Proof.
  intros G S. unfold children. rewrite map_map. simpl.
  assert (Hnd : NoDup (filter (fun r => is_primary (e_w r) = true) (out_edges (tr_graph t) n)))
    by (apply NoDup_filter, NoDup_filter, edges_nodup, G).
  assert (Hin : forall r, r ∈ filter (fun r => is_primary (e_w r) = true)
                                (out_edges (tr_graph t) n) ->
                     r ∈ edges t /\ is_primary (e_w r) = true).
  { intros r. unfold out_edges. rewrite !elem_of_list_filter. tauto. }
  revert Hnd Hin. generalize (filter (fun r => is_primary (e_w r) = true)
                                     (out_edges (tr_graph t) n)).
  induction l as [|r l IH]; intros Hnd Hin; simpl; [constructor|].
  apply NoDup_cons in Hnd as [Hr Hnd]. constructor; [|apply IH; [done|set_solver]].
  intros Hin'. apply elem_of_list_fmap in Hin' as (x & Hx & Hxl). apply Hr.
  destruct (Hin r ltac:(set_solver)), (Hin x ltac:(set_solver)).
  by rewrite (sh_uniq _ _ _ S r x).
Qed.
Lemma neighbors_children t n : neighbors (tr_graph t) n = map fst (children t n).
Proof. unfold neighbors, children. rewrite map_map. by apply map_ext. Qed.
Lemma elem_of_node_indices g n : graph_ok g -> n ∈ node_indices g <-> is_Some (g_nodes g !! n).
Proof.
  intros G. unfold node_indices. rewrite elem_of_list_filter, elem_of_seq. split; [tauto|].
  intros Hn. pose proof (go_nbound _ G n Hn). split; [done|lia].
Qed.
Lemma elem_of_terminals t n :
  graph_ok (tr_graph t) -> n ∈ terminals t <-> exists tm, nodes t !! n = Some (T tm).
Proof.
  intros G. unfold terminals, node_is_term. rewrite elem_of_list_filter, elem_of_node_indices by done.
  split.
  - intros [H1 [w Hw]]. rewrite Hw in H1. destruct w as [|tm]; [done|]. by exists tm.
  - intros [tm Htm]. rewrite Htm. eauto.
Qed.
Lemma elem_of_nonterminals t n :
  graph_ok (tr_graph t) -> n ∈ nonterminals t <-> exists nt, nodes t !! n = Some (NT nt).
Proof.
  intros G. unfold nonterminals, node_is_term.
  rewrite elem_of_list_filter, elem_of_node_indices by done. split.
  - intros [H1 [w Hw]]. rewrite Hw in H1. destruct w as [nt|]; [|done]. by exists nt.
  - intros [tm Htm]. rewrite Htm. eauto.
Qed.
Lemma node_indices_nodup g : NoDup (node_indices g).
Proof. apply NoDup_filter, NoDup_seq. Qed.
Lemma terminals_nodup t : NoDup (terminals t).
Proof. apply NoDup_filter, node_indices_nodup. Qed.
Lemma nonterminals_nodup t : NoDup (nonterminals t).
Proof. apply NoDup_filter, node_indices_nodup. Qed.
