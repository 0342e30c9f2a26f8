(** Properties of the clean-up after decoding: C50. *)
From Coq Require Import Lia.
From Verif Require Import EncModel PtbModel TreeSpec BaseProofs ShapeProofs SpanProofs GraphProofs SortProofs ResetProofs RoseSpec RoseProofs
  EqProofs TreeOps UnaryProofs RemoveProofs FilterProofs AnnotProofs Api PropsTree PtbPrint PtbBuild EncSpec EncTree EncTree2 DecPure ItProofs DecGraph PropsDec.

(** ** C50: [remove_dummy_nodes] *)
(** Every word stays, and every inner node with another label. *)
Definition proper (w : node) : Prop :=
  match w with T _ => True | NT nt => nt_label nt <> lit "DUMMY" end.
(** One proper node is above all proper nodes. *)
Definition single_top (t : tree) : Prop :=
  exists c, (exists w, nodes t !! c = Some w /\ proper w) /\
    forall x w, nodes t !! x = Some w -> proper w -> Dom (edges t) c x.

Theorem C50_remove_dummy t :
  WF t ->
  exists t', remove_dummy_nodes t = Ret (t', Ok ()) /\ WF t' /\ tr_nterm t' = tr_nterm t /\
    (forall n w, nodes t' !! n = Some w <->
       nodes t !! n = Some w /\ (proper w \/ (n = tr_root t /\ ~ single_top t))) /\
    (forall a b, is_Some (nodes t' !! a) -> is_Some (nodes t' !! b) -> Dom (edges t') a b <-> Dom (edges t) a b).
Proof.
  intros W. unfold remove_dummy_nodes.
  set (f := fun t n => match g_nodes (tr_graph t) !! n with Some w => negb (str_eqb (node_label w) DUMMY) | None => true end).
  destruct (filter_nonterminals_ok t f W) as (t1 & -> & W1 & Hr1 & Hn1 & HN1 & HD1).
  { intros ta tb n Hn. unfold f. by rewrite Hn. }
  cbn [mbind outcome_bind].
  assert (HN : forall n w, nodes t1 !! n = Some w <-> nodes t !! n = Some w /\ (n = tr_root t \/ proper w)).
  { intros n w. rewrite HN1. split; intros [H1 H2]; (split; [done|]).
    - destruct H2 as [->|[H2|H2]]; [by left|right; by destruct w|]. right. unfold f in H2. rewrite H1 in H2.
      destruct w as [nt|tm]; [|done]. simpl in *. intros E. rewrite E in H2. vm_compute in H2. done.
    - destruct H2 as [->|H2]; [by left|]. right. destruct w as [nt|tm]; [|by left]. right. unfold f. rewrite H1. simpl in *.
      apply negb_true_iff. destruct (str_eqb (nt_label nt) DUMMY) eqn:E; [|done]. apply str_eqb_iff in E. done. }
  clear HN1. pose proof (wf_shape _ W) as Sh. pose proof (wf_shape _ W1) as Sh1.
  destruct (sh_root _ _ _ Sh) as [wr Hwr].
  assert (Hwr1 : nodes t1 !! tr_root t1 = Some wr) by (rewrite Hr1; apply HN; auto).
  rewrite (node_at_Some _ _ _ Hwr1). cbn [mbind outcome_bind].
  (* the root stays *)
  assert (Hstay : (proper wr \/ ~ single_top t) ->
    exists t', Ret (t1, Ok ()) = Ret (t', Ok ()) /\ WF t' /\ tr_nterm t' = tr_nterm t /\
    (forall n w, nodes t' !! n = Some w <-> nodes t !! n = Some w /\ (proper w \/ (n = tr_root t /\ ~ single_top t))) /\
    (forall a b, is_Some (nodes t' !! a) -> is_Some (nodes t' !! b) -> Dom (edges t') a b <-> Dom (edges t) a b)).
  { intros Hs. exists t1. split_and!; [done|done|done| |done]. intros n w. rewrite HN. split; intros [H1 H2]; (split; [done|]).
    - destruct H2 as [->|H2]; [|by left]. rewrite Hwr in H1. injection H1 as <-. tauto.
    - tauto. }
  destruct wr as [nt|tm]; simpl node_nonterminal; cbn [andb]; [|apply Hstay; by left].
  destruct (str_eqb (nt_label nt) DUMMY) eqn:Ed.
  2:{ apply Hstay. left. intros E. apply not_true_iff_false in Ed. apply Ed, str_eqb_iff, E. }
  apply str_eqb_iff in Ed. cbn [andb].
  assert (Hlen : length (children t1 (tr_root t1)) = length (map fst (children t1 (tr_root t1)))) by (by rewrite map_length).
  pose proof (children_nodup t1 (tr_root t1) (wf_graph _ W1) Sh1) as Hnd.
  assert (Hch : forall c, PE (edges t1) (tr_root t1) c -> exists w, nodes t !! c = Some w /\ proper w /\ is_Some (nodes t1 !! c)).
  { intros c Hc. destruct (proj2 (sh_live _ _ _ Sh1 _ _ Hc)) as [w Hw]. exists w. apply HN in Hw as Hw'. destruct Hw' as [Hw' [Hc'|Hp]]; [|eauto].
    exfalso. apply (sh_root_top _ _ _ Sh1 (tr_root t1)). rewrite Hr1 in Hc |- *. congruence. }
  destruct (sh_inner _ _ _ Sh1 _ _ Hwr1) as [c Hc].
  destruct (decide (length (children t1 (tr_root t1)) = 1)) as [H1|H1].
  - rewrite H1. cbn [Nat.eqb].
    assert (Hu : forall x, PE (edges t1) (tr_root t1) x -> x = c).
    { intros x Hx. apply children_fst in Hx, Hc. rewrite H1 in Hlen.
      destruct (map fst (children t1 (tr_root t1))) as [|y [|z l]]; [done| |done]. set_solver. }
    assert (Hst : single_top t).
    { destruct (Hch c Hc) as (wc & Hwc & Hpc & Hlc). exists c. split; [eauto|]. intros x w Hx Hp.
      assert (Hx1 : nodes t1 !! x = Some w) by (apply HN; auto).
      apply HD1; [done|eauto|]. pose proof (sh_reach _ _ _ Sh1 x ltac:(eauto)) as HR.
      apply rtc_inv in HR as [HR|(y & Hy & HR)]; [|by rewrite <- (Hu y Hy)].
      subst x. rewrite Hwr1 in Hx1. injection Hx1 as <-. by destruct Hp. }
    destruct (remove_nonterminal_root_ok t1 nt c W1 Hwr1 Hc Hu) as (t' & Hrm & W' & HN' & Hk & Hr & HE).
    assert (Hrm' : remove_node t1 (tr_root t1) = Ret (t', Ok (NT nt))).
    { unfold remove_node. by rewrite (node_at_Some _ _ _ Hwr1). }
    rewrite Hrm'. cbn [mbind outcome_bind]. exists t'. split_and!; [done|done|by rewrite Hk| |].
    + intros n w. rewrite HN', lookup_delete_Some, HN. split.
      * intros (Hne & Hn & [Hn'|Hp]); [by rewrite Hr1 in Hne|]. auto.
      * intros (Hn & [Hp|[_ ?]]); [|done]. split_and!; [|done|by right]. intros E. rewrite <- E, Hr1, Hwr in Hn.
        injection Hn as <-. by destruct Hp.
    + intros a b [wa Ha] [wb Hb].
      rewrite HN', lookup_delete_Some in Ha, Hb. destruct Ha as [Ha1 Ha2], Hb as [Hb1 Hb2]. rewrite <- HD1 by eauto. split.
      * apply rtc_subrel. intros x y (r & Hr0 & P & <- & <-). apply HE in Hr0 as (Hr0 & _ & _). by exists r.
      * intros HD. assert (Hxr : forall x y, PE (edges t1) x y -> x <> tr_root t1 -> PE (edges t') x y).
        { intros x y (r & Hr0 & P & <- & <-) Hx. exists r. split_and!; try done. apply HE. split_and!; try done.
          intros E. apply (sh_root_top _ _ _ Sh1 (e_src r)). rewrite <- E. by exists r. }
        clear Ha2 Hb1 Hb2 wa wb. revert Ha1. induction HD as [|x y z Hxy _ IH]; intros Ha1; [done|].
        eapply rtc_l; [by apply Hxr|]. apply IH. intros <-. by apply (sh_root_top _ _ _ Sh1 x).
  - destruct (Nat.eqb_spec (length (children t1 (tr_root t1))) 1); [done|]. apply Hstay. right.
    intros (d & (wd & Hwd & Hpd) & Htop). apply H1. rewrite Hlen.
    assert (Hall : forall x, x ∈ map fst (children t1 (tr_root t1)) -> x = d).
    { intros x Hx%children_fst. destruct (Hch x Hx) as (w & Hw & Hp & Hl). pose proof (Htop x w Hw Hp) as HD.
      assert (Hd1 : nodes t1 !! d = Some wd) by (apply HN; auto).
      apply HD1 in HD; [|eauto|done]. apply (Dom_step_r Sh1 _ _ _ HD) in Hx as [->|Hx]; [done|].
      apply (Dom_root Sh1) in Hx as ->. rewrite Hwr1 in Hd1. injection Hd1 as <-. by destruct Hpd. }
    apply children_fst in Hc. destruct (map fst (children t1 (tr_root t1))) as [|x [|y l]]; [by apply elem_of_nil in Hc|done|].
    exfalso. rewrite (Hall x), (Hall y) in Hnd by set_solver. apply NoDup_cons in Hnd as [Hnd _]. set_solver.
Qed.
Print Assumptions C50_remove_dummy.
(** Hence no inner node except possibly the root is called DUMMY, and a root called DUMMY has at
    least two children. *)
Theorem C50_no_dummies t t' :
  WF t -> remove_dummy_nodes t = Ret (t', Ok ()) ->
  forall n nt, nodes t' !! n = Some (NT nt) -> nt_label nt = lit "DUMMY" ->
    n = tr_root t' /\ exists a b, a <> b /\ PE (edges t') n a /\ PE (edges t') n b.
Proof.
  intros W Hrm n nt Hn Hl. destruct (C50_remove_dummy t W) as (t1 & Hrm1 & W' & Hk & HN & HD).
  rewrite Hrm in Hrm1. injection Hrm1 as <-. apply HN in Hn as Hn'. destruct Hn' as [Hn0 [Hp|[-> Hs]]]; [done|].
  pose proof (wf_shape _ W') as Sh'. pose proof (wf_shape _ W) as Sh.
  assert (Hroot : tr_root t = tr_root t').
  { destruct (sh_root _ _ _ Sh') as [w Hw]. apply HN in Hw as Hw0. destruct Hw0 as [Hw0 _].
    pose proof (sh_reach _ _ _ Sh (tr_root t') ltac:(eauto)) as HR. apply HD in HR; [|eauto|eauto].
    by apply (Dom_root Sh') in HR. }
  split; [done|]. rewrite Hroot in *. destruct (sh_inner _ _ _ Sh' _ _ Hn) as [a Ha].
  destruct (sibling_dec t' _ _ W' Ha) as [Hu|(b & Hb & Hne)]; [|exists a, b; naive_solver].
  destruct Hs. assert (Hpr : forall x w, nodes t' !! x = Some w -> x <> tr_root t' -> proper w).
  { intros x w Hx Hne. apply HN in Hx as [_ [?|[? _]]]; [done|congruence]. }
  destruct (proj2 (sh_live _ _ _ Sh' _ _ Ha)) as [wa Hwa].
  assert (a <> tr_root t') by (intros ->; by apply (PE_irrefl Sh') in Ha).
  exists a. split; [exists wa; split; [by apply HN in Hwa as [? _]|eauto]|].
  intros x w Hx Hp. assert (Hx' : nodes t' !! x = Some w) by (apply HN; auto).
  apply HD; [eauto|eauto|]. pose proof (sh_reach _ _ _ Sh' x ltac:(eauto)) as HR.
  apply rtc_inv in HR as [HR|(y & Hy & HR)].
  - subst x. rewrite Hn in Hx'. injection Hx' as <-. done.
  - by rewrite <- (Hu y Hy).
Qed.
Print Assumptions C50_no_dummies.
(** A decoded tree with an unnamed root over one child, and one with an unnamed inner node. *)
Definition ex_dummy_root : abs_enc := [(Some (mk_abs 3 (lit "X")), None); (Some (mk_abs 2 (lit "Y")), None); (None, None)].
Example C50_ex : exists t t', EncModel.decode ex_dummy_root ex_terms = Ret t /\ WF t /\
  tree_to_string Simple t = Ret (Ok (lit "(DUMMY (Y (X (A a) (B b)) (C c)))")) /\
  remove_dummy_nodes t = Ret (t', Ok ()) /\ tree_to_string Simple t' = Ret (Ok (lit "(Y (X (A a) (B b)) (C c))")).
Proof.
  assert (Hp : depths_pos ex_dummy_root).
  { intros a u H. unfold ex_dummy_root in H. rewrite !elem_of_cons, elem_of_nil in H. destruct_or?; simplify_eq; simpl; lia. }
  destruct (C46_decode ex_dummy_root ex_terms eq_refl ltac:(done) Hp ltac:(by vm_compute)) as (t & r & Ht & W & _).
  exists t. revert W. vm_compute in Ht. injection Ht as <-. intros W. eexists.
  split_and!; [vm_compute; reflexivity|exact W|by vm_compute|vm_compute; reflexivity|by vm_compute].
Qed.
