(** [collapse_unary_chains]. *)
From Coq Require Import Lia.
From Verif Require Import ModModel TreeSpec BaseProofs SpanProofs ShapeProofs GraphProofs DfsProofs ResetProofs
  ShapeOps TreeOps SortProofs EditProofs UnaryProofs.

(** [c] is the only child of [n]. *)
Definition only (es : list erec) (n c : nat) : Prop := PE es n c /\ forall c', PE es n c' -> c' = c.
(** A node that is not a link of a unary chain: a terminal, or a node with several children. *)
Definition anchor (t : tree) (n : nat) : Prop := is_Some (nodes t !! n) /\ forall c, ~ only (edges t) n c.
(** The unary chain above [n], bottom-up. *)
Inductive uchain (es : list erec) : nat -> list nat -> Prop :=
| uc_nil n : (forall p, ~ only es p n) -> uchain es n []
| uc_cons n p l : only es p n -> uchain es p l -> uchain es n (p :: l).

Lemma only_dec_in es (ch : list nat) n : NoDup ch -> (forall c, c ∈ ch <-> PE es n c) ->
  (exists c, only es n c) \/ (forall c, ~ only es n c).
Proof.
  intros Hnd Hch. destruct ch as [|c [|d l]].
  - right. intros c [Hc _]. apply Hch in Hc. set_solver.
  - left. exists c. split; [apply Hch; set_solver|]. intros c' Hc'. apply Hch in Hc'. set_solver.
  - right. intros x [_ Hx]. apply NoDup_cons in Hnd as [Hnd _]. apply Hnd.
    rewrite (Hx c) by (apply Hch; set_solver). rewrite <- (Hx d) by (apply Hch; set_solver). set_solver.
Qed.
Lemma uchain_only es n l a : uchain es n l -> a ∈ l -> exists c, only es a c.
Proof. induction 1 as [|n p l Hp Hl IH]; [set_solver|]. intros [->|Ha]%elem_of_cons; eauto. Qed.
Section ushape.
  Context {N : gmap nat node} {es : list erec} {root : nat}.
  Hypothesis (S : shape_ok N es root).
  Lemma only_parent_unique p q n : only es p n -> only es q n -> p = q.
  Proof. intros [H1 _] [H2 _]. by eapply (PE_parent_unique S). Qed.
  Lemma uchain_unique n l1 l2 : uchain es n l1 -> uchain es n l2 -> l1 = l2.
  Proof.
    intros H. revert l2. induction H as [n Hn|n p l Hp Hl IH]; intros l2 H2.
    - inversion H2 as [|? q l' Hq]; subst; [done|]. by apply Hn in Hq.
    - inversion H2 as [? Hn|? q l' Hq Hl']; subst; [by apply Hn in Hp|].
      assert (q = p) as -> by (by eapply only_parent_unique). f_equal. by apply IH.
  Qed.
End ushape.

Lemma only_dec t n : WF t -> (exists c, only (edges t) n c) \/ (forall c, ~ only (edges t) n c).
Proof.
  intros [G Sh Tm Nt Nd]. apply (only_dec_in _ (map fst (children t n))); [by apply children_nodup|].
  intros c. by rewrite children_fst.
Qed.
Lemma anchor_dec t n : WF t -> is_Some (nodes t !! n) -> (exists c, only (edges t) n c) \/ anchor t n.
Proof. intros W Hn. destruct (only_dec t n W) as [?|?]; [by left|by right]. Qed.
Lemma uchain_exists t n : WF t -> is_Some (nodes t !! n) -> exists l, uchain (edges t) n l.
Proof.
  intros W. pose proof W as [G Sh Tm Nt Nd]. revert n. apply (tree_ind_down Sh).
  - exists []. constructor. intros p [Hp _]. by apply (sh_root_top _ _ _ Sh) in Hp.
  - intros p c Hp [l Hl] Hpc. destruct (only_dec t p W) as [[d Hd]|Hd].
    + exists (p :: l). assert (c = d) as -> by (by apply Hd). by econstructor.
    + exists []. constructor. intros q Hq. assert (q = p) as ->. { eapply (PE_parent_unique Sh); [apply Hq|done]. }
      by apply Hd in Hq.
Qed.
Lemma anchor_branching t n nt :
  WF t -> anchor t n -> nodes t !! n = Some (NT nt) ->
  exists c d, c <> d /\ PE (edges t) n c /\ PE (edges t) n d.
Proof.
  intros W [_ Ha] Hn. pose proof W as [G Sh Tm Nt Nd].
  destruct (children t n) as [|[c e] [|[d e'] l]] eqn:E.
  - destruct (sh_inner _ _ _ Sh n nt Hn) as [c Hc]. apply children_fst in Hc. rewrite E in Hc. set_solver.
  - destruct (Ha c). split; [apply children_fst; rewrite E; set_solver|].
    intros c' Hc'. apply children_fst in Hc'. rewrite E in Hc'. set_solver.
  - exists c, d. pose proof (children_nodup t n G Sh) as Hnd. rewrite E in Hnd. simpl in Hnd.
    apply NoDup_cons in Hnd as [Hnd _]. split_and!; [set_solver|apply children_fst; rewrite E; set_solver..].
Qed.
Lemma terminal_anchor t n tm : WF t -> nodes t !! n = Some (T tm) -> anchor t n.
Proof.
  intros W Hn. split; [eauto|]. intros c [Hc _]. by apply (sh_leaf _ _ _ (wf_shape _ W) n tm c Hn) in Hc.
Qed.

(** Equal spans and unary edges. *)
Lemma span_unary t p c wp wc :
  WF t -> PE (edges t) p c -> nodes t !! p = Some wp -> nodes t !! c = Some wc ->
  span_eqb (node_span wp) (node_span wc) = true <-> only (edges t) p c.
Proof.
  intros W Hpc Hp Hc. pose proof W as [G Sh Tm Nt Nd].
  destruct (node_span_ok _ _ _ _ _ _ Sh Tm Nt Hp) as [Sp Cp].
  destruct (node_span_ok _ _ _ _ _ _ Sh Tm Nt Hc) as [Sc Cc].
  assert (HPnt : exists nt, nodes t !! p = Some (NT nt)).
  { destruct wp as [nt|tm]; [by exists nt|]. by apply (sh_leaf _ _ _ Sh p tm c Hp) in Hpc. }
  unfold span_eqb. rewrite bool_decide_eq_true. split.
  - intros E. split; [done|]. intros d Hd. destruct (decide (d = c)) as [|Hne]; [done|exfalso].
    destruct (dominates_terminal Sh d) as (m & tm & Hdm & Htm); [by apply (sh_live _ _ _ Sh p d)|].
    destruct (to_pos _ _ Tm m tm Htm) as (i & Hi & _).
    assert (Hy : yields (nodes t) (edges t) p i).
    { exists m. split; [eapply rtc_l; [exact Hd|done]|]. by exists tm. }
    apply Cp in Hy. rewrite E in Hy. apply Cc in Hy as (m' & Hm' & tm' & Htm' & Hi').
    assert (m' = m) as ->. { apply (to_inj _ _ Tm m' m i); [by exists tm'|by exists tm]. }
    apply Hne. symmetry. by apply (sibling_disjoint Sh p c d m Hpc Hd).
  - intros [_ Ho]. apply span_ext; [done..|]. intros i. rewrite Cp, Cc. destruct HPnt as [nt HPnt].
    rewrite (yields_children p nt i HPnt). split; [|eauto]. intros (d & Hd & Hy). by rewrite <- (Ho d Hd).
Qed.

(** ** Removing one link *)
Section link.
  Context (es es1 : list erec) (n cur : nat).
  Hypothesis (Hpu : forall p q c, PE es p c -> PE es q c -> p = q).
  Hypothesis (Hon : only es n cur) (Hne : n <> cur) (Hirr : ~ PE es n n).
  Hypothesis (Hcur : forall c, ~ only es cur c).
  Hypothesis (HPE : forall a b, PE es1 a b <-> (PE es a n /\ b = cur) \/ (a <> n /\ b <> n /\ PE es a b)).

  Lemma link_PE_cur a : PE es1 a cur <-> PE es a n.
  Proof.
    rewrite HPE. split; [|by left; split]. intros [[? _]|(Ha & _ & H)]; [done|].
    destruct Ha. by apply (Hpu _ _ cur), Hon.
  Qed.
  Lemma link_PE_other a b : a <> n -> b <> n -> b <> cur -> PE es1 a b <-> PE es a b.
  Proof. intros Ha Hb Hc. rewrite HPE. naive_solver. Qed.
  Lemma link_src a b : PE es1 a b -> a <> n.
  Proof. rewrite HPE. intros [[H _]|(? & _)]; [|done]. by intros ->. Qed.
  Lemma link_tgt a b : PE es1 a b -> b <> n.
  Proof. rewrite HPE. intros [[_ ->]|(_ & ? & _)]; [|done]. done. Qed.

  Lemma link_only a b : only es1 a b <-> a <> n /\ ((b = cur /\ only es a n) \/ (b <> n /\ b <> cur /\ only es a b)).
  Proof.
    split.
    - intros [H1 H2]. pose proof (link_src _ _ H1) as Ha. pose proof (link_tgt _ _ H1) as Hb. split; [done|].
      destruct (decide (b = cur)) as [->|Hbc].
      + left. split; [done|]. split; [by apply link_PE_cur|]. intros c Hc.
        destruct (decide (c = n)) as [|Hcn]; [done|].
        destruct (decide (c = cur)) as [->|Hcc].
        { destruct Ha. by apply (Hpu _ _ cur), Hon. }
        exfalso. apply Hcc. by apply H2, link_PE_other.
      + right. split_and!; [done..|]. split; [by apply link_PE_other|]. intros c Hc.
        destruct (decide (c = n)) as [->|Hcn].
        { exfalso. apply Hbc. symmetry. apply H2. by apply link_PE_cur. }
        destruct (decide (c = cur)) as [->|Hcc].
        { destruct Ha. by apply (Hpu _ _ cur), Hon. }
        by apply H2, link_PE_other.
    - intros [Ha [[-> [H1 H2]]|(Hb & Hc & H1 & H2)]].
      + split; [by apply link_PE_cur|]. intros c Hc. destruct (decide (c = cur)) as [|Hcc]; [done|].
        pose proof (link_tgt _ _ Hc) as Hcn. apply link_PE_other in Hc; [|done..]. by apply H2 in Hc.
      + split; [by apply link_PE_other|]. intros c Hcc. destruct (decide (c = cur)) as [->|Hcur'].
        { apply link_PE_cur in Hcc. apply H2 in Hcc. done. }
        pose proof (link_tgt _ _ Hcc) as Hcn. apply link_PE_other in Hcc; [|done..]. by apply H2.
  Qed.
  Lemma link_Dom_sub a b : Dom es1 a b -> Dom es a b.
  Proof.
    intros H. revert b H. refine (rtc_ind_r _ _ _ _); [reflexivity|]. intros x y _ Hxy IH.
    apply HPE in Hxy as [[H ->]|(_ & _ & H)].
    - eapply rtc_r; [eapply rtc_r; [exact IH|exact H]|apply Hon].
    - by eapply rtc_r.
  Qed.
  Lemma link_Dom a b : a <> n -> b <> n -> Dom es1 a b <-> Dom es a b.
  Proof.
    intros Ha Hb. split.
    - apply link_Dom_sub.
    - intros H. cut ((b <> n -> Dom es1 a b) /\ (b = n -> Dom es1 a cur)); [naive_solver|].
      clear Hb. revert b H. refine (rtc_ind_r _ _ _ _); [split; [reflexivity|done]|].
      intros x y _ Hxy [IH1 IH2]. split.
      + intros Hy. destruct (decide (x = n)) as [Hx|Hx].
        * assert (y = cur) as -> by (apply Hon; by rewrite <- Hx). by apply IH2.
        * eapply rtc_r; [by apply IH1|]. apply HPE. by right.
      + intros Hy. assert (Hx : x <> n). { intros E. rewrite E, Hy in Hxy. done. }
        eapply rtc_r; [by apply IH1|]. apply link_PE_cur. by rewrite <- Hy.
  Qed.
  Lemma link_anchor x : x <> n -> (forall c, ~ only es1 x c) <-> (forall c, ~ only es x c).
  Proof.
    intros Hx. split.
    - intros H c Hc. destruct (decide (c = n)) as [->|Hcn].
      + apply (H cur), link_only. naive_solver.
      + destruct (decide (c = cur)) as [->|Hcc].
        { destruct Hx. eapply Hpu; [apply Hc|apply Hon]. }
        apply (H c), link_only. naive_solver.
    - intros H c [_ [[_ Hc]|(_ & _ & Hc)]]%link_only; by apply H in Hc.
  Qed.
  Lemma link_chain x l : x <> n -> x <> cur -> uchain es x l -> uchain es1 x l /\ n ∉ l.
  Proof.
    intros Hx Hxc H. revert Hx Hxc. induction H as [p Hn|p q l' Hq _ IH]; intros Hpn Hpc.
    - split; [|set_solver]. constructor. intros q [_ [[-> _]|(_ & _ & Hq)]]%link_only; [done|]. by apply Hn in Hq.
    - assert (q <> n). { intros ->. apply Hpc. by apply Hon, Hq. }
      assert (q <> cur) by (intros ->; by apply Hcur in Hq).
      destruct IH as [IH1 IH2]; [done..|]. split; [|set_solver]. constructor; [apply link_only; naive_solver|done].
  Qed.
  Lemma link_chain_cur l : uchain es cur (n :: l) -> uchain es1 cur l.
  Proof.
    intros H. inversion H as [|? ? ? _ Hl]; subst. clear H.
    inversion Hl as [? Hn|? p l' Hp Hl']; subst.
    - constructor. intros p [_ [[_ Hp]|(_ & ? & _)]]%link_only; [by apply Hn in Hp|done].
    - constructor; [apply link_only; split; [|by left]; intros ->; by destruct Hp|].
      assert (Hpn : p <> n) by (intros ->; by destruct Hp).
      assert (Hpc : p <> cur) by (intros ->; by apply Hcur in Hp).
      by apply link_chain.
  Qed.
End link.

(** ** One step of the climb *)

(** What a node will be once the chain [ls] above it has been collapsed onto it. *)
Definition push_all (delim : str) (w : node) (ls : list str) : node := foldl (fun w l => push_chain w delim l) w ls.
Definition labels_of (t : tree) (l : list nat) (ls : list str) : Prop :=
  Forall2 (fun a s => exists nt, nodes t !! a = Some (NT nt) /\ nt_label nt = s) l ls.
(** [desc t n W]: [n] is an anchor and [W] its final content. *)
Definition desc (delim : str) (t : tree) (n : nat) (W : node) : Prop :=
  exists w l ls, nodes t !! n = Some w /\ anchor t n /\ uchain (edges t) n l /\ labels_of t l ls /\
    W = push_all delim w ls.
(** [t'] arises from [t] by collapsing links. *)
Definition csim (delim : str) (t t' : tree) : Prop :=
  tr_nterm t' = tr_nterm t /\
  (forall n W, desc delim t' n W <-> desc delim t n W) /\
  (forall a b, anchor t a -> anchor t b -> Dom (edges t') a b <-> Dom (edges t) a b) /\
  (forall n, is_Some (nodes t' !! n) -> is_Some (nodes t !! n)) /\
  (forall a b, Dom (edges t') a b -> Dom (edges t) a b).

Lemma labels_exist t n l : WF t -> uchain (edges t) n l -> exists ls, labels_of t l ls.
Proof.
  intros W. induction 1 as [|n p l [Hp _] Hl [ls IH]]; [exists []; constructor|].
  destruct (PE_src_nt (wf_shape _ W) p n Hp) as [nt Hnt]. exists (nt_label nt :: ls). constructor; [by exists nt|done].
Qed.
Lemma labels_unique t l ls ls' : labels_of t l ls -> labels_of t l ls' -> ls = ls'.
Proof.
  intros H. revert ls'. induction H as [|a s l ls (nt & H1 & H2) _ IH]; intros ls' H'.
  - by inversion H'.
  - inversion H' as [|? s' ? ls1 (nt' & H1' & H2')]; subst. rewrite H1 in H1'. injection H1' as <-.
    f_equal. by apply IH.
Qed.
Lemma desc_anchor delim t n : WF t -> (exists W, desc delim t n W) <-> anchor t n.
Proof.
  intros W. split; [by intros (? & ? & ? & ? & ? & ? & ?)|]. intros Ha.
  destruct Ha as [[w Hw] Ha]. destruct (uchain_exists t n W ltac:(eauto)) as [l Hl].
  destruct (labels_exist t n l W Hl) as [ls Hls]. exists (push_all delim w ls), w, l, ls. split_and!; try done.
Qed.
Lemma desc_unique delim t n W1 W2 : WF t -> desc delim t n W1 -> desc delim t n W2 -> W1 = W2.
Proof.
  intros W (w & l & ls & H1 & _ & H2 & H3 & ->) (w' & l' & ls' & H1' & _ & H2' & H3' & ->).
  rewrite (uchain_unique (wf_shape _ W) n l l') in H3 by done.
  rewrite (labels_unique t l' ls ls') by done. congruence.
Qed.
Lemma csim_anchor delim t t' n : WF t -> WF t' -> csim delim t t' -> anchor t' n <-> anchor t n.
Proof.
  intros W W' (_ & H & _). rewrite <- (desc_anchor delim t n W), <- (desc_anchor delim t' n W').
  by setoid_rewrite H.
Qed.
Lemma csim_refl delim t : csim delim t t.
Proof. by split_and!. Qed.
Lemma csim_trans delim t1 t2 t3 :
  WF t1 -> WF t2 -> WF t3 -> csim delim t1 t2 -> csim delim t2 t3 -> csim delim t1 t3.
Proof.
  intros W1 W2 W3 C12 C23. pose proof (csim_anchor delim t1 t2) as HA.
  pose proof C12 as (A1 & B1 & D1 & E1 & F1). destruct C23 as (A2 & B2 & D2 & E2 & F2). split_and!.
  - congruence.
  - intros n w. by rewrite B2, B1.
  - intros a b Ha Hb. rewrite D2 by (by apply HA). by apply D1.
  - auto.
  - auto.
Qed.

Lemma push_chain_skel w delim l : skel (push_chain w delim l) = skel w.
Proof. by destruct w. Qed.

Lemma push_all_skel delim w ls : skel (push_all delim w ls) = skel w.
Proof.
  revert w. induction ls as [|l ls IH]; intros w; [done|].
  unfold push_all in *. simpl. by rewrite IH, push_chain_skel.
Qed.
Lemma desc_skel delim t n w W : desc delim t n W -> nodes t !! n = Some w -> skel W = skel w.
Proof. intros (w' & l & ls & H1 & _ & _ & _ & ->) H2. rewrite push_all_skel. congruence. Qed.
(** Anchors keep kind and span. *)
Lemma csim_skel delim t t' n w :
  WF t -> WF t' -> csim delim t t' -> anchor t n -> nodes t !! n = Some w ->
  exists w', nodes t' !! n = Some w' /\ skel w' = skel w.
Proof.
  intros W W' C Ha Hw. apply (desc_anchor delim t n W) in Ha as [D HD].
  pose proof C as (_ & HC & _). pose proof (proj2 (HC n D) HD) as HD'.
  assert (exists w', nodes t' !! n = Some w') as [w' Hw'].
  { destruct HD' as (w' & ? & ? & ? & _). by exists w'. }
  exists w'. split; [done|]. by rewrite <- (desc_skel _ _ _ _ _ HD Hw), <- (desc_skel _ _ _ _ _ HD' Hw').
Qed.

Lemma collapse_link delim t n cur nt wc :
  WF t -> nodes t !! n = Some (NT nt) -> nodes t !! cur = Some wc -> only (edges t) n cur -> anchor t cur ->
  exists t1, remove_node t n = Ret (t1, Ok (NT nt)) /\ nodes t1 !! cur = Some wc /\
    let t2 := put_node t1 cur (push_chain wc delim (nt_label nt)) in
    WF t2 /\ csim delim t t2 /\ anchor t2 cur /\ nodes t2 !! n = None /\
    (forall a, PE (edges t2) a cur <-> PE (edges t) a n).
Proof.
  intros W Hn Hc Hon Ha. pose proof W as [G Sh Tm Nt Nd].
  assert (Hne : n <> cur). { intros E. rewrite E in Hon. by apply (PE_irrefl Sh cur), Hon. }
  assert (Hirr : ~ PE (edges t) n n) by (apply (PE_irrefl Sh)).
  assert (Hpu : forall p q c, PE (edges t) p c -> PE (edges t) q c -> p = q) by (intros p q c; apply (PE_parent_unique Sh)).
  assert (HR : exists t1, remove_node t n = Ret (t1, Ok (NT nt)) /\ WF t1 /\ nodes t1 = delete n (nodes t) /\
            tr_nterm t1 = tr_nterm t /\
            forall a b, PE (edges t1) a b <-> (PE (edges t) a n /\ b = cur) \/ (a <> n /\ b <> n /\ PE (edges t) a b)).
  { unfold remove_node. rewrite (node_at_Some _ _ _ Hn). cbn [mbind outcome_bind].
    destruct (decide (n = tr_root t)) as [Hr|Hr].
    - destruct (remove_nonterminal_root_ok t nt cur W) as (t1 & H1 & W1 & N1 & K1 & R1 & E1).
      { by rewrite <- Hr. } { rewrite <- Hr. apply Hon. } { rewrite <- Hr. apply Hon. }
      rewrite <- Hr in H1, N1, E1. exists t1. split_and!; try done. intros a b. split.
      + intros (r & Hr1 & Hp & <- & <-). apply E1 in Hr1 as (Hr1 & Hs & Ht). right. split_and!; try done. by exists r.
      + intros [[H _]|(Hx & Hy & r & Hr1 & Hp & <- & <-)].
        * rewrite Hr in H. by apply (sh_root_top _ _ _ Sh) in H.
        * exists r. split_and!; try done. by apply E1.
    - destruct (live_parent Sh n ltac:(eauto) Hr) as [p Hp].
      destruct (remove_nonterminal_ok t n nt p W Hn Hp) as (t1 & H1 & W1 & N1 & K1 & R1 & E1 & _).
      exists t1. split_and!; try done. intros a b. rewrite E1. split.
      + intros [[-> H]|H]; [left|by right]. split; [done|by apply Hon].
      + intros [[H ->]|H]; [left|by right]. split; [by eapply Hpu|apply Hon]. }
  destruct HR as (t1 & H1 & W1 & N1 & K1 & P1). exists t1.
  assert (Hc1 : nodes t1 !! cur = Some wc) by (by rewrite N1, lookup_delete_ne).
  split; [done|]. split; [done|]. cbv zeta. set (t2 := put_node t1 cur _).
  assert (HE2 : edges t2 = edges t1) by done.
  assert (HK2 : tr_nterm t2 = tr_nterm t) by done.
  assert (HN2 : forall x, nodes t2 !! x = if decide (x = cur) then Some (push_chain wc delim (nt_label nt)) else nodes t1 !! x).
  { intros x. subst t2. simpl. destruct (decide (x = cur)) as [->|Hx]; [by rewrite lookup_insert|by rewrite lookup_insert_ne]. }
  assert (W2 : WF t2). { eapply put_node_WF; [done|exact Hc1|apply push_chain_skel]. }
  assert (HL : forall x, is_Some (nodes t2 !! x) <-> x <> n /\ is_Some (nodes t !! x)).
  { intros x. rewrite HN2, N1. destruct (decide (x = cur)) as [->|Hx]; [by split; eauto|].
    destruct (decide (x = n)) as [->|Hxn]; [rewrite lookup_delete|rewrite lookup_delete_ne by done].
    - split; [intros [? ?]; done|tauto].
    - tauto. }
  destruct Ha as [Hlc Hac].
  assert (HA : forall x, anchor t2 x <-> anchor t x).
  { intros x. unfold anchor. rewrite HL, HE2. destruct (decide (x = n)) as [->|Hx].
    - split; [tauto|]. intros [_ H]. by destruct (H cur).
    - rewrite (link_anchor (edges t) (edges t1) n cur) by done. tauto. }
  clearbody t2.
  assert (HX : forall x l ls, x <> n -> x <> cur -> uchain (edges t) x l -> labels_of t l ls -> uchain (edges t2) x l /\ labels_of t2 l ls).
  { intros x l ls Hx Hxc Hl Hls. destruct (link_chain (edges t) (edges t1) n cur Hpu Hon Hne Hirr Hac P1 x l Hx Hxc Hl) as [H2 H3].
    rewrite HE2. split; [done|]. unfold labels_of. apply Forall2_same_length_lookup. split; [by eapply Forall2_length|].
    intros i a s Hi1 Hi2. pose proof (Forall2_lookup_lr _ _ _ _ _ _ Hls Hi1 Hi2) as (nta & Hnta & Hs).
    exists nta. split; [|done]. apply elem_of_list_lookup_2 in Hi1.
    rewrite HN2, decide_False, N1, lookup_delete_ne; [done|by intros ->|].
    intros ->. destruct (uchain_only _ _ _ _ Hl Hi1) as [d Hd]. by destruct (Hac d). }
  assert (HD : forall x W', desc delim t x W' -> desc delim t2 x W').
  { intros x W' (w & l & ls & Hw & Hax & Hl & Hls & ->).
    assert (Hxn : x <> n). { intros ->. by destruct Hax as [_ Hax], (Hax cur). }
    destruct (decide (x = cur)) as [->|Hxc].
    - rewrite Hc in Hw. injection Hw as <-.
      inversion Hl as [? Hno|? p l' Hp Hl']; subst; [by destruct (Hno n)|].
      assert (p = n) as -> by (eapply Hpu; [apply Hp|apply Hon]).
      inversion Hls as [|? s ? ls' (nt' & Hnt' & <-) Hls']; subst. rewrite Hn in Hnt'. injection Hnt' as <-.
      exists (push_chain wc delim (nt_label nt)), l', ls'.
      split_and!; [by rewrite HN2, decide_True|by apply HA| | |done].
      + rewrite HE2. by apply (link_chain_cur (edges t) (edges t1) n cur).
      + destruct l' as [|q l'].
        { inversion Hls'. constructor. }
        inversion Hl' as [|? ? ? Hq Hl'']; subst.
        unfold labels_of. apply Forall2_same_length_lookup. split; [by eapply Forall2_length|].
        intros i a s Hi1 Hi2. pose proof (Forall2_lookup_lr _ _ _ _ _ _ Hls' Hi1 Hi2) as (nta & Hnta & Hs).
        exists nta. split; [|done]. apply elem_of_list_lookup_2 in Hi1.
        destruct (uchain_only _ _ _ _ Hl' Hi1) as [d Hd].
        rewrite HN2, decide_False, N1, lookup_delete_ne; [done| |intros ->; by destruct (Hac d)].
        intros <-. assert (Hqn : q <> n) by (intros ->; by destruct Hq).
        assert (Hqc : q <> cur) by (intros ->; by destruct (Hac n)).
        destruct (link_chain (edges t) (edges t1) n cur Hpu Hon Hne Hirr Hac P1 q l' Hqn Hqc Hl'') as [_ H3].
        set_solver.
    - destruct (HX x l ls Hxn Hxc Hl Hls) as [H2 H3]. exists w, l, ls.
      split_and!; try done; [|by apply HA]. rewrite HN2, decide_False, N1, lookup_delete_ne by done. done. }
  split; [done|]. split; [|split_and!; [by apply HA|by rewrite HN2, decide_False, N1, lookup_delete|intros a; rewrite HE2; by apply (link_PE_cur (edges t) (edges t1) n cur)]].
  split_and!.
  - done.
  - intros x W'. split; [|apply HD]. intros H.
    assert (Hax : anchor t x). { apply HA, (desc_anchor delim t2 x W2). eauto. }
    apply (desc_anchor delim t x W) in Hax as [W'' HW'']. pose proof (HD _ _ HW'') as HW2.
    by rewrite (desc_unique delim t2 x W' W'' W2 H HW2).
  - assert (HAn : forall x, anchor t x -> x <> n). { intros x [_ Hx] ->. by destruct (Hx cur). }
    intros a b Haa Hab. rewrite HE2. apply (link_Dom (edges t) (edges t1) n cur); auto.
  - intros x Hx. by apply HL in Hx as [_ Hx].
  - intros a b. rewrite HE2. by apply (link_Dom_sub (edges t) (edges t1) n cur).
Qed.

(** ** The climb *)
Lemma collapse_climb_spec delim x : forall fuel t cur (c : climber) l,
  WF t -> anchor t cur -> Dom (edges t) cur x -> is_Some (nodes t !! x) ->
  (forall a, Dom (edges t) cur a -> Dom (edges t) a x -> anchor t a) ->
  fst <$> c = fst <$> parent t cur -> upath (edges t) cur l -> length l <= fuel ->
  exists t', collapse_climb fuel t delim cur c = Ret t' /\ WF t' /\ csim delim t t' /\
    forall a, Dom (edges t') a x -> anchor t' a.
Proof.
  induction fuel as [|fuel IH]; intros t cur c l W Ha Hd Hx Hbelow Hc Hl Hf.
  all: pose proof W as [G Sh Tm Nt Nd].
  all: inversion Hl as [? Htop|? p l' Hp Hl']; subst.
  1, 3: rewrite (proj2 (parent_None t cur Sh) Htop) in Hc;
    destruct c as [[]|]; [discriminate Hc|];
    exists t; split_and!; [done|done|apply csim_refl|];
    intros a Hax; apply Hbelow; [|done];
    destruct (Dom_comparable Sh cur a x Hd Hax) as [H|H]; [done|];
    apply rtc_inv_r in H as [->|(q & _ & Hq)]; [done|by apply Htop in Hq].
  - simpl in Hf. lia.
  - simpl in Hf. destruct (proj1 (parent_PE t cur p Sh) Hp) as [e He]. rewrite He in Hc.
    destruct c as [[n ee]|]; [|discriminate Hc]. simpl in Hc. injection Hc as ->.
    destruct (PE_src_nt Sh p cur Hp) as [nt Hnt]. pose proof (proj1 Ha) as [wc Hwc].
    cbn [collapse_climb climber_next]. rewrite (node_at_Some _ _ _ Hnt), (node_at_Some _ _ _ Hwc).
    cbn [mbind outcome_bind].
    pose proof (span_unary t p cur (NT nt) wc W Hp Hnt Hwc) as HS.
    destruct (span_eqb _ _).
    + assert (Hon : only (edges t) p cur) by (by apply HS). clear HS.
      destruct (collapse_link delim t p cur nt wc W Hnt Hwc Hon Ha) as (t1 & H1 & Hc1 & W2 & C2 & A2 & Hdead & P2).
      rewrite H1. cbn [mbind outcome_bind unwrap_ok]. rewrite (node_at_Some _ _ _ Hc1). cbn [mbind outcome_bind].
      change (node_label (NT nt)) with (nt_label nt).
      set (t2 := put_node t1 cur _) in *. clearbody t2. pose proof W2 as [G2 Sh2 Tm2 Nt2 Nd2].
      pose proof C2 as (_ & _ & CD & CL & CS).
      assert (Hax : anchor t x). { apply Hbelow; done. }
      destruct (upath_exists Sh2 cur (proj1 A2)) as [l2 Hl2].
      assert (length l2 <= length l') as Hlen.
      { apply submseteq_length, NoDup_submseteq.
        - pose proof (upath_nodup Sh2 _ _ Hl2) as Hnd. by apply NoDup_cons in Hnd as [_ Hnd].
        - intros a Hal. assert (Hap : a <> p). { intros ->. destruct (upath_live Sh2 _ _ _ Hl2 Hal) as [? ?]. congruence. }
          assert (a <> cur). { intros ->. pose proof (upath_nodup Sh2 _ _ Hl2) as Hnd. by apply NoDup_cons in Hnd as [Hnd _]. }
          apply (upath_elem Sh2 _ _ _ Hl2), tc_rtc, CS in Hal as HD.
          apply rtc_inv_r in HD as [->|(q & HD & Hq)]; [done|].
          assert (q = p) as -> by (by eapply (PE_parent_unique Sh)).
          apply rtc_inv_r in HD as [->|(q & HD & Hq')]; [done|].
          apply (upath_elem Sh _ _ _ Hl'). eapply tc_rtc_l; [exact HD|by apply tc_once]. }
      destruct (IH t2 cur (parent t p) l2) as (t' & H3 & W3 & C3 & H4); try done.
      * by apply CD.
      * apply (csim_anchor delim t t2 x W W2 C2) in Hax. apply Hax.
      * intros a Hca Hax'. apply (csim_anchor delim t t2 a W W2 C2). apply Hbelow; by apply CS.
      * destruct (parent t p) as [[q e']|] eqn:E.
        -- assert (PE (edges t2) q cur) as Hq by (apply P2, (parent_PE t p q Sh); eauto).
           apply (parent_PE t2 cur q Sh2) in Hq as [e2 ->]. done.
        -- rewrite (proj2 (parent_None t2 cur Sh2)); [done|]. intros q Hq. apply P2 in Hq.
           by apply (proj1 (parent_None t p Sh) E q).
      * lia.
      * exists t'. split_and!; try done. by apply (csim_trans delim t t2 t').
    + assert (Hap : anchor t p).
      { split; [eauto|]. intros d Hd'. assert (cur = d) as <- by (by apply Hd'). by apply HS in Hd'. }
      destruct (IH t p (parent t p) l') as (t' & H3 & W3 & C3 & H4); try done.
      * by eapply rtc_l.
      * intros a Hpa Hax. destruct (Dom_comparable Sh cur a x Hd Hax) as [H|H]; [by apply Hbelow|].
        apply rtc_inv_r in H as [->|(q & H & Hq)]; [done|].
        assert (q = p) as -> by (by eapply (PE_parent_unique Sh)).
        by rewrite (Dom_antisym Sh a p H Hpa).
      * lia.
      * by exists t'.
Qed.

Lemma collapse_loop delim l : forall t,
  WF t -> (forall x, x ∈ l -> exists tm, nodes t !! x = Some (T tm)) ->
  exists t', foldM (fun t n => collapse_climb (climb_fuel t) t delim n (climber_new n t)) l t = Ret t' /\
    WF t' /\ csim delim t t' /\ (forall x a, x ∈ l -> Dom (edges t') a x -> anchor t' a).
Proof.
  induction l as [|x l IH]; intros t W Hl.
  - exists t. split_and!; [done|done|apply csim_refl|set_solver].
  - cbn [foldM]. destruct (Hl x) as [tm Htm]; [set_solver|]. pose proof W as [G Sh Tm Nt Nd].
    destruct (upath_exists Sh x ltac:(eauto)) as [lx Hlx].
    pose proof (upath_length Sh x lx ltac:(eauto) Hlx) as Hlen.
    destruct (collapse_climb_spec delim x (climb_fuel t) t x (climber_new x t) lx) as (t1 & -> & W1 & C1 & H1); try done.
    + by eapply terminal_anchor.
    + intros a Ha1 Ha2. rewrite <- (Dom_antisym Sh x a Ha1 Ha2). by eapply terminal_anchor.
    + unfold climb_fuel, node_count. lia.
    + cbn [mbind outcome_bind]. destruct (IH t1 W1) as (t' & -> & W' & C' & H').
      * intros y Hy. destruct (Hl y) as [tmy Hty]; [set_solver|].
        assert (Hay : anchor t y) by (by eapply terminal_anchor).
        destruct (csim_skel delim t t1 y _ W W1 C1 Hay Hty) as (w' & Hw' & Hs).
        destruct w' as [|tm']; [discriminate Hs|]. by exists tm'.
      * exists t'. split_and!; [done|done|by apply (csim_trans delim t t1 t')|].
        intros y a [->|Hy]%elem_of_cons Ha; [|by apply (H' y)].
        pose proof C' as (_ & _ & _ & _ & CS').
        apply (csim_anchor delim t1 t' a W1 W' C'). by apply H1, CS'.
Qed.

Lemma collapse_ok delim t :
  WF t ->
  exists t', collapse_unary_chains t delim = Ret (t', Ok ()) /\ WF t' /\ csim delim t t' /\
    (forall a, is_Some (nodes t' !! a) -> anchor t' a) /\
    (forall n w, nodes t' !! n = Some w <-> desc delim t n w).
Proof.
  intros W. pose proof W as [G Sh Tm Nt Nd]. unfold collapse_unary_chains.
  destruct (collapse_loop delim (terminals t) t W) as (t' & -> & W' & C & H).
  { intros x Hx. by apply elem_of_terminals. }
  exists t'. split; [done|]. split; [done|]. split; [done|].
  assert (HA : forall a, is_Some (nodes t' !! a) -> anchor t' a).
  { intros a Ha. destruct (dominates_terminal (wf_shape _ W') a Ha) as (m & tm & Hd & Hm).
    apply (H m a); [|done]. apply elem_of_terminals; [done|].
    assert (Hma : anchor t m) by (apply (csim_anchor delim t t' m W W' C); by eapply terminal_anchor).
    pose proof (proj1 Hma) as [w Hw]. destruct (csim_skel delim t t' m w W W' C Hma Hw) as (w' & Hw' & Hs).
    rewrite Hm in Hw'. injection Hw' as <-. destruct w as [|tm']; [discriminate Hs|]. by exists tm'. }
  split; [done|]. intros n w. destruct C as (_ & HC & _). rewrite <- HC. split.
  - intros Hw. exists w, [], []. split_and!; [done|apply HA; eauto| |constructor|done].
    constructor. intros p Hp. destruct (HA p) as [_ Hap]; [|by apply Hap in Hp].
    apply (sh_live _ _ _ (wf_shape _ W') p n), Hp.
  - intros (w' & l & ls & Hw & _ & Hl & Hls & ->).
    destruct Hl as [? _|? p l Hp _].
    + inversion Hls. subst. done.
    + destruct (HA p) as [_ Hap]; [|by apply Hap in Hp]. apply (sh_live _ _ _ (wf_shape _ W') p n), Hp.
Qed.
