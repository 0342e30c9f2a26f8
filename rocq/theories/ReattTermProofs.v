(** Re-attaching all matched terminals ([reattach_terminals]). *)
From Coq Require Import Lia.
From Verif Require Import ModModel TreeSpec BaseProofs ShapeProofs GraphProofs DfsProofs ResetProofs ShapeOps TreeOps SortProofs UnaryProofs RemoveProofs ReattachProofs FilterProofs.

(** A tree that is well-formed except that the spans of its nonterminals are described by [Y]. *)
Record WS (t : tree) (Y : nat -> nat -> Prop) : Prop := {
  ws_graph : graph_ok (tr_graph t);
  ws_shape : shape_ok (nodes t) (edges t) (tr_root t);
  ws_terms : terms_ok (nodes t) (tr_nterm t);
  ws_spans : spans_as (nodes t) Y;
  ws_ndisc : tr_ndisc t = ndisc_of (nodes t)
}.
Lemma WF_WS t : WF t -> WS t (yields (nodes t) (edges t)).
Proof. intros [G Sh Tm Nt Nd]. by constructor. Qed.

Lemma remove_node_ws t Y n nt :
  WS t Y -> nodes t !! n = Some (NT nt) -> n <> tr_root t ->
  exists t', remove_node t n = Ret (t', Ok (NT nt)) /\ WS t' Y /\
    nodes t' = delete n (nodes t) /\ tr_nterm t' = tr_nterm t /\ tr_root t' = tr_root t /\
    (forall a b, a <> n -> b <> n -> Dom (edges t') a b <-> Dom (edges t) a b) /\
    (forall p, PE (edges t) p n -> forall a b, PE (edges t') a b <->
        (a = p /\ PE (edges t) n b) \/ (a <> n /\ b <> n /\ PE (edges t) a b)).
Proof.
  intros [G Sh Tm Nt Nd] Hn Hr.
  destruct (live_parent Sh n ltac:(eauto) Hr) as [p Hp].
  destruct (remove_nonterminal_gen t n nt p G Sh Tm Nd Hn Hp)
    as (t' & HR & G' & Sh' & Tm' & Nd' & HN & Hk & Hrt & HPE & HE).
  exists t'. split_and!; try done.
  - unfold remove_node. by rewrite (node_at_Some _ _ _ Hn).
  - constructor; try done. intros m ntm Hm. rewrite HN in Hm. apply lookup_delete_Some in Hm as [_ Hm]. by apply Nt.
  - intros a b Ha Hb. by eapply splice_Dom.
  - intros q Hq. by rewrite (PE_parent_unique Sh q p n Hq Hp).
Qed.

(** Nodes strictly above [y] that dominate no other terminal. *)
Definition solo (t : tree) (y n : nat) : Prop :=
  n <> y /\ Dom (edges t) n y /\
  forall z tm, nodes t !! z = Some (T tm) -> Dom (edges t) n z -> z = y.

Lemma only_child_solo t Y p y tm : 
  WS t Y -> nodes t !! y = Some (T tm) -> PE (edges t) p y -> (forall c, PE (edges t) p c -> c = y) -> solo t y p.
Proof.
  intros [G Sh Tm Nt Nd] Hy Hp Ho. split_and!.
  - intros ->. by apply (PE_irrefl Sh) in Hp.
  - by apply rtc_once.
  - intros z tz Hz HD. apply rtc_inv in HD as [->|(c & Hc & HD)].
    + by apply (sh_leaf _ _ _ Sh z tz) in Hp.
    + rewrite (Ho c Hc) in HD. by eapply (term_Dom Sh).
Qed.

Lemma dissolve_chain_ok fuel t Y a y tm z tz p e :
  WS t Y -> size (nodes t) <= fuel ->
  nodes t !! y = Some (T tm) -> nodes t !! z = Some (T tz) -> z <> y -> Dom (edges t) a z ->
  PE (edges t) p y ->
  exists t', dissolve_chain fuel t a y (Some (p, e)) = Ret t' /\ WS t' Y /\
    tr_nterm t' = tr_nterm t /\ tr_root t' = tr_root t /\
    (forall n w, nodes t' !! n = Some w <-> nodes t !! n = Some w /\ ~ solo t y n) /\
    (forall u v, is_Some (nodes t' !! u) -> is_Some (nodes t' !! v) ->
        Dom (edges t') u v <-> Dom (edges t) u v) /\
    (exists p s, PE (edges t') p y /\ PE (edges t') p s /\ s <> y).
Proof.
  revert t p e. induction fuel as [|fuel IH]; intros t p e W Hf Hy Hz Hzy Haz Hp.
  { assert (nodes t = ∅) as E by (apply map_size_empty_inv; lia). rewrite E in Hy. done. }
  pose proof W as [G Sh Tm Nt Nd]. cbn [dissolve_chain].
  destruct (Nat.eqb_spec (length (siblings t y)) 0) as [Es|Es].
  - assert (Ho : forall c, PE (edges t) p c -> c = y).
    { intros c Hc. eapply (proj1 (siblings_nil t y Sh)); [by apply nil_length_inv|exact Hp|done]. }
    pose proof (only_child_solo t Y p y tm W Hy Hp Ho) as Hsolo.
    cbn [climber_next].
    assert (Hpr : p <> tr_root t).
    { intros ->. apply Hzy. eapply Hsolo; [exact Hz|]. apply (sh_reach _ _ _ Sh). eauto. }
    assert (Hpa : p <> a).
    { intros ->. apply Hzy. by eapply Hsolo. }
    rewrite (proj2 (Nat.eqb_neq _ _) Hpr), (proj2 (Nat.eqb_neq _ _) Hpa). cbn [negb andb].
    destruct (PE_src_nt Sh p y Hp) as [ntp Hntp].
    destruct (live_parent Sh p ltac:(eauto) Hpr) as [pp Hpp].
    destruct (remove_node_ws t Y p ntp W Hntp Hpr) as (t1 & -> & W1 & N1 & K1 & R1 & D1 & P1).
    cbn [mbind outcome_bind unwrap_ok].
    destruct (proj1 (parent_PE t p pp Sh) Hpp) as [e' ->].
    assert (Hyp : y <> p) by (intros ->; congruence).
    assert (Hzp : z <> p) by (intros ->; congruence).
    destruct (IH t1 pp e') as (t' & HR & W' & K' & R' & N' & D' & E'); try done.
    + rewrite N1. rewrite map_size_delete, Hntp. simpl. lia.
    + by rewrite N1, lookup_delete_ne.
    + by rewrite N1, lookup_delete_ne.
    + by apply D1.
    + apply (P1 pp Hpp). by left.
    + exists t'. split_and!; try done; try congruence.
      * intros n w. rewrite N', N1, lookup_delete_Some. split.
        -- intros [[Hn1 Hn2] Hs]. split; [done|]. intros (S1 & S2 & S3). apply Hs. split_and!; [done|by apply D1|].
           intros x tx Hx HD. rewrite N1 in Hx. apply lookup_delete_Some in Hx as [Hx1 Hx2].
           apply (S3 x tx Hx2). by apply D1.
        -- intros [Hn Hs]. assert (Hnp : p <> n) by (intros ->; done). split; [done|].
           intros (S1 & S2 & S3). apply Hs. split_and!; [done|by apply D1|].
           intros x tx Hx HD. assert (x <> p) by (intros ->; congruence).
           apply (S3 x tx); [by rewrite N1, lookup_delete_ne|by apply D1].
      * assert (Hlive : forall u, is_Some (nodes t' !! u) -> is_Some (nodes t1 !! u) /\ u <> p).
        { intros u [w Hu]. apply N' in Hu as [Hu _]. split; [eauto|]. intros ->. rewrite N1, lookup_delete in Hu. done. }
        intros u v Hu Hv. rewrite D' by done. apply D1; by apply Hlive.
  - exists t. split_and!; try done.
    + intros n w. split; [|tauto]. intros Hn. split; [done|]. intros (S1 & S2 & S3).
      destruct (siblings t y) as [|[s es] l] eqn:E; [done|].
      assert (Hin : (s, es) ∈ siblings t y) by (rewrite E; set_solver).
      apply elem_of_siblings in Hin as (Hne & q & Hq & Hc); [|done].
      assert (Hs : PE (edges t) q s) by (apply children_PE; eauto).
      destruct (dominates_terminal Sh s) as (x & tx & HDx & Hx); [by apply (sh_live _ _ _ Sh q s)|].
      destruct (Dom_step_r Sh n q y S2 Hq) as [->|Hnq]; [done|].
      assert (x = y) as ->.
      { apply (S3 x tx Hx). etrans; [exact Hnq|]. by eapply rtc_l. }
      apply Hne. by apply (sibling_disjoint Sh q s y y).
    + destruct (siblings t y) as [|[s es] l] eqn:E; [done|].
      assert (Hin : (s, es) ∈ siblings t y) by (rewrite E; set_solver).
      apply elem_of_siblings in Hin as (Hne & q & Hq & Hc); [|done].
      exists q, s. split_and!; try done. apply children_PE; eauto.
Qed.

Local Arguments reattach_climb : simpl never.
Local Arguments reattach_merge : simpl never.

(** Moving one terminal to an arbitrary nonterminal, while spans may be too large elsewhere. *)
Lemma reattach_primary_ws t Y np ntp r0 tm k :
  WS t Y -> r0 ∈ edges t -> is_primary (e_w r0) = true ->
  nodes t !! np = Some (NT ntp) ->
  nodes t !! e_tgt r0 = Some (T tm) -> t_span tm = span_of k ->
  (forall n nt i, nodes t !! n = Some (NT nt) -> yields (nodes t) (edges t) n i -> Y n i) ->
  (forall n nt, nodes t !! n = Some (NT nt) -> Y n k -> Dom (edges t) n (e_tgt r0)) ->
  (exists s, PE (edges t) (e_src r0) s /\ s <> e_tgt r0) ->
  let Y1 := fun n i => Y n i /\ ~ (Dom (edges t) np n /\ Dom (edges t) n (e_src r0) /\ np <> e_src r0 /\ i = k) in
  exists t' e', reattach_primary t np (e_id r0) = Ret (t', Ok (e', e_w r0)) /\
    WS t' (fun n i => Y1 n i \/ (Dom (edges t) n np /\ i = k)) /\
    eq_strip_nt (nodes t') (nodes t) /\
    (forall r, r ∈ edges t' <-> r = mk_e e' np (e_tgt r0) (Primary None) \/ (r ∈ edges t /\ r <> r0)) /\
    tr_root t' = tr_root t /\ tr_nterm t' = tr_nterm t.
Proof.
  intros [G Sh Tm Nt Nd] Hr0 Pr0 Hnp Hc Hk HYs HYk Hsib Y1.
  set (p := e_src r0) in *. set (c := e_tgt r0) in *.
  assert (Hpc : PE (edges t) p c) by (by exists r0).
  destruct (sh_live _ _ _ Sh p c Hpc) as [[wp Hwp] _].
  assert (Hcyc : ~ Dom (edges t) c np).
  { intros H. apply (term_Dom Sh c tm) in H; [|done]. congruence. }
  assert (Hleft : p = np \/ (exists s, PE (edges t) p s /\ s <> c)) by (by right).
  unfold reattach_primary. rewrite (proj2 (find_edge_Some _ _ r0 G) (conj Hr0 eq_refl)). simpl.
  rewrite (node_at_Some _ _ _ Hnp). simpl. fold p. fold c.
  assert (Hguard : (Nat.eqb (length (siblings t c)) 0 && negb (Nat.eqb p np))%bool = false).
  { destruct Hsib as (s & Hs & Hsc).
    destruct (siblings t c) as [|x l] eqn:E; [|done]. exfalso. apply Hsc.
    by apply (proj1 (siblings_nil t c Sh) E p s). }
  rewrite Hguard. clear Hguard. unfold climber_new.
  destruct (upath_exists Sh p ltac:(eauto)) as [lp Hlp].
  assert (Hfuel : length lp <= climb_fuel t).
  { pose proof (upath_length Sh p lp ltac:(eauto) Hlp). unfold climb_fuel, node_count. lia. }
  (* first phase *)
  set (C := span_iter (node_span (T tm))).
  assert (HC : forall i, i ∈ C <-> i = k).
  { intros i. unfold C. cbn [node_span]. rewrite Hk, elem_of_span_iter. apply covers_singleton. }
  assert (HDpc : Dom (edges t) p c) by (by apply rtc_once).
  assert (Hkc : forall n nt, nodes t !! n = Some (NT nt) -> Y n k <-> Dom (edges t) n c).
  { intros n nt Hn. split; [by apply (HYk n nt)|]. intros HD. apply (HYs n nt); [done|]. exists c. split; [done|].
    by exists tm. }
  assert (Hph1 : exists N1, reattach_climb (climb_fuel t) t np c (parent t p) [p] = Ret (respan t N1) /\
            eq_strip_nt N1 (nodes t) /\ spans_as N1 Y1).
  { destruct (decide (np ∈ lp)) as [Hin|Hin].
    - assert (Hnpp : Dom (edges t) np p /\ np <> p).
      { apply (tc_Dom _ _ _ _ _ Sh). by apply (upath_elem Sh p lp np Hlp). }
      apply elem_of_list_split in Hin as (l1 & l2 & ->).
      destruct (upath_split _ _ _ _ _ _ _ Sh Hlp) as (Hl2 & Hnl1 & Hpath).
      rewrite (reattach_climb_hit _ _ _ _ (T tm) p l1 l2); try done. fold C.
      change ([p] ++ l1 ++ [np]) with (p :: l1 ++ [np]).
      assert (Hnts : forall n, n ∈ p :: l1 ++ [np] -> exists nt, nodes t !! n = Some (NT nt)).
      { intros n [H1 H2]%Hpath. assert (Hl : is_Some (nodes t !! n)).
        { apply (Dom_live_r Sh np n); eauto. }
        destruct Hl as [[nt|tmn] Hn]; [by exists nt|]. exfalso.
        assert (n = p) as ->. { symmetry. by eapply (term_Dom Sh). }
        by apply (sh_leaf _ _ _ Sh p tmn c). }
      destruct (remove_coverage_fold C (p :: l1 ++ [np]) t (nodes t) Y)
        as (N1 & HF & HE & HS); try done.
      + pose proof (upath_nodup Sh _ _ Hlp) as Hnd. apply NoDup_cons in Hnd as [Hnd1 Hnd2].
        rewrite cons_middle, app_assoc in Hnd2. apply NoDup_app in Hnd2 as (Hnd2 & _ & _).
        constructor; [|done]. set_solver.
      + intros n i Hnl Hi%HC. destruct (Hnts n Hnl) as [nt Hn]. apply Hpath in Hnl as [H1 H2].
        rewrite Hi. apply (Hkc n nt Hn). by etrans.
      + intros n Hnl. destruct (Hnts n Hnl) as [nt Hn]. apply Hpath in Hnl as [H1 H2].
        destruct Hsib as (s & Hs & Hsc).
        destruct (sh_live _ _ _ Sh p s Hs) as [_ Hls].
        destruct (dominates_terminal Sh s Hls) as (x & tx & HDx & Hx).
        destruct (to_pos _ _ Tm x tx Hx) as (i & Hi & _). exists i. split.
        * apply (HYs n nt i Hn). exists x. split; [|by exists tx]. etrans; [exact H2|]. eapply rtc_l; [exact Hs|exact HDx].
        * rewrite HC. intros ->. assert (x = c) as ->.
          { apply (to_inj _ _ Tm x c k); [by exists tx|by exists tm]. }
          apply Hsc. by apply (sibling_disjoint Sh p s c c).
      + exists N1. rewrite HF. split_and!; try done. eapply spans_as_ext; [exact HS|].
        intros n nt i Hn. unfold Y1. cbv beta. rewrite Hpath, HC. destruct Hnpp. tauto.
    - rewrite (reattach_climb_miss _ t np c p lp); try done. exists (nodes t). rewrite respan_id by done.
      split_and!; try done. eapply spans_as_ext; [exact Nt|]. intros n nt i Hn. unfold Y1.
      split; [|tauto]. intros H. split; [done|].
      intros (H3 & H4 & H5 & _). apply Hin, (upath_elem Sh p lp np Hlp), (tc_Dom _ _ _ _ _ Sh).
      split; [|done]. etrans; done. }
  destruct Hph1 as (N1 & -> & E1 & S1). simpl.
  (* second phase *)
  assert (G1 : graph_ok (set_nodes (tr_graph t) N1)).
  { apply set_nodes_ok; [done|]. by apply (fmap_eq_dom strip_nt). }
  destruct (remove_edge_spec (set_nodes (tr_graph t) N1) r0 G1 Hr0) as (g2 & HR & G2 & N2 & Ed2 & El2).
  rewrite HR. simpl in N2, Ed2, El2. simpl.
  assert (HN1 : forall n, is_Some (N1 !! n) <-> is_Some (nodes t !! n)).
  { intros n. rewrite <- !elem_of_dom. by rewrite (fmap_eq_dom strip_nt _ _ E1). }
  destruct (add_edge_spec g2 np c (Primary None) G2) as (g3 & e' & -> & G3 & N3 & Ed3 & _).
  { rewrite N2. apply HN1. eauto. } { rewrite N2. apply HN1. eauto. }
  simpl. rewrite N2 in N3. rewrite Ed2 in Ed3.
  assert (Hes : forall r, r ∈ g_edges g3 <-> r = mk_e e' np c (Primary None) \/ (r ∈ edges t /\ r <> r0)).
  { intros r. rewrite Ed3, elem_of_cons, <- Ed2, El2. done. }
  unfold node_at. simpl. rewrite N3.
  assert (Hwc' : N1 !! c = Some (T tm)) by (by apply (eq_strip_nt_T _ _ _ _ E1)).
  rewrite Hwc'. simpl. rewrite Hk.
  assert (Ttrue : is_primary (Primary (None : option str)) = true) by done.
  assert (Sh2 : shape_ok (nodes t) (g_edges g3) (tr_root t)).
  { eapply (move_shape (l := Primary None) Sh Hr0 Pr0 eq_refl eq_refl Ttrue Hnp Hcyc Hleft). exact Hes. }
  assert (HD : forall a b, Dom (g_edges g3) a b <->
    (~ Dom (edges t) c b /\ Dom (edges t) a b) \/
    (Dom (edges t) c b /\ ((Dom (edges t) c a /\ Dom (edges t) a b) \/ (~ Dom (edges t) c a /\ Dom (edges t) a np)))).
  { intros a b. eapply (move_Dom (l := Primary None) Sh Hr0 Pr0 eq_refl eq_refl Ttrue Hnp Hcyc Hleft). exact Hes. }
  set (t3 := set_graph (respan t N1) g3).
  assert (Sh3 : shape_ok (nodes t3) (edges t3) (tr_root t3)).
  { simpl. rewrite N3. eapply shape_ok_strip; [|exact Sh2]. symmetry. by apply strip_of_strip_nt. }
  destruct (upath_exists Sh3 c ltac:(simpl; rewrite N3; eauto)) as [lc Hlc].
  assert (Hlcin : forall x, x ∈ lc <-> Dom (edges t) x np).
  { intros x. rewrite (upath_elem Sh3 c lc x Hlc), (tc_Dom _ _ _ _ _ Sh3). simpl. rewrite HD. split.
    - intros [[[H _]|[_ [[H1 H2]|[_ H]]]] Hne]; [|by exfalso; apply Hne, (Dom_antisym Sh)|done].
      exfalso. by apply H.
    - intros H. split.
      + right. split; [done|]. right. split; [|done]. intros H'. apply Hcyc. by eauto 2 using Dom_trans.
      + intros ->. done. }
  destruct (reattach_merge_spec (climb_fuel t3) t3 N1 Y1 (span_of k) c lc) as (N4 & HM & E4 & S4); try done.
  { pose proof (upath_length Sh3 c lc ltac:(simpl; rewrite N3; eauto) Hlc).
    unfold climb_fuel, node_count. lia. }
  { apply span_ok_singleton. }
  { intros a b Ha%Hlcin Hb Hsub i Hi. apply covers_singleton in Hi as ->. simpl in Hb.
    assert (Hba : Dom (edges t) b a).
    { apply HD in Hb as [[_ ?]|[H' _]]; [done|]. exfalso. apply Hcyc. by eauto 2 using Dom_trans. }
    assert (Hac : Y1 a k) by (apply Hsub; by apply covers_singleton). destruct Hac as [Hac1 Hac2].
    assert (Hnta : forall x, Dom (edges t) x np -> exists nt, nodes t !! x = Some (NT nt)).
    { intros x Hx. destruct (Dom_live_l Sh x np ltac:(eauto) Hx) as [[nt|tx] Hx']; [by exists nt|].
      apply (term_Dom Sh x tx) in Hx as ->; [|done]. congruence. }
    destruct (Hnta a Ha) as [nta Ha']. destruct (Hnta b ltac:(by eauto 2 using Dom_trans)) as [ntb Hb'].
    split.
    - apply (Hkc b ntb Hb'). etrans; [exact Hba|]. by apply (Hkc a nta Ha').
    - intros (H1 & H2 & H3 & _). apply Hac2.
      assert (b = np) as -> by (apply (Dom_antisym Sh); [by eauto 2 using Dom_trans|done]).
      assert (a = np) as -> by (by apply (Dom_antisym Sh)). done. }
  rewrite HM. simpl. eexists _, e'. split; [reflexivity|].
  assert (E4' : eq_strip_nt N4 (nodes t)) by (by rewrite E4).
  simpl. split_and!; try done.
  constructor; simpl; try done.
  - apply set_nodes_ok; [done|]. rewrite N3. by apply (fmap_eq_dom strip_nt).
  - eapply shape_ok_strip; [|exact Sh2]. symmetry. by apply strip_of_strip_nt.
  - eapply terms_ok_strip_nt; [|exact Tm]. by symmetry.
  - eapply spans_as_ext; [exact S4|]. intros n nt i Hn. cbv beta. by rewrite Hlcin, covers_singleton.
Qed.

(** ** The loop *)

(** The nodes of [t0] that survive once the terminals [M] are re-attached to [a]. *)
Definition kept (t0 : tree) (a : nat) (M : list nat) (n : nat) : Prop :=
  (exists tm, nodes t0 !! n = Some (T tm)) \/ Dom (edges t0) n a \/
  exists y tm, nodes t0 !! y = Some (T tm) /\ y ∉ M /\ Dom (edges t0) n y.

Record RInv (t0 : tree) (a : nat) (M : list nat) (t : tree) : Prop := {
  ri_ws : exists Y, WS t Y /\
    (forall n nt i, nodes t !! n = Some (NT nt) -> yields (nodes t) (edges t) n i -> Y n i) /\
    (forall n nt m i, nodes t !! n = Some (NT nt) -> term_pos (nodes t) m i -> m ∉ M -> Y n i -> Dom (edges t) n m);
  ri_M : forall x, x ∈ M -> exists tm, nodes t0 !! x = Some (T tm);
  ri_nterm : tr_nterm t = tr_nterm t0;
  ri_root : tr_root t = tr_root t0;
  ri_sub : forall n w, nodes t !! n = Some w -> exists w0, nodes t0 !! n = Some w0 /\ strip_nt w = strip_nt w0;
  ri_kept : forall n, is_Some (nodes t !! n) <-> is_Some (nodes t0 !! n) /\ kept t0 a M n;
  ri_dom : forall u v, is_Some (nodes t !! u) -> is_Some (nodes t !! v) ->
    Dom (edges t) u v <-> (v ∉ M /\ Dom (edges t0) u v) \/ (v ∈ M /\ (u = v \/ Dom (edges t0) u a))
}.

Lemma RInv_init t a : WF t -> RInv t a [] t.
Proof.
  intros W. pose proof W as [G Sh Tm Nt Nd]. constructor; try done.
  - exists (yields (nodes t) (edges t)). split; [by apply WF_WS|]. split; [done|].
    intros n nt m i Hn Hm _ (m' & HD & Hm'). by rewrite (to_inj _ _ Tm m m' i Hm Hm').
  - set_solver.
  - intros n w Hn. by exists w.
  - intros n. split; [|tauto]. intros H. split; [done|].
    destruct (dominates_terminal Sh n H) as (y & tm & HD & Hy). right. right. exists y, tm. split_and!; try done.
    set_solver.
  - intros u v _ _. set_solver.
Qed.

Lemma strip_nt_T w tm : strip_nt w = T tm -> w = T tm.
Proof. by destruct w. Qed.
Lemma RInv_term t0 a M t n tm :
  RInv t0 a M t -> nodes t !! n = Some (T tm) <-> nodes t0 !! n = Some (T tm).
Proof.
  intros R. split; intros H.
  - destruct (ri_sub _ _ _ _ R n _ H) as (w & Hw & E). rewrite Hw. f_equal. by apply strip_nt_T.
  - destruct (proj2 (ri_kept _ _ _ _ R n)) as [w Hw].
    { split; [eauto|]. left. eauto. }
    destruct (ri_sub _ _ _ _ R n _ Hw) as (w' & Hw' & E). rewrite H in Hw'. injection Hw' as <-.
    rewrite Hw. f_equal. by apply strip_nt_T.
Qed.

Lemma list_em {A} (P : A -> Prop) (l : list A) :
  (forall x, x ∈ l -> P x \/ ~ P x) -> (exists x, x ∈ l /\ P x) \/ (forall x, x ∈ l -> ~ P x).
Proof.
  induction l as [|x l IH]; intros H; [right; set_solver|].
  destruct (H x ltac:(set_solver)) as [Hx|Hx]; [left; exists x; set_solver|].
  destruct IH as [(y & Hy & Py)|IH]; [intros; apply H; set_solver|left; exists y; set_solver|right].
  intros y [->|Hy]%elem_of_cons; [done|by apply IH].
Qed.

(** A node that does not dominate [y] alone dominates another terminal. *)
Lemma not_solo t Y y n nt :
  WS t Y -> nodes t !! n = Some (NT nt) -> n <> y -> Dom (edges t) n y -> ~ solo t y n ->
  exists z tz, nodes t !! z = Some (T tz) /\ Dom (edges t) n z /\ z <> y.
Proof.
  intros [G Sh Tm Nt Nd] Hn Hny HD Hs.
  destruct (list_em (fun z => Dom (edges t) n z /\ z <> y) (terminals t)) as [(z & Hz & Hz')|H].
  - intros z _. destruct (decide (z = y)); [right; tauto|].
    destruct (Dom_em _ _ _ n z Sh); [by left|right; tauto].
  - apply elem_of_terminals in Hz as [tz Hz]; [|done]. exists z, tz. tauto.
  - exfalso. apply Hs. split_and!; try done. intros z tz Hz HDz.
    destruct (decide (z = y)); [done|]. exfalso. apply (H z); [|done]. apply elem_of_terminals; eauto.
Qed.

Lemma RInv_step t0 a nta M f t y tm z tz :
  WF t0 -> nodes t0 !! a = Some (NT nta) ->
  RInv t0 a M t -> f t y = true ->
  nodes t0 !! y = Some (T tm) -> y ∉ M ->
  nodes t0 !! z = Some (T tz) -> z <> y -> Dom (edges t) a z ->
  exists t', reattach_terminals_step a f t y = Ret t' /\ RInv t0 a (y :: M) t' /\
    PE (edges t') a y /\
    (forall v, Dom (edges t) a v -> is_Some (nodes t !! v) -> is_Some (nodes t' !! v) -> Dom (edges t') a v).
Proof.
  intros W0 Ha0 R Hf Hy0 HyM Hz0 Hzy Haz. pose proof W0 as [G0 Sh0 Tm0 Nt0 Nd0].
  destruct (ri_ws _ _ _ _ R) as (Y & W & HY1 & HY2).
  assert (Hy : nodes t !! y = Some (T tm)) by (by apply (RInv_term _ _ _ _ _ _ R)).
  assert (Hz : nodes t !! z = Some (T tz)) by (by apply (RInv_term _ _ _ _ _ _ R)).
  pose proof W as [G Sh Tm Nt Nd].
  assert (HaL : is_Some (nodes t !! a)).
  { apply (ri_kept _ _ _ _ R). split; [eauto|]. right. by left. }
  assert (Hant : exists nta, nodes t !! a = Some (NT nta)).
  { destruct HaL as [[n1|t1] Hw]; [eauto|]. apply (RInv_term _ _ _ _ _ _ R) in Hw. congruence. }
  destruct Hant as [nta1 Ha].
  assert (HMT : a ∉ M).
  { intros [tma Ha']%(ri_M _ _ _ _ R). congruence. }
  unfold reattach_terminals_step. rewrite Hf.
  assert (Hyr : y <> tr_root t).
  { intros E. pose proof (sh_reach _ _ _ Sh z ltac:(eauto)) as H. rewrite <- E in H.
    apply Hzy. by eapply (term_Dom Sh). }
  destruct (live_parent Sh y ltac:(eauto) Hyr) as [p0 Hp0].
  destruct (proj1 (parent_PE t y p0 Sh) Hp0) as [e0 He0]. unfold climber_new. rewrite He0.
  destruct (dissolve_chain_ok (climb_fuel t) t Y a y tm z tz p0 e0)
    as (t1 & -> & W1 & K1 & R1 & N1 & D1 & (p & s & Hp & Hs & Hsy)); try done.
  { unfold climb_fuel, node_count. lia. }
  cbn [mbind outcome_bind]. pose proof W1 as [G1 Sh1 Tm1 Nt1 Nd1].
  assert (Hlive1 : forall n, is_Some (nodes t1 !! n) <-> is_Some (nodes t !! n) /\ ~ solo t y n).
  { intros n. split.
    - intros [w Hw]. apply N1 in Hw as [Hw Hs']. split; eauto.
    - intros [[w Hw] Hs']. exists w. by apply N1. }
  assert (Hdom : forall u v, is_Some (nodes t !! u) -> is_Some (nodes t !! v) ->  v ∉ M -> Dom (edges t) u v <-> Dom (edges t0) u v).
  { intros u v Hu Hv HvM. rewrite (ri_dom _ _ _ _ R) by done. tauto. }
  assert (Hkept1 : forall n, is_Some (nodes t1 !! n) <-> is_Some (nodes t0 !! n) /\ kept t0 a (y :: M) n).
  { intros n. rewrite Hlive1. split.
    - intros [Hl Hns]. pose proof (proj1 (ri_kept _ _ _ _ R n) Hl) as [Hl0 Hk]. split; [done|].
      destruct Hk as [Hk|[Hk|(x & tx & Hx & HxM & HD)]]; [by left|by right; left|].
      destruct (decide (x = y)) as [->|Hxy].
      2:{ right. right. exists x, tx. split_and!; try done. set_solver. }
      destruct Hl as [[ntn|tn] Hn].
      2:{ left. exists tn. by apply (RInv_term _ _ _ _ _ _ R). }
      assert (Hny : n <> y) by (intros ->; congruence).
      destruct (not_solo t Y y n ntn W Hn Hny) as (x & tx' & Hx' & HDx & Hxy); [|done|].
      { apply Hdom; eauto. }
      pose proof (proj1 (ri_dom _ _ _ _ R n x ltac:(eauto) ltac:(eauto)) HDx) as [[HxM' HDx0]|[HxM' [->|HDa]]].
      + right. right. exists x, tx'. split_and!; [by apply (RInv_term _ _ _ _ _ _ R)|set_solver|done].
      + congruence.
      + right. by left.
    - intros [Hl0 Hk]. assert (Hl : is_Some (nodes t !! n)).
      { apply (ri_kept _ _ _ _ R). split; [done|].
        destruct Hk as [Hk|[Hk|(x & tx & Hx & HxM & HD)]]; [by left|by right; left|].
        right. right. exists x, tx. set_solver. }
      split; [done|]. intros (S1 & S2 & S3). destruct Hk as [[tn Hk]|[Hk|(x & tx & Hx & HxM & HD)]].
      + apply (RInv_term _ _ _ _ _ _ R) in Hk. apply S1. symmetry. by eapply (term_Dom Sh).
      + apply Hzy. apply (S3 z tz Hz). etrans; [|exact Haz]. by apply Hdom.
      + assert (Hxt : nodes t !! x = Some (T tx)) by (by apply (RInv_term _ _ _ _ _ _ R)).
        assert (x = y) as ->; [|set_solver]. apply (S3 x tx Hxt). apply Hdom; eauto. set_solver. }
  assert (Hterm1 : forall x tx, nodes t1 !! x = Some (T tx) <-> nodes t0 !! x = Some (T tx)).
  { intros x tx. rewrite N1, (RInv_term _ _ _ _ _ _ R). split; [tauto|]. intros Hx. split; [done|].
    apply (proj1 (Hlive1 x)). apply Hkept1. split; [eauto|]. left. eauto. }
  assert (Hy1 : nodes t1 !! y = Some (T tm)) by (by apply Hterm1).
  assert (Ha1 : nodes t1 !! a = Some (NT nta1)).
  { destruct (proj2 (Hkept1 a)) as [w Hw]; [split; [eauto|right; by left]|].
    pose proof (proj1 (N1 a w) Hw) as [Hw' _]. congruence. }
  destruct (to_pos _ _ Tm y tm Hy) as (k & Hk & _).
  assert (Hyk : term_pos (nodes t) y k) by (by exists tm).
  (* the move *)
  destruct Hp as (r0 & Hr0 & Pr0 & Sr0 & Tr0).
  assert (Hpar : parent t1 y = Some (p, e_id r0)) by (apply parent_Some; [done|]; by exists r0).
  rewrite Hpar. cbn [unwrap mbind outcome_bind].
  assert (Hrn : reattach_node t1 a (e_id r0) = reattach_primary t1 a (e_id r0)).
  { unfold reattach_node. rewrite (proj2 (contains_node_true (tr_graph t1) a) (ex_intro _ _ Ha1)). simpl.
    rewrite (proj2 (find_edge_Some _ _ r0 G1) (conj Hr0 eq_refl)). simpl.
    destruct (Nat.eqb_spec (e_tgt r0) a) as [E|]; [congruence|]. by destruct (e_w r0). }
  rewrite Hrn.
  assert (Hyle : forall n i, is_Some (nodes t1 !! n) -> yields (nodes t1) (edges t1) n i -> yields (nodes t) (edges t) n i).
  { intros n i Hn (m & HD & (tx & Hx & Hi)). exists m. split; [apply D1; eauto|].
    exists tx. split; [|done]. by apply N1. }
  destruct (reattach_primary_ws t1 Y a nta1 r0 tm k) as (t2 & e' & HR2 & W2 & E2 & Hes2 & Rt2 & Kt2); try done.
  { by rewrite Tr0. }
  { intros n nt i Hn Hyi. apply (HY1 n nt); [by apply N1 in Hn as [Hn _]|]. apply Hyle; eauto. }
  { intros n nt Hn HYk. rewrite Tr0. apply D1; [eauto..|]. apply N1 in Hn as [Hn _].
    by apply (HY2 n nt y k). }
  { exists s. rewrite Sr0, Tr0. done. }
  rewrite HR2. cbn [mbind outcome_bind unwrap_ok]. exists t2. split; [done|].
  rewrite Tr0 in Hes2.
  (* dominance after the move *)
  assert (Hcyc : ~ Dom (edges t1) y a).
  { intros H. apply (term_Dom Sh1 y tm) in H; [|done]. congruence. }
  assert (Hleft : p = a \/ (exists s, PE (edges t1) p s /\ s <> y)) by (right; by exists s).
  assert (Ttrue : is_primary (Primary (None : option str)) = true) by done.
  assert (HD2 : forall u v, Dom (edges t2) u v <->
     (v <> y /\ Dom (edges t1) u v) \/ (v = y /\ (u = y \/ Dom (edges t1) u a))).
  { intros u v. rewrite (move_Dom (l := Primary None) Sh1 Hr0 Pr0 Sr0 Tr0 Ttrue Ha1 Hcyc Hleft Hes2).
    assert (Hyv : forall x, Dom (edges t1) y x <-> x = y).
    { intros x. split; [|by intros ->]. by apply (term_Dom Sh1 y tm). }
    rewrite !Hyv. destruct (decide (v = y)) as [->|]; [|tauto].
    assert (Dom (edges t1) y y) by done. destruct (decide (u = y)) as [->|]; tauto. }
  assert (Hlive2 : forall n, is_Some (nodes t2 !! n) <-> is_Some (nodes t1 !! n)).
  { intros n. rewrite <- !elem_of_dom. by rewrite (fmap_eq_dom strip_nt _ _ E2). }
  assert (Hterm2 : forall x tx, nodes t2 !! x = Some (T tx) <-> nodes t1 !! x = Some (T tx)).
  { intros x tx. by apply eq_strip_nt_T. }
  assert (Hnt2 : forall n nt, nodes t2 !! n = Some (NT nt) -> exists nt1, nodes t1 !! n = Some (NT nt1) /\ nodes t !! n = Some (NT nt1)).
  { intros n nt Hn. destruct (proj1 (Hlive2 n) ltac:(eauto)) as [[nt1|tn] Hn1].
    - exists nt1. split; [done|]. by apply N1 in Hn1 as [? _].
    - apply Hterm2 in Hn1. congruence. }
  split_and!.
  - constructor.
    + eexists. split; [exact W2|]. rewrite Sr0. split.
      * intros n nt i Hn (m & HD & (tx & Hx & Hi)). destruct (Hnt2 n nt Hn) as (nt1 & Hn1 & Hnt).
        apply Hterm2 in Hx. apply HD2 in HD as [[Hmy HD]|[-> [->|HD]]].
        -- left. split.
           ++ apply (HY1 n nt1 i Hnt). apply Hyle; [eauto|]. exists m. split; [done|]. by exists tx.
           ++ intros (_ & _ & _ & ->). apply Hmy. apply (to_inj _ _ Tm1 m y k); [by exists tx|by exists tm].
        -- congruence.
        -- right. split; [done|]. rewrite Hy1 in Hx. injection Hx as <-. rewrite Hk in Hi.
           injection Hi as Hi. done.
      * intros n nt m i Hn (tx & Hx & Hi) HmM Hyi. destruct (Hnt2 n nt Hn) as (nt1 & Hn1 & Hnt).
        apply Hterm2 in Hx. pose proof (proj1 (N1 m (T tx)) Hx) as [Hxt _].
        assert (Hmy : m <> y) by set_solver. apply HD2. left. split; [done|].
        apply D1; [eauto..|]. apply (HY2 n nt1 m i); [done|by exists tx|set_solver|].
        destruct Hyi as [[Hyi _]|[_ ->]]; [done|]. exfalso. apply Hmy.
        apply (to_inj _ _ Tm1 m y k); [by exists tx|by exists tm].
    + intros x [->|Hx]%elem_of_cons; [eauto|]. by apply (ri_M _ _ _ _ R).
    + rewrite Kt2, K1. apply R.
    + rewrite Rt2, R1. apply R.
    + intros n w Hn. destruct (fmap_eq_lookup strip_nt _ _ _ _ E2 Hn) as (w1 & Hw1 & Es1).
      apply N1 in Hw1 as [Hw1 _]. destruct (ri_sub _ _ _ _ R n w1 Hw1) as (w0 & Hw0 & Es0).
      exists w0. split; [done|]. congruence.
    + intros n. by rewrite Hlive2.
    + intros u v Hu%Hlive2 Hv%Hlive2. rewrite HD2.
      pose proof (proj1 (proj1 (Hlive1 u) Hu)) as Hut. pose proof (proj1 (proj1 (Hlive1 v) Hv)) as Hvt.
      rewrite (D1 u v) by done. rewrite (D1 u a) by eauto. rewrite (Hdom u a) by eauto.
      rewrite (ri_dom _ _ _ _ R u v) by done.
      rewrite not_elem_of_cons, elem_of_cons. destruct (decide (v = y)) as [->|]; tauto.
  - eexists. split; [apply Hes2; by left|]. done.
  - intros v HDv Hv Hv2%Hlive2. apply HD2. destruct (decide (v = y)) as [->|Hvy].
    + right. split; [done|]. by right.
    + left. split; [done|]. apply D1; eauto.
Qed.

Lemma RInv_loop t0 a nta f l M t z1 z2 u1 u2 :
  WF t0 -> nodes t0 !! a = Some (NT nta) -> node_based f ->
  RInv t0 a M t -> NoDup l -> (forall x, x ∈ l -> x ∉ M) ->
  (forall x, x ∈ l -> exists tm, nodes t0 !! x = Some (T tm)) ->
  nodes t0 !! z1 = Some (T u1) -> nodes t0 !! z2 = Some (T u2) -> z1 <> z2 ->
  Dom (edges t) a z1 -> Dom (edges t) a z2 ->
  exists t' M', foldM (reattach_terminals_step a f) l t = Ret t' /\ RInv t0 a M' t' /\
    forall x, x ∈ M' <-> x ∈ M \/ (x ∈ l /\ f t0 x = true).
Proof.
  intros W0 Ha Hf. revert M t. induction l as [|y l IH]; intros M t R Hnd Hdis Hl Hz1 Hz2 Hne D1 D2.
  { exists t, M. split_and!; try done. set_solver. }
  apply NoDup_cons in Hnd as [Hyl Hnd]. cbn [foldM].
  destruct (Hl y ltac:(set_solver)) as [tm Hy].
  assert (Hfy : f t y = f t0 y).
  { apply Hf. rewrite Hy. by apply (RInv_term _ _ _ _ _ _ R). }
  destruct (f t0 y) eqn:E.
  - assert (exists z tz, nodes t0 !! z = Some (T tz) /\ z <> y /\ Dom (edges t) a z) as (z & tz & Hz & Hzy & HDz).
    { destruct (decide (z1 = y)) as [->|]; [exists z2, u2|exists z1, u1]; done. }
    destruct (RInv_step t0 a nta M f t y tm z tz) as (t1 & -> & R1 & _ & HD); try done.
    { by apply Hdis; set_solver. }
    cbn [mbind outcome_bind].
    assert (Hlv : forall z u, nodes t0 !! z = Some (T u) -> Dom (edges t) a z -> Dom (edges t1) a z).
    { intros x u Hx HDx. apply HD; [done| |].
      - exists (T u). by apply (RInv_term _ _ _ _ _ _ R).
      - exists (T u). by apply (RInv_term _ _ _ _ _ _ R1). }
    destruct (IH (y :: M) t1) as (t' & M' & HF & R' & HM'); try done; try (by eauto).
    { set_solver. } { set_solver. }
    exists t', M'. split_and!; try done. intros x. rewrite HM', !elem_of_cons.
    split; intros H; naive_solver.
  - assert (Estep : reattach_terminals_step a f t y = Ret t) by (unfold reattach_terminals_step; by rewrite Hfy).
    rewrite Estep. cbn [mbind outcome_bind].
    destruct (IH M t) as (t' & M' & HF & R' & HM'); try done.
    { set_solver. } { set_solver. }
    exists t', M'. split_and!; try done. intros x. rewrite HM', elem_of_cons.
    split; [tauto|]. intros [?|[[->|?] ?]]; [tauto|congruence|tauto].
Qed.

(** ** Divergence *)
Lemma dissolve_chain_diverges fuel t Y a nta y tm c :
  WS t Y -> nodes t !! a = Some (NT nta) -> nodes t !! y = Some (T tm) -> solo t y a ->
  (forall q e, c = Some (q, e) -> Dom (edges t) q y /\ exists nt, nodes t !! q = Some (NT nt)) ->
  dissolve_chain fuel t a y c = Diverge.
Proof.
  revert t c. induction fuel as [|fuel IH]; intros t c W Ha Hy Hs Hc; pose proof W as [G Sh Tm Nt Nd];
    cbn [dissolve_chain].
  all: assert (Hsib : siblings t y = []).
  1,3: apply siblings_nil; [done|]; intros p x Hp Hx; destruct Hs as (S1 & S2 & S3);
       destruct (Dom_step_r Sh a p y S2 Hp) as [->|Hap]; [done|];
       destruct (dominates_terminal Sh x) as (z & tz & HDz & Hz); [by apply (sh_live _ _ _ Sh p x)|];
       assert (z = y) as -> by (apply (S3 z tz Hz); etrans; [exact Hap|]; eapply rtc_l; [exact Hx|exact HDz]);
       by apply (sibling_disjoint Sh p x y y).
  all: rewrite Hsib; cbn [length Nat.eqb]; try reflexivity.
  destruct c as [[q e]|]; cbn [climber_next]; [|by apply IH].
  destruct (Hc q e eq_refl) as [HDq [ntq Hq]].
  assert (Hnext : forall q' e', parent t q = Some (q', e') ->
            PE (edges t) q' q /\ Dom (edges t) q' y /\ exists nt, nodes t !! q' = Some (NT nt)).
  { intros q' e' E. assert (Hqq : PE (edges t) q' q) by (apply parent_PE; eauto).
    split_and!; [done|by eapply rtc_l|]. by apply (PE_src_nt Sh q' q). }
  destruct (Nat.eqb_spec q (tr_root t)) as [Er|Er]; cbn [negb andb].
  { apply IH; try done. intros q' e' E. by apply (Hnext q' e'). }
  destruct (Nat.eqb_spec q a) as [Ea|Ea]; cbn [negb andb].
  { apply IH; try done. intros q' e' E. by apply (Hnext q' e'). }
  destruct (remove_node_ws t Y q ntq W Hq Er) as (t1 & -> & W1 & N1 & K1 & R1 & D1 & P1).
  cbn [mbind outcome_bind unwrap_ok].
  assert (Hyq : y <> q) by (intros ->; congruence).
  apply (IH t1); try done.
  - by rewrite N1, lookup_delete_ne.
  - by rewrite N1, lookup_delete_ne.
  - destruct Hs as (S1 & S2 & S3). split_and!; [done|by apply D1|]. intros z tz Hz HD.
    rewrite N1 in Hz. apply lookup_delete_Some in Hz as [Hzq Hz]. apply (S3 z tz Hz). by apply D1.
  - intros q' e' E. destruct (Hnext q' e' E) as (HP & HDq' & [nt Hnt]).
    assert (q' <> q) by (intros ->; by apply (PE_irrefl Sh) in HP).
    split; [by apply D1|]. exists nt. by rewrite N1, lookup_delete_ne.
Qed.

Lemma reattach_terminals_skip a f l t :
  (forall x, x ∈ l -> f t x = false) -> foldM (reattach_terminals_step a f) l t = Ret t.
Proof.
  induction l as [|x l IH]; intros H; [done|]. cbn [foldM].
  assert (Estep : reattach_terminals_step a f t x = Ret t) by (unfold reattach_terminals_step; rewrite (H x); [done|set_solver]).
  rewrite Estep. cbn [mbind outcome_bind]. apply IH. set_solver.
Qed.
