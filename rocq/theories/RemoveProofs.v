(** Removing terminals. *)
From Coq Require Import Lia.
From Verif Require Import TreeSpec BaseProofs ShapeProofs GraphProofs DfsProofs ResetProofs ShapeOps TreeOps SortProofs UnaryProofs.

(** Recomputing accurate spans changes nothing. *)
Lemma nts_ok_unique N N' es :
  eq_strip_nt N' N -> nts_ok N es -> nts_ok N' es -> N' = N.
Proof.
  intros E H1 H2. apply map_eq. intros n. apply option_eq. intros w.
  assert (Hl := f_equal (lookup n) E). rewrite !lookup_fmap in Hl.
  assert (Hcase : forall nt nt', N !! n = Some (NT nt) -> N' !! n = Some (NT nt') ->
            strip_nt (NT nt') = strip_nt (NT nt) -> nt' = nt).
  { intros nt nt' Hn Hn' Hs. destruct (H1 n nt Hn) as [O1 C1], (H2 n nt' Hn') as [O2 C2].
    assert (nt_span nt' = nt_span nt).
    { apply span_ext; [done|done|]. intros i. rewrite C1, C2. by apply yields_strip_nt. }
    destruct nt, nt'. simpl in *. injection Hs as -> ->. by subst. }
  destruct (N' !! n) as [[nt'|tm']|] eqn:E', (N !! n) as [[nt|tm]|] eqn:E0; simpl in Hl; try done.
  - injection Hl as Hl1 Hl2. rewrite (Hcase nt nt' eq_refl eq_refl); [done|].
    simpl. unfold nt_set_span. by rewrite Hl1, Hl2.
  - injection Hl as ->. done.
Qed.
Lemma reset_nt_spans_id t : WF t -> reset_nt_spans t = Ret t.
Proof.
  intros [G Sh Tm Nt Nd]. destruct (reset_nt_spans_spec t (tr_nterm t) Sh Tm) as (N' & -> & E & Nt').
  rewrite (nts_ok_unique _ _ _ E Nt Nt'). rewrite <- Nd. by destruct t as [[]].
Qed.

Lemma compact_terminal_spans_id t :
  graph_ok (tr_graph t) -> terms_ok (nodes t) (tr_nterm t) ->
  compact_terminal_spans t = Ret (t, Ok ()).
Proof.
  intros G Tm. destruct (sentence_sorted t G Tm) as [Hlen Hs]. unfold compact_terminal_spans.
  set (l := sort_indices t (terminals t)) in *.
  assert (H : forall l2 l1, l1 ++ l2 = l -> set_spans_from t (length l1) l2 = Ret (t, Ok ())).
  { induction l2 as [|n l2 IH]; intros l1 El; [done|]. simpl.
    assert (Hn : l !! length l1 = Some n) by (rewrite <- El; by apply list_lookup_middle).
    apply Hs in Hn as (tm & Hn & Hsp). rewrite (node_at_Some _ _ _ Hn). simpl.
    replace (span_n_indices (span_of (length l1))) with 1
      by (unfold span_n_indices, span_of; simpl; lia). simpl.
    assert (put_node t n (T (t_set_span tm (span_of (length l1)))) = t) as ->.
    { rewrite <- Hsp. assert (t_set_span tm (t_span tm) = tm) as -> by (by destruct tm).
      unfold put_node, set_graph, set_node. rewrite insert_id by done. by destruct t as [[]]. }
    replace (S (length l1)) with (length (l1 ++ [n])) by (rewrite app_length; simpl; lia).
    apply IH. by rewrite <- app_assoc. }
  apply (H l []). done.
Qed.

Lemma elem_of_siblings t n c e :
  shape_ok (nodes t) (edges t) (tr_root t) ->
  (c, e) ∈ siblings t n <-> c <> n /\ exists p, PE (edges t) p n /\ (c, e) ∈ children t p.
Proof.
  intros Sh. unfold siblings. destruct (parent t n) as [[p e0]|] eqn:E.
  - assert (Hp : PE (edges t) p n) by (apply parent_PE; eauto).
    rewrite elem_of_list_filter. simpl. split.
    + intros [H1 H2]. split; [done|]. by exists p.
    + intros [H1 (p' & Hp' & H2)]. rewrite <- (PE_parent_unique Sh _ _ _ Hp' Hp). done.
  - split; [set_solver|]. intros [_ (p & Hp & _)]. exfalso.
    by apply (proj1 (parent_None t n Sh) E p).
Qed.
Lemma siblings_nil t n :
  shape_ok (nodes t) (edges t) (tr_root t) ->
  siblings t n = [] <-> forall p c, PE (edges t) p n -> PE (edges t) p c -> c = n.
Proof.
  intros Sh. split.
  - intros H p c Hp [e Hc]%children_PE. destruct (decide (c = n)) as [->|Hne]; [done|].
    assert (Hin : (c, e) ∈ siblings t n) by (apply elem_of_siblings; eauto). rewrite H in Hin. set_solver.
  - intros H. destruct (siblings t n) as [|[c e] l] eqn:E; [done|].
    assert (Hin : (c, e) ∈ siblings t n) by (rewrite E; set_solver).
    apply elem_of_siblings in Hin as (Hne & p & Hp & Hc); [|done]. exfalso. apply Hne, (H p c Hp).
    apply children_PE. eauto.
Qed.

(** What [remove_terminal] does.  The spans and positions of the remaining nodes stay as they are
    although the terminal is gone. *)
Lemma remove_terminal_err t n tm :
  WF t -> nodes t !! n = Some (T tm) ->
  (forall p c, PE (edges t) p n -> PE (edges t) p c -> c = n) ->
  remove_terminal t n = Ret (t, Err).
Proof.
  intros W Hn Hs. unfold remove_terminal. rewrite (node_at_Some _ _ _ Hn). simpl.
  rewrite (proj2 (siblings_nil t n (wf_shape _ W)) Hs). done.
Qed.
Lemma remove_terminal_ok t n tm p s :
  WF t -> nodes t !! n = Some (T tm) -> PE (edges t) p n -> PE (edges t) p s -> s <> n ->
  exists t', remove_terminal t n = Ret (t', Ok (T tm)) /\
    graph_ok (tr_graph t') /\ shape_ok (nodes t') (edges t') (tr_root t') /\
    nodes t' = delete n (nodes t) /\
    (forall r, r ∈ edges t' <-> r ∈ edges t /\ e_src r <> n /\ e_tgt r <> n) /\
    (forall a b, PE (edges t') a b <-> PE (edges t) a b /\ b <> n) /\
    tr_root t' = tr_root t /\ tr_nterm t' = tr_nterm t - 1 /\ tr_ndisc t' = tr_ndisc t.
Proof.
  intros W Hn Hp Hps Hsn. pose proof W as [G Sh Tm Nt Nd].
  unfold remove_terminal. rewrite (node_at_Some _ _ _ Hn). simpl.
  destruct (siblings t n) as [|x l] eqn:Esib.
  { exfalso. apply Hsn. by apply (proj1 (siblings_nil t n Sh) Esib p s). }
  rewrite compact_terminal_spans_id by done. simpl. rewrite reset_nt_spans_id by done. simpl.
  rewrite sub_chk_ok by (pose proof (nterm_pos t W); lia). simpl.
  destruct (remove_node_g_spec (tr_graph t) n (T tm) G Hn) as (g & -> & G' & N' & Ed'). simpl.
  assert (Hel : forall r, r ∈ g_edges g <-> r ∈ edges t /\ e_src r <> n /\ e_tgt r <> n).
  { intros r. rewrite Ed', elem_of_list_filter. tauto. }
  assert (HPE : forall a b, PE (g_edges g) a b <-> PE (edges t) a b /\ b <> n).
  { intros a b. split.
    - intros (r & (Hr & _ & Ht)%Hel & Hpr & <- & <-). split; [by exists r|done].
    - intros [(r & Hr & Hpr & <- & <-) Hb]. exists r. split; [|done]. apply Hel. split_and!; try done.
      intros E. apply (sh_leaf _ _ _ Sh n tm (e_tgt r) Hn). exists r. by rewrite <- E. }
  eexists. split; [reflexivity|]. simpl. split_and!; try done.
  rewrite N'. eapply (del_leaf_shape Sh Hn Hp Hps Hsn HPE).
  intros r1 r2 [H1 _]%Hel [H2 _]%Hel. by apply (sh_uniq _ _ _ Sh).
Qed.

(** [remove_terminal] never leaves a well-formed tree. *)
Lemma remove_terminal_not_wf t n tm t' :
  WF t -> nodes t !! n = Some (T tm) -> remove_terminal t n = Ret (t', Ok (T tm)) -> ~ WF t'.
Proof.
  intros W Hn HR W'. pose proof W as [G Sh Tm Nt Nd].
  destruct (decide (siblings t n = [])) as [E|E].
  - rewrite (remove_terminal_err t n tm) in HR; [done..|]. by apply siblings_nil.
  - destruct (siblings t n) as [|[s e] l] eqn:Es; [done|].
    assert (Hin : (s, e) ∈ siblings t n) by (rewrite Es; set_solver).
    apply elem_of_siblings in Hin as (Hne & p & Hp & Hc); [|done].
    destruct (remove_terminal_ok t n tm p s W Hn Hp) as (t'' & HR' & _ & _ & HN & _ & _ & Hr & Hk & _);
      [apply children_PE; eauto|done|].
    rewrite HR in HR'. injection HR' as <-.
    destruct (sh_root _ _ _ Sh) as [wr Hwr].
    assert (Hrn : tr_root t <> n) by (intros E'; rewrite <- E' in Hp; by apply (sh_root_top _ _ _ Sh) in Hp).
    pose proof (root_span t wr W Hwr) as H1.
    pose proof (root_span t' wr W') as H2. rewrite Hr, HN, lookup_delete_ne in H2 by done.
    specialize (H2 Hwr). rewrite H1 in H2. injection H2 as H2. pose proof (nterm_pos t W). lia.
Qed.
