(** The editing operations of [Tree] on well-formed trees. *)
From Coq Require Import Lia.
From Verif Require Import TreeSpec BaseProofs ShapeProofs GraphProofs DfsProofs ResetProofs ShapeOps.

Lemma node_at_Some t n w : nodes t !! n = Some w -> node_at t n = Ret w.
Proof. intros H. unfold node_at. by rewrite H. Qed.
Lemma put_node_nodes t n w : nodes (put_node t n w) = <[n := w]> (nodes t).
Proof. done. Qed.

(** ** The root *)
Lemma root_yields t i : WF t -> yields (nodes t) (edges t) (tr_root t) i <-> i < tr_nterm t.
Proof.
  intros [G Sh Tm Nt Nd]. split.
  - intros (m & _ & tm & Hm & Hs). destruct (to_pos _ _ Tm m tm Hm) as (j & Hj & Hlt).
    rewrite Hs in Hj. by injection Hj as ->.
  - intros Hi. destruct (to_surj _ _ Tm i Hi) as [n Hn]. exists n. split; [|done].
    apply (sh_reach _ _ _ Sh). destruct Hn as (tm & -> & _). eauto.
Qed.
Lemma nterm_pos t : WF t -> 0 < tr_nterm t.
Proof.
  intros W. pose proof W as [G Sh Tm Nt Nd].
  destruct (dominates_terminal Sh _ (sh_root _ _ _ Sh)) as (m & tm & _ & Hm).
  destruct (to_pos _ _ Tm m tm Hm) as (i & _ & Hi). lia.
Qed.
Lemma root_span t w : WF t -> nodes t !! tr_root t = Some w -> node_span w = mk_span 0 (tr_nterm t) None.
Proof.
  intros W Hw. pose proof W as [G Sh Tm Nt Nd].
  destruct (node_span_ok _ _ _ _ _ _ Sh Tm Nt Hw) as [Hok Hc].
  pose proof (nterm_pos t W). apply span_ext; [done|split; [simpl; lia|done]|].
  intros i. rewrite Hc, root_yields by done. rewrite covers_iff. simpl. set_solver by lia.
Qed.

(** ** Changing one nonterminal's span together with the counter *)
Lemma span_continuity_skips s : span_continuity s = Discontinuous <-> sp_skips s <> None.
Proof. unfold span_continuity. by destruct (sp_skips s). Qed.
Lemma projectivity_change_spec t n nt s :
  nodes t !! n = Some (NT nt) -> tr_ndisc t = ndisc_of (nodes t) ->
  projectivity_change (put_node t n (NT (nt_set_span nt s))) (span_continuity (nt_span nt))
                      (span_continuity s)
  = Ret (mk_tree (set_node (tr_graph t) n (NT (nt_set_span nt s))) (tr_nterm t) (tr_root t)
                 (ndisc_of (<[n := NT (nt_set_span nt s)]> (nodes t)))).
Proof.
  intros Hn Hd. pose proof (ndisc_of_update _ n _ (NT (nt_set_span nt s)) Hn) as H.
  rewrite !b2n_gappy in H. simpl in H. unfold span_continuity, projectivity_change.
  destruct (sp_skips (nt_span nt)), (sp_skips s); unfold put_node, set_graph, set_ndisc; simpl.
  - do 2 f_equal. lia.
  - rewrite sub_chk_ok by lia. simpl. do 2 f_equal. lia.
  - do 2 f_equal. lia.
  - do 2 f_equal. lia.
Qed.

(** ** Yield and positions under a new leaf *)
Lemma term_pos_insert N n tm m i :
  N !! n = None ->
  term_pos (<[n := T tm]> N) m i <-> (m = n /\ t_span tm = span_of i) \/ term_pos N m i.
Proof.
  intros Hn. unfold term_pos. split.
  - intros (t & Ht & Hs). destruct (decide (m = n)) as [->|Hne].
    + rewrite lookup_insert in Ht. left. split; [done|congruence].
    + rewrite lookup_insert_ne in Ht by done. right. by exists t.
  - intros [[-> Hs]|(t & Ht & Hs)].
    + exists tm. by rewrite lookup_insert.
    + exists t. split; [|done]. rewrite lookup_insert_ne; [done|]. intros ->. congruence.
Qed.

(** ** [push_terminal] *)
Lemma push_terminal_err t form pos tm :
  nodes t !! tr_root t = Some (T tm) -> push_terminal t form pos = Ret (t, Err).
Proof. intros H. unfold push_terminal. by rewrite (node_at_Some _ _ _ H). Qed.

Lemma push_terminal_ok t form pos nt :
  WF t -> nodes t !! tr_root t = Some (NT nt) ->
  exists t' n e, push_terminal t form pos = Ret (t', Ok n) /\ WF t' /\
    nodes t !! n = None /\
    nodes t' = <[tr_root t := NT (mk_nt (nt_label nt) (nt_feats nt) (mk_span 0 (tr_nterm t + 1) None))]>
                 (<[n := T (mk_term form pos None None (span_of (tr_nterm t)))]> (nodes t)) /\
    edges t' = mk_e e (tr_root t) n (Primary None) :: edges t /\
    tr_root t' = tr_root t /\ tr_nterm t' = tr_nterm t + 1 /\ tr_ndisc t' = tr_ndisc t.
Proof.
  intros W Hroot. pose proof W as [G Sh Tm Nt Nd]. set (k := tr_nterm t) in *.
  pose proof (root_span t _ W Hroot) as Hrs. simpl in Hrs. fold k in Hrs.
  unfold push_terminal. rewrite (node_at_Some _ _ _ Hroot). simpl.
  destruct (add_node (tr_graph t) (T (term_new form pos (tr_nterm t)))) as [g1 n] eqn:E1.
  destruct (add_node_spec _ _ _ _ G E1) as (G1 & Hn & N1 & Ed1).
  assert (Hnr : tr_root t <> n) by (intros E; rewrite E in Hroot; congruence).
  destruct (add_edge_spec g1 (tr_root t) n (Primary None) G1) as (g2 & e & -> & G2 & N2 & Ed2 & He).
  { rewrite N1, lookup_insert_ne by done. eauto. }
  { rewrite N1, lookup_insert. eauto. }
  simpl. unfold node_at. simpl. rewrite N2, N1, lookup_insert_ne by done. rewrite Hroot. simpl.
  unfold span_extend. rewrite Hrs. simpl. unfold put_node, set_graph, set_node. simpl.
  rewrite N2, N1.
  eexists _, n, e. split; [reflexivity|].
  split_and!; simpl; try done.
  2:{ by rewrite Ed2, Ed1. }
  assert (Hes : forall r, r ∈ g_edges g2 <-> r = mk_e e (tr_root t) n (Primary None) \/ r ∈ edges t).
  { intros r. rewrite Ed2, Ed1. apply elem_of_cons. }
  set (tm := term_new form pos k).
  set (N' := <[n := T tm]> (nodes t)).
  assert (Sh' : shape_ok N' (g_edges g2) (tr_root t)) by (by eapply (add_leaf_shape Sh)).
  assert (Hr' : N' !! tr_root t = Some (NT nt)) by (unfold N'; by rewrite lookup_insert_ne).
  set (s' := mk_span 0 (k + 1) None).
  change (<[n := T (term_new form pos (tr_nterm t))]> (nodes t)) with N'.
  change (NT {| nt_label := nt_label nt; nt_feats := nt_feats nt; nt_span := s' |})
    with (NT (nt_set_span nt s')).
  assert (Estr : eq_strip_nt (<[tr_root t := NT (nt_set_span nt s')]> N') N')
    by (by apply eq_strip_nt_insert).
  assert (Htp : forall m i, term_pos N' m i <-> (m = n /\ i = k) \/ term_pos (nodes t) m i).
  { intros m i. unfold N'. rewrite term_pos_insert by done. unfold tm, term_new. simpl.
    split; (intros [[-> H]|H]; [left|by right]); split; try done; [by injection H|by subst]. }
  assert (Tm' : terms_ok N' (k + 1)).
  { constructor.
    - intros m tm' Hm. destruct (decide (m = n)) as [->|Hne].
      + unfold N' in Hm. rewrite lookup_insert in Hm. injection Hm as <-. exists k. split; [done|lia].
      + unfold N' in Hm. rewrite lookup_insert_ne in Hm by done.
        destruct (to_pos _ _ Tm m tm' Hm) as (i & Hi & Hlt). exists i. split; [done|lia].
    - intros m1 m2 i H1%Htp H2%Htp.
      assert (Hbd : forall m, term_pos (nodes t) m i -> i < k).
      { intros m (tm' & Hm & Hs). destruct (to_pos _ _ Tm m tm' Hm) as (j & Hj & Hlt).
        rewrite Hs in Hj. by injection Hj as ->. }
      destruct H1 as [[-> ->]|H1], H2 as [[-> E]|H2]; try done.
      + specialize (Hbd _ H2). lia.
      + specialize (Hbd _ H1). lia.
      + by apply (to_inj _ _ Tm m1 m2 i).
    - intros i Hi. destruct (decide (i = k)) as [->|Hne].
      + exists n. apply Htp. by left.
      + destruct (to_surj _ _ Tm i ltac:(unfold k in *; lia)) as [m Hm]. exists m. apply Htp. by right. }
  constructor; simpl.
  - apply (set_nodes_ok g2); [done|]. rewrite N2, N1. apply dom_insert_live.
    exists (NT nt). exact Hr'.
  - eapply shape_ok_strip; [|exact Sh']. symmetry. by apply strip_of_strip_nt.
  - eapply terms_ok_strip_nt; [|exact Tm']. by symmetry.
  - intros m ntm Hm.
    assert (Hy : forall j, yields (<[tr_root t := NT (nt_set_span nt s')]> N') (g_edges g2) m j
                      <-> yields N' (g_edges g2) m j) by (intros; by apply yields_strip_nt).
    assert (Hy2 : forall j, m <> n -> yields N' (g_edges g2) m j <->
                      yields (nodes t) (edges t) m j \/ (Dom (edges t) m (tr_root t) /\ j = k)).
    { intros j Hm'. unfold yields. split.
      - intros (x & Hx & [[-> ->]|Hp]%Htp).
        + right. split; [|done]. by apply (add_leaf_Dom_new Sh Hn Hroot Hes) in Hx as [->|Hx].
        + left. exists x. split; [|done]. eapply (add_leaf_Dom_old Sh Hn Hroot Hes); [|done].
          intros ->. destruct Hp as (? & Hp & _). congruence.
      - intros [(x & Hx & Hp)|[Hd ->]].
        + exists x. split; [by eapply (add_leaf_Dom_sub Hn Hroot Hes)|]. apply Htp. by right.
        + exists n. split; [|apply Htp; by left].
          apply (add_leaf_Dom_new Sh Hn Hroot Hes). by right. }
    destruct (decide (m = tr_root t)) as [->|Hmr].
    + rewrite lookup_insert in Hm. injection Hm as <-. simpl.
      split; [split; simpl; [lia|done]|]. intros i.
      rewrite Hy, Hy2, root_yields by done. rewrite covers_iff. fold k. simpl.
      split; [intros (_ & H & _)|].
      * destruct (decide (i = k)) as [->|]; [right; done|left; lia].
      * intros [H|[_ ->]]; (split_and!; [lia|lia|set_solver]).
    + rewrite lookup_insert_ne in Hm by done. unfold N' in Hm.
      destruct (decide (m = n)) as [->|Hmn]; [by rewrite lookup_insert in Hm|].
      rewrite lookup_insert_ne in Hm by done.
      destruct (Nt m ntm Hm) as [H1 H2]. split; [done|]. intros i. rewrite H2, Hy, Hy2 by done.
      split; [by left|]. intros [H|[H _]]; [done|].
      exfalso. by apply Hmr, (Dom_root Sh).
  - rewrite Nd. pose proof (ndisc_of_update N' _ _ (NT (nt_set_span nt s')) Hr') as H.
    pose proof (ndisc_of_insert (nodes t) n (T tm) Hn) as H'.
    rewrite !b2n_gappy in H. rewrite b2n_gappy in H'. simpl in H, H'.
    rewrite Hrs in H. simpl in H. fold N' in H'. lia.
Qed.
