(** Recomputing all nonterminal spans; invariance of the specification under span changes. *)
From Coq Require Import Lia.
From Verif Require Import TreeSpec BaseProofs ShapeProofs GraphProofs DfsProofs.

(** Node content without spans; without nonterminal spans. *)
Definition strip (w : node) : node := node_put_span w (span_of 0).
Definition strip_nt (w : node) : node :=
  match w with NT n => NT (nt_set_span n (span_of 0)) | T t => T t end.
Notation eq_strip N1 N2 := (strip <$> (N1 : gmap nat node) = strip <$> (N2 : gmap nat node)).
Notation eq_strip_nt N1 N2 := (strip_nt <$> (N1 : gmap nat node) = strip_nt <$> (N2 : gmap nat node)).

Lemma fmap_eq_lookup {A B} (f : A -> B) (N1 N2 : gmap nat A) n w :
  f <$> N1 = f <$> N2 -> N1 !! n = Some w -> exists w', N2 !! n = Some w' /\ f w' = f w.
Proof.
  intros E H. assert (H' : (f <$> N1) !! n = Some (f w)) by (by rewrite lookup_fmap, H).
  rewrite E, lookup_fmap in H'. apply fmap_Some in H' as (w' & H1 & H2). by exists w'.
Qed.
Lemma fmap_eq_is_Some {A B} (f : A -> B) (N1 N2 : gmap nat A) n :
  f <$> N1 = f <$> N2 -> is_Some (N1 !! n) <-> is_Some (N2 !! n).
Proof.
  intros E. split; intros [w Hw].
  - destruct (fmap_eq_lookup f N1 N2 n w E Hw) as (w' & -> & _). eauto.
  - destruct (fmap_eq_lookup f N2 N1 n w (eq_sym E) Hw) as (w' & -> & _). eauto.
Qed.
Lemma fmap_eq_dom {A B} (f : A -> B) (N1 N2 : gmap nat A) :
  f <$> N1 = f <$> N2 -> dom N1 = dom N2.
Proof. intros E. apply set_eq. intros n. rewrite !elem_of_dom. by apply (fmap_eq_is_Some f). Qed.
Lemma strip_of_strip_nt N1 N2 : eq_strip_nt N1 N2 -> eq_strip N1 N2.
Proof.
  intros E. assert (H : forall w, strip (strip_nt w) = strip w) by (by intros []).
  assert (G : forall N, strip <$> (strip_nt <$> N) = (strip <$> N : gmap nat node)).
  { intros N. rewrite <- map_fmap_compose. apply map_fmap_ext. intros i x _. apply H. }
  by rewrite <- (G N1), <- (G N2), E.
Qed.
Lemma strip_nt_T w tm : strip_nt w = T tm -> w = T tm.
Proof. by destruct w. Qed.
Lemma eq_strip_T N1 N2 n tm :
  eq_strip N1 N2 -> N1 !! n = Some (T tm) ->
  exists s, N2 !! n = Some (T (t_set_span tm s)).
Proof.
  intros E H. destruct (fmap_eq_lookup _ _ _ _ _ E H) as (w' & Hw & Hs).
  destruct w' as [|tm']; [done|]. exists (t_span tm'). rewrite Hw.
  destruct tm, tm'. unfold strip, t_set_span in Hs. simpl in Hs. unfold t_set_span. simpl.
  by inversion Hs.
Qed.
Lemma eq_strip_NT N1 N2 n nt :
  eq_strip N1 N2 -> N1 !! n = Some (NT nt) ->
  exists s, N2 !! n = Some (NT (nt_set_span nt s)).
Proof.
  intros E H. destruct (fmap_eq_lookup _ _ _ _ _ E H) as (w' & Hw & Hs).
  destruct w' as [nt'|]; [|done]. exists (nt_span nt'). rewrite Hw.
  destruct nt, nt'. unfold strip, nt_set_span in Hs. simpl in Hs. unfold nt_set_span. simpl.
  by inversion Hs.
Qed.
Lemma eq_strip_nt_T N1 N2 n tm :
  eq_strip_nt N1 N2 -> N1 !! n = Some (T tm) <-> N2 !! n = Some (T tm).
Proof.
  assert (G : forall N1 N2, eq_strip_nt N1 N2 -> N1 !! n = Some (T tm) -> N2 !! n = Some (T tm)).
  { intros M1 M2 E H. destruct (fmap_eq_lookup _ _ _ _ _ E H) as (w' & Hw & Hs).
    by rewrite Hw, (strip_nt_T w' tm). }
  intros E. split; apply G; done.
Qed.

(** ** Invariance of the specification *)
Lemma shape_ok_strip N1 N2 es root : eq_strip N1 N2 -> shape_ok N1 es root -> shape_ok N2 es root.
Proof.
  intros E [s1 s2 s3 s4 s5 s6 s7].
  assert (Hl : forall n, is_Some (N1 !! n) <-> is_Some (N2 !! n))
    by (intros; by apply (fmap_eq_is_Some strip)).
  constructor; try done.
  - by apply Hl.
  - intros p c H. rewrite <- !Hl. by apply s4.
  - intros n H. apply s5. by apply Hl.
  - intros n tm c H. destruct (eq_strip_T _ _ n tm (eq_sym E) H) as [s Hs]. by eapply s6.
  - intros n nt H. destruct (eq_strip_NT _ _ n nt (eq_sym E) H) as [s Hs]. by eapply s7.
Qed.
Lemma term_pos_strip_nt N1 N2 n i : eq_strip_nt N1 N2 -> term_pos N1 n i <-> term_pos N2 n i.
Proof.
  intros E. unfold term_pos. split; intros (tm & H & Hs); exists tm; (split; [|done]);
    by apply (eq_strip_nt_T _ _ n tm E).
Qed.
Lemma terms_ok_strip_nt N1 N2 k : eq_strip_nt N1 N2 -> terms_ok N1 k -> terms_ok N2 k.
Proof.
  intros E [t1 t2 t3]. constructor.
  - intros n tm H. apply (t1 n). by apply (eq_strip_nt_T _ _ _ _ E).
  - intros n m i H1 H2. apply (t2 n m i); by apply (term_pos_strip_nt _ _ _ _ E).
  - intros i Hi. destruct (t3 i Hi) as [n Hn]. exists n. by apply (term_pos_strip_nt _ _ _ _ E).
Qed.
Lemma yields_strip_nt N1 N2 es n i : eq_strip_nt N1 N2 -> yields N1 es n i <-> yields N2 es n i.
Proof.
  intros E. unfold yields. split; intros (m & H & Hs); exists m; (split; [done|]);
    by apply (term_pos_strip_nt _ _ _ _ E).
Qed.
Lemma eq_strip_nt_insert N n nt s :
  N !! n = Some (NT nt) -> eq_strip_nt (<[n := NT (nt_set_span nt s)]> N) N.
Proof.
  intros H. rewrite fmap_insert. simpl. apply insert_id. by rewrite lookup_fmap, H.
Qed.
Lemma eq_strip_insert N n w s :
  N !! n = Some w -> eq_strip (<[n := node_put_span w s]> N) N.
Proof.
  intros H. rewrite fmap_insert. apply insert_id. rewrite lookup_fmap, H. by destruct w.
Qed.

(** ** Counting nodes with gaps *)
Definition cnt (P : nat -> node -> Prop) `{!forall n w, Decision (P n w)} (N : gmap nat node) : nat :=
  size (filter (fun kv => P kv.1 kv.2) N).
Definition b2n (P : Prop) `{!Decision P} : nat := if decide P then 1 else 0.
Lemma b2n_iff (P Q : Prop) `{!Decision P} `{!Decision Q} : (P <-> Q) -> b2n P = b2n Q.
Proof. intros H. unfold b2n. destruct (decide P), (decide Q); tauto. Qed.

Lemma b2n_gappy w : b2n (gappy w) = match sp_skips (node_span w) with Some _ => 1 | None => 0 end.
Proof.
  unfold b2n. destruct (decide (gappy w)) as [D|D]; unfold gappy in D;
    destruct (sp_skips (node_span w)); try done. exfalso. by apply D.
Qed.
Lemma ndisc_of_insert N n w :
  N !! n = None -> ndisc_of (<[n := w]> N) = ndisc_of N + b2n (gappy w).
Proof.
  intros Hn. unfold ndisc_of, b2n. destruct (decide (gappy w)) as [H|H].
  - rewrite map_filter_insert_True by done. rewrite map_size_insert_None; [lia|].
    rewrite map_filter_lookup_None. by left.
  - rewrite map_filter_insert_False by done. rewrite delete_notin by done. lia.
Qed.
Lemma ndisc_of_delete N n w :
  N !! n = Some w -> ndisc_of N = ndisc_of (delete n N) + b2n (gappy w).
Proof.
  intros Hn. rewrite <- (ndisc_of_insert (delete n N) n w) by apply lookup_delete. by rewrite insert_delete.
Qed.
Lemma ndisc_of_update N n w w' :
  N !! n = Some w -> ndisc_of (<[n := w']> N) + b2n (gappy w) = ndisc_of N + b2n (gappy w').
Proof.
  intros Hn. rewrite <- insert_delete_insert.
  rewrite ndisc_of_insert by apply lookup_delete. rewrite (ndisc_of_delete N n w Hn). lia.
Qed.
Lemma ndisc_of_zero N : ndisc_of N = 0 <-> forall n w, N !! n = Some w -> ~ gappy w.
Proof.
  unfold ndisc_of. rewrite map_size_empty_iff, map_filter_empty_iff. unfold map_Forall. simpl. naive_solver.
Qed.
(** The count only depends on which nodes have gaps. *)
Lemma ndisc_of_ext N1 N2 :
  (forall n, (exists w, N1 !! n = Some w /\ gappy w) <-> (exists w, N2 !! n = Some w /\ gappy w)) ->
  ndisc_of N1 = ndisc_of N2.
Proof.
  intros H. unfold ndisc_of. rewrite <- !size_dom. f_equal. apply set_eq. intros n.
  rewrite !elem_of_dom.
  assert (G : forall N : gmap nat node, is_Some (filter (fun kv : nat * node => gappy kv.2) N !! n)
                 <-> exists w, N !! n = Some w /\ gappy w).
  { intros N. unfold is_Some. split.
    - intros (w & Hw). apply map_filter_lookup_Some in Hw. by exists w.
    - intros (w & Hw). exists w. by apply map_filter_lookup_Some. }
  by rewrite !G.
Qed.

(** Gaps among finished nodes. *)
Definition ndisc_in (F : gset nat) (N : gmap nat node) : nat :=
  size (filter (fun kv => gappy kv.2 /\ kv.1 ∈ F) N).
Lemma ndisc_in_empty N : ndisc_in ∅ N = 0.
Proof.
  unfold ndisc_in. apply map_size_empty_iff, map_filter_empty_iff.
  intros i x _ [_ H]. set_solver.
Qed.
Lemma ndisc_in_all F N : (forall n, is_Some (N !! n) -> n ∈ F) -> ndisc_in F N = ndisc_of N.
Proof.
  intros H. unfold ndisc_in, ndisc_of. f_equal. apply map_filter_ext.
  intros i x Hi. simpl. split; [tauto|]. intros Hg. split; [done|]. apply H. eauto.
Qed.
Lemma ndisc_in_step F N n w w' :
  N !! n = Some w -> n ∉ F ->
  ndisc_in ({[n]} ∪ F) (<[n := w']> N) = ndisc_in F N + b2n (gappy w').
Proof.
  intros Hn HF. unfold ndisc_in, b2n.
  assert (E : filter (fun kv : nat * node => gappy kv.2 /\ kv.1 ∈ F) N
              = filter (fun kv : nat * node => gappy kv.2 /\ kv.1 ∈ {[n]} ∪ F) (delete n N)).
  { apply map_eq. intros i. apply option_eq. intros x. rewrite !map_filter_lookup_Some. simpl.
    rewrite lookup_delete_Some. split.
    - intros (H1 & H2 & H3). split_and!; [by intros ->|done..|set_solver].
    - intros ((H1 & H2) & H3 & H4). split_and!; [done..|set_solver]. }
  rewrite E. rewrite <- insert_delete_insert. destruct (decide (gappy w')) as [H|H].
  - rewrite map_filter_insert_True by (simpl; split; [done|set_solver]).
    rewrite map_size_insert_None; [lia|]. rewrite map_filter_lookup_None. left. apply lookup_delete.
  - rewrite map_filter_insert_False by (simpl; tauto). rewrite delete_idemp. lia.
Qed.

(** ** [reset_nt_spans] *)
Section reset.
  Context (N : gmap nat node) (es : list erec) (root k : nat).
  Hypothesis (Sh : shape_ok N es root) (Tm : terms_ok N k).

  (** One step, on a tree whose finished nodes have accurate spans. *)
  Lemma reset_step t n (F : gset nat) :
    eq_strip_nt (nodes t) N -> edges t = es ->
    (forall m w, m ∈ F -> nodes t !! m = Some w ->
        span_ok (node_span w) /\ forall i, covers (node_span w) i <-> yields N es m i) ->
    is_Some (N !! n) -> n ∉ F -> (forall c, PE es n c -> c ∈ F) ->
    tr_ndisc t = ndisc_in F (nodes t) ->
    exists w, eq_strip_nt (<[n := w]> (nodes t)) N /\
      span_ok (node_span w) /\ (forall i, covers (node_span w) i <-> yields N es n i) /\
      reset_nt_span t n = Ret (mk_tree (set_node (tr_graph t) n w) (tr_nterm t) (tr_root t)
                                       (ndisc_in ({[n]} ∪ F) (<[n := w]> (nodes t)))).
  Proof.
    intros E Ee HF Hn HnF Hk Hd. unfold reset_nt_span, node_at.
    apply (fmap_eq_is_Some strip_nt (nodes t) N n E) in Hn as [w Hw].
    rewrite Hw. simpl. destruct w as [nt|tm].
    - assert (Hch : forall c, c ∈ children t n -> exists wc, nodes t !! c.1 = Some wc /\ c.1 ∈ F).
      { intros [c e] Hc. assert (Hpe : PE es n c) by (rewrite <- Ee; apply children_PE; eauto).
        destruct (sh_live _ _ _ Sh n c Hpe) as [_ Hlc].
        apply (fmap_eq_is_Some strip_nt (nodes t) N c E) in Hlc as [wc Hwc].
        exists wc. split; [done|]. by apply Hk. }
      rewrite (mapO_map _ (fun c => default [] ((fun w => span_iter (node_span w)) <$>
                                                  (nodes t !! c.1)))).
      2:{ intros c Hc. destruct (Hch c Hc) as (wc & Hwc & _). by rewrite Hwc. }
      simpl. set (l := concat _).
      assert (Hl : forall i, i ∈ l <-> yields N es n i).
      { intros i. unfold l. rewrite elem_of_list_In, in_concat.
        assert (Hn' : exists nt', N !! n = Some (NT nt')).
        { destruct (fmap_eq_lookup _ _ _ _ _ E Hw) as ([nt'|] & H & He); [by exists nt'|done]. }
        destruct Hn' as [nt' Hn']. rewrite (yields_children n nt' i Hn'). split.
        - intros (x & Hx & Hix). apply elem_of_list_In in Hx. apply elem_of_list_In in Hix.
          apply elem_of_list_fmap in Hx as ([c e] & -> & Hc).
          destruct (Hch _ Hc) as (wc & Hwc & HcF). simpl in *. rewrite Hwc in Hix. simpl in Hix.
          apply elem_of_span_iter in Hix. exists c. split; [rewrite <- Ee; apply children_PE; eauto|].
          by apply (HF c wc).
        - intros (c & Hc & Hy). rewrite <- Ee in Hc. apply children_PE in Hc as [e He].
          destruct (Hch _ He) as (wc & Hwc & HcF). simpl in *.
          exists (span_iter (node_span wc)). split; apply elem_of_list_In.
          + apply elem_of_list_fmap. exists (c, e). split; [by simpl; rewrite Hwc|done].
          + apply elem_of_span_iter. by apply (HF c wc). }
      clearbody l.
      assert (Hne : l <> []).
      { intros ->. assert (Hln : is_Some (N !! n)).
        { apply (fmap_eq_is_Some strip_nt (nodes t) N n E). eauto. }
        destruct (dominates_terminal Sh n Hln) as (m & tm & Hm & Htm).
        destruct (to_pos _ _ Tm m tm Htm) as (i & Hi & _).
        assert (Hin : i ∈ []) by (apply Hl; exists m; split; [done|by exists tm]).
        by apply elem_of_nil in Hin. }
      destruct (span_from_vec_spec l Hne) as (s & -> & Hok & Hcov). simpl.
      exists (NT (nt_set_span nt s)). split_and!.
      + rewrite <- E. by apply eq_strip_nt_insert.
      + done.
      + intros i. simpl. by rewrite Hcov, Hl.
      + rewrite (ndisc_in_step F _ n _ _ Hw HnF), <- Hd. unfold b2n.
        destruct (sp_skips s) eqn:Es; destruct (decide (gappy (NT (nt_set_span nt s)))) as [Hg|Hg];
          unfold gappy in Hg; simpl in Hg; rewrite Es in Hg; try done.
        * exfalso. by apply Hg.
        * unfold put_node, set_graph. simpl. by rewrite Nat.add_0_r.
    - exists (T tm).
      assert (HT : N !! n = Some (T tm)) by (by apply (eq_strip_nt_T _ _ n tm E)).
      destruct (to_pos _ _ Tm n tm HT) as (i & Hi & _).
      assert (Hid : <[n := T tm]> (nodes t) = nodes t) by (by apply insert_id).
      split_and!.
      + by rewrite Hid.
      + simpl. rewrite Hi. apply span_ok_singleton.
      + intros j. simpl. rewrite Hi, covers_singleton, (yields_term Sh n tm j HT), Hi.
        split; [by intros ->|]. by inversion 1.
      + rewrite (ndisc_in_step F _ n _ _ Hw HnF), <- Hd. unfold b2n.
        destruct (decide (gappy (T tm))) as [Hg|Hg].
        * exfalso. apply Hg. simpl. by rewrite Hi.
        * rewrite Nat.add_0_r. unfold set_node, set_nodes. rewrite Hid. by destruct t as [[]].
  Qed.

  Lemma reset_loop_spec fuel t d :
    eq_strip_nt (nodes t) N -> edges t = es ->
    dfs_inv N es root d ->
    (forall m w, m ∈ d_fin d -> nodes t !! m = Some w ->
        span_ok (node_span w) /\ forall i, covers (node_span w) i <-> yields N es m i) ->
    tr_ndisc t = ndisc_in (d_fin d) (nodes t) ->
    dfs_left N d < fuel ->
    exists N', reset_loop fuel t d
               = Ret (mk_tree (set_nodes (tr_graph t) N') (tr_nterm t) (tr_root t) (ndisc_of N')) /\
      eq_strip_nt N' N /\
      (forall m w, N' !! m = Some w ->
        span_ok (node_span w) /\ forall i, covers (node_span w) i <-> yields N es m i).
  Proof.
    revert t d. induction fuel as [|fuel IH]; intros t d E Ee I HF Hd Hfuel; [lia|]. cbn [reset_loop].
    assert (Sh' : shape_ok (nodes t) es root).
    { eapply shape_ok_strip; [|done]. symmetry. by apply strip_of_strip_nt. }
    assert (I' : dfs_inv (nodes t) es root d).
    { assert (Hl : forall n, is_Some (nodes t !! n) <-> is_Some (N !! n))
        by (intros; by apply (fmap_eq_is_Some strip_nt)).
      destruct I. constructor; try done; intros; rewrite Hl; eauto. }
    destruct (dfs_next_spec Sh' (dfs_fuel (tr_graph t) d) (tr_graph t) d Ee I')
      as [[-> Hall]|(n & d' & -> & I2 & Hn & HnF & HF' & Hk & _)].
    { by apply dfs_fuel_enough. }
    - simpl. exists (nodes t). split_and!.
      + rewrite <- (ndisc_in_all (d_fin d)) by done. rewrite <- Hd. by destruct t as [[]].
      + done.
      + intros m w Hm. apply HF; [|done]. apply Hall. eauto.
    - simpl. assert (HnN : is_Some (N !! n)) by (by apply (fmap_eq_is_Some strip_nt (nodes t) N n E)).
      destruct (reset_step t n (d_fin d) E Ee HF HnN HnF Hk Hd) as (w & E2 & Hok & Hcov & ->).
      simpl. rewrite <- HF'.
      destruct (IH (mk_tree (set_node (tr_graph t) n w) (tr_nterm t) (tr_root t)
                   (ndisc_in (d_fin d') (<[n:=w]> (nodes t)))) d') as (N' & HN' & E3 & H3); simpl.
      + done.
      + done.
      + assert (Hl : forall n, is_Some (nodes t !! n) <-> is_Some (N !! n))
          by (intros; by apply (fmap_eq_is_Some strip_nt)).
        destruct I2. constructor; try done; intros; rewrite <- Hl; eauto.
      + intros m w' Hm Hw'. rewrite HF' in Hm. destruct (decide (m = n)) as [->|Hne].
        * rewrite lookup_insert in Hw'. by injection Hw' as <-.
        * rewrite lookup_insert_ne in Hw' by done. apply HF; [set_solver|done].
      + done.
      + pose proof (dfs_left_step N d d' n HnN HnF HF'). lia.
      + exists N'. simpl in HN'. by rewrite HN'.
  Qed.
End reset.

(** [reset_nt_spans] gives every nonterminal the span of its yield and touches nothing else. *)
Lemma reset_nt_spans_spec t k :
  shape_ok (nodes t) (edges t) (tr_root t) -> terms_ok (nodes t) k ->
  exists N', reset_nt_spans t
             = Ret (mk_tree (set_nodes (tr_graph t) N') (tr_nterm t) (tr_root t) (ndisc_of N')) /\
    eq_strip_nt N' (nodes t) /\ nts_ok N' (edges t).
Proof.
  intros Sh Tm. unfold reset_nt_spans.
  destruct (reset_loop_spec (nodes t) (edges t) (tr_root t) k Sh Tm
              (S (node_count (tr_graph t))) (set_ndisc t 0) (dfs_post_new (tr_root t)))
    as (N' & HN' & E & H); simpl; try done.
  - by apply dfs_inv_new.
  - by rewrite ndisc_in_empty.
  - unfold dfs_left, node_count. simpl.
    assert (size (dom (nodes t) ∖ ∅) <= size (dom (nodes t))) by (apply subseteq_size; set_solver).
    rewrite size_dom in *. lia.
  - exists N'. simpl in HN'. split_and!; [done..|]. intros n nt Hn.
    destruct (H n _ Hn) as [H1 H2]. split; [done|]. intros i. rewrite (H2 i).
    symmetry. by apply yields_strip_nt.
Qed.
