(** Edits that keep every node's kind and span and every edge's kind. *)
From Coq Require Import Lia.
From Verif Require Import TreeSpec BaseProofs ShapeProofs GraphProofs DfsProofs ResetProofs ShapeOps TreeOps.

Definition skel (w : node) : bool * span := (is_terminal w, node_span w).
Notation eq_skel N1 N2 := (skel <$> (N1 : gmap nat node) = skel <$> (N2 : gmap nat node)).

Lemma eq_skel_lookup N1 N2 n w :
  eq_skel N1 N2 -> N1 !! n = Some w -> exists w', N2 !! n = Some w' /\ skel w' = skel w.
Proof.
  intros E H. apply (f_equal (.!! n)) in E. rewrite !lookup_fmap, H in E. simpl in E.
  destruct (N2 !! n) as [w'|]; [|done]. exists w'. split; [done|]. simpl in E. congruence.
Qed.
Lemma eq_skel_live N1 N2 n : eq_skel N1 N2 -> is_Some (N1 !! n) <-> is_Some (N2 !! n).
Proof.
  intros E. split; intros [w H]; [destruct (eq_skel_lookup _ _ _ _ E H) as (w' & H' & _)|
    destruct (eq_skel_lookup _ _ _ _ (eq_sym E) H) as (w' & H' & _)]; eauto.
Qed.
Lemma eq_skel_T N1 N2 n tm :
  eq_skel N1 N2 -> N1 !! n = Some (T tm) -> exists tm', N2 !! n = Some (T tm') /\ t_span tm' = t_span tm.
Proof.
  intros E H. destruct (eq_skel_lookup _ _ _ _ E H) as ([nt|tm'] & H' & Hs); [done|].
  exists tm'. split; [done|]. unfold skel in Hs. simpl in Hs. congruence.
Qed.
Lemma eq_skel_NT N1 N2 n nt :
  eq_skel N1 N2 -> N1 !! n = Some (NT nt) -> exists nt', N2 !! n = Some (NT nt') /\ nt_span nt' = nt_span nt.
Proof.
  intros E H. destruct (eq_skel_lookup _ _ _ _ E H) as ([nt'|tm'] & H' & Hs); [|done].
  exists nt'. split; [done|]. unfold skel in Hs. simpl in Hs. congruence.
Qed.
Lemma eq_skel_term_pos N1 N2 n i : eq_skel N1 N2 -> term_pos N1 n i <-> term_pos N2 n i.
Proof.
  intros E. split; intros (tm & H & Hs); [destruct (eq_skel_T _ _ _ _ E H) as (tm' & H' & Hs')|
    destruct (eq_skel_T _ _ _ _ (eq_sym E) H) as (tm' & H' & Hs')]; exists tm'; (split; [done|congruence]).
Qed.
Lemma eq_skel_yields N1 N2 es n i : eq_skel N1 N2 -> yields N1 es n i <-> yields N2 es n i.
Proof.
  intros E. unfold yields. split; intros (m & Hm & Hp); exists m; (split; [done|]);
    by apply (eq_skel_term_pos N1 N2).
Qed.
Lemma eq_skel_shape N1 N2 es root : eq_skel N1 N2 -> shape_ok N1 es root -> shape_ok N2 es root.
Proof.
  intros E [S1 S2 S3 S4 S5 S6 S7]. constructor; try done.
  - by apply (eq_skel_live _ _ _ E).
  - intros p c H. destruct (S4 p c H). split; by apply (eq_skel_live _ _ _ E).
  - intros n Hn. apply S5. by apply (eq_skel_live _ _ _ E).
  - intros n tm c H. destruct (eq_skel_T _ _ _ _ (eq_sym E) H) as (tm' & H' & _). by eapply S6.
  - intros n nt H. destruct (eq_skel_NT _ _ _ _ (eq_sym E) H) as (nt' & H' & _). by eapply S7.
Qed.
Lemma eq_skel_terms N1 N2 k : eq_skel N1 N2 -> terms_ok N1 k -> terms_ok N2 k.
Proof.
  intros E [T1 T2 T3]. constructor.
  - intros n tm H. destruct (eq_skel_T _ _ _ _ (eq_sym E) H) as (tm' & H' & Hs).
    destruct (T1 n tm' H') as (i & Hi & Hk). exists i. split; [congruence|done].
  - intros n m i H1 H2. apply (T2 n m i); by apply (eq_skel_term_pos _ _ _ _ E).
  - intros i Hi. destruct (T3 i Hi) as [n Hn]. exists n. by apply (eq_skel_term_pos _ _ _ _ E).
Qed.
Lemma eq_skel_nts N1 N2 es : eq_skel N1 N2 -> nts_ok N1 es -> nts_ok N2 es.
Proof.
  intros E H n nt Hn. destruct (eq_skel_NT _ _ _ _ (eq_sym E) Hn) as (nt' & H' & Hs).
  destruct (H n nt' H') as [Ho Hc]. rewrite Hs in Ho, Hc. split; [done|]. intros i. rewrite Hc.
  by apply eq_skel_yields.
Qed.
Lemma eq_skel_ndisc N1 N2 : eq_skel N1 N2 -> ndisc_of N1 = ndisc_of N2.
Proof.
  intros E.
  assert (Hg : forall N : gmap nat node, ndisc_of N = size (filter (fun kv => sp_skips (kv.2 : bool * span).2 <> None) (skel <$> N))).
  { intros N. unfold ndisc_of. rewrite <- !size_dom. f_equal. apply leibniz_equiv. intros n. rewrite !elem_of_dom.
    unfold is_Some. setoid_rewrite map_filter_lookup_Some. setoid_rewrite lookup_fmap_Some. simpl. unfold gappy.
    split.
    - intros (w & H1 & H2). exists (skel w). split; [by exists w|done].
    - intros (w & (x & <- & Hx) & H2). by exists x. }
  by rewrite !Hg, E.
Qed.
Lemma WF_relabel t t' :
  WF t -> graph_ok (tr_graph t') -> eq_skel (nodes t') (nodes t) -> edges t' = edges t ->
  tr_nterm t' = tr_nterm t -> tr_root t' = tr_root t -> tr_ndisc t' = tr_ndisc t -> WF t'.
Proof.
  intros [G Sh Tm Nt Nd] G' E He Hk Hr Hd. constructor; rewrite ?He, ?Hk, ?Hr, ?Hd; [done|..].
  - by eapply eq_skel_shape; [symmetry|].
  - by eapply eq_skel_terms; [symmetry|].
  - by eapply eq_skel_nts; [symmetry|].
  - rewrite Nd. symmetry. by apply eq_skel_ndisc.
Qed.
Lemma eq_skel_insert N n w w' :
  N !! n = Some w -> skel w' = skel w -> eq_skel (<[n := w']> N) N.
Proof.
  intros H Hs. rewrite fmap_insert, Hs. apply insert_id. by rewrite lookup_fmap, H.
Qed.
Lemma put_node_WF t n w w' :
  WF t -> nodes t !! n = Some w -> skel w' = skel w -> WF (put_node t n w').
Proof.
  intros W H Hs. eapply WF_relabel; try done.
  - apply set_node_ok; [by destruct W|eauto].
  - simpl. by eapply eq_skel_insert.
Qed.
Lemma put_edge_PE t e w r a b :
  graph_ok (tr_graph t) -> r ∈ edges t -> e_id r = e -> is_primary w = is_primary (e_w r) ->
  PE (edges (put_edge t e w)) a b <-> PE (edges t) a b.
Proof.
  intros G Hr <- Hw. unfold PE. simpl. setoid_rewrite elem_of_list_fmap. split.
  - intros (x & (y & -> & Hy) & Hp & Ha & Hb). exists y. destruct (Nat.eqb_spec (e_id y) (e_id r)) as [E|E]; [|done].
    rewrite (eid_inj _ _ _ G Hy Hr E) in *. simpl in *. rewrite <- Hw. done.
  - intros (y & Hy & Hp & Ha & Hb). eexists. split; [by exists y|]. destruct (Nat.eqb_spec (e_id y) (e_id r)) as [E|E]; [|done].
    simpl. rewrite (eid_inj _ _ _ G Hy Hr E) in *. rewrite Hw. done.
Qed.
Lemma put_edge_WF t e w r :
  WF t -> r ∈ edges t -> e_id r = e -> is_primary w = is_primary (e_w r) -> WF (put_edge t e w).
Proof.
  intros [G Sh Tm Nt Nd] Hr He Hw.
  assert (HPE : forall a b, PE (edges (put_edge t e w)) a b <-> PE (edges t) a b) by (intros; by eapply put_edge_PE).
  assert (HD : forall a b, Dom (edges (put_edge t e w)) a b <-> Dom (edges t) a b).
  { intros a b. split; apply rtc_subrel; intros x y; apply HPE. }
  destruct Sh as [S1 S2 S3 S4 S5 S6 S7]. constructor; try done.
  - by apply set_edge_weight_ok.
  - constructor; try done.
    + intros p Hp%HPE. by apply (S2 p).
    + simpl. intros r1 r2. rewrite !elem_of_list_fmap. intros (x & -> & Hx) (y & -> & Hy).
      assert (Hp : forall z, z ∈ edges t -> is_primary (e_w (if Nat.eqb (e_id z) e then mk_e (e_id z) (e_src z) (e_tgt z) w else z)) = true
                     -> is_primary (e_w z) = true).
      { intros z Hz. destruct (Nat.eqb_spec (e_id z) e) as [E|E]; [|done]. simpl. subst e.
        rewrite (eid_inj _ _ _ G Hz Hr E). by rewrite Hw. }
      intros P1%Hp P2%Hp; try done. intros Ht.
      rewrite (S3 x y); try done. by destruct (Nat.eqb (e_id x) e), (Nat.eqb (e_id y) e).
    + intros p c Hp%HPE. by apply S4.
    + intros n Hn. apply HD. by apply S5.
    + intros n tm c Hn Hp%HPE. by apply (S6 n tm c).
    + intros n nt Hn. destruct (S7 n nt Hn) as [c Hc]. exists c. by apply HPE.
  - intros n nt Hn. destruct (Nt n nt Hn) as [Ho Hc]. split; [done|]. intros i. rewrite Hc.
    unfold yields. split; intros (m & Hm & Hp); exists m; (split; [by apply HD|done]).
Qed.
