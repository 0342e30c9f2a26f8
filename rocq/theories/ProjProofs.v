(** [projectivize] terminates, repairs every gap and reports what it moved. *)
From Coq Require Import Lia.
From Verif Require Import ModModel TreeSpec BaseProofs ShapeProofs GraphProofs DfsProofs ResetProofs
  ShapeOps TreeOps SortProofs ReattachProofs NavProofs EditProofs.

(** ** Traversal of a graph that changes between the calls

    What remains true of the traversal state when a subtree is moved below a discovered node. *)
Record pinv (N : gmap nat node) (es : list erec) (root : nat) (d : dfs_post) : Prop := {
  pi_fin : d_fin d ⊆ d_disc d;
  pi_live : forall x, x ∈ d_stack d -> is_Some (N !! x);
  pi_disc_live : forall x, x ∈ d_disc d -> is_Some (N !! x);
  pi_root : root ∈ d_stack d \/ root ∈ d_fin d;
  pi_on_stack : forall x, x ∈ d_disc d -> x ∈ d_fin d \/ x ∈ d_stack d;
  pi_kids : forall x c, x ∈ d_disc d -> PE es x c -> c ∈ d_stack d \/ c ∈ d_fin d;
  pi_par : forall x p, x ∈ d_disc d \/ x ∈ d_stack d -> PE es p x -> p ∈ d_disc d
}.

Section pdfs.
  Context {N : gmap nat node} {es : list erec} {root : nat}.
  Hypothesis (S : shape_ok N es root).

  Lemma pinv_new : pinv N es root (dfs_post_new root).
  Proof. destruct (dfs_inv_new S). by constructor. Qed.

  Lemma pinv_anc d x y : pinv N es root d -> x ∈ d_disc d -> Dom es y x -> y ∈ d_disc d.
  Proof.
    intros I Hx H. induction H as [|a b c Hab Hbc IH]; [done|].
    apply (pi_par _ _ _ _ I b a); [|done]. left. by apply IH.
  Qed.

  Lemma pdfs_next_spec fuel g d :
    g_edges g = es -> pinv N es root d -> dfs_measure (N:=N) (es:=es) d < fuel ->
    (dfs_post_next fuel g d = Ret None /\ forall n, is_Some (N !! n) -> n ∈ d_fin d) \/
    exists n d', dfs_post_next fuel g d = Ret (Some (n, d')) /\ pinv N es root d' /\
      is_Some (N !! n) /\ n ∉ d_fin d /\ d_fin d' = {[n]} ∪ d_fin d.
  Proof.
    intros Eg. revert d. induction fuel as [|fuel IH]; intros d I Hm; [lia|]. simpl.
    destruct (d_stack d) as [|nx rest] eqn:Hst.
    { left. split; [done|]. apply (tree_ind_down S).
      - destruct (pi_root _ _ _ _ I) as [H|H]; [|done]. rewrite Hst in H. set_solver.
      - intros p c _ Hp Hc. destruct (pi_kids _ _ _ _ I p c) as [H|H]; [|done| |done].
        + by apply (pi_fin _ _ _ _ I).
        + rewrite Hst in H. set_solver. }
    destruct (bool_decide (nx ∈ d_disc d)) eqn:Hdisc.
    - apply bool_decide_eq_true in Hdisc.
      destruct (bool_decide (nx ∈ d_fin d)) eqn:Hfin.
      + apply bool_decide_eq_true in Hfin.
        assert (I' : pinv N es root (mk_dfs rest (d_disc d) (d_fin d))).
        { destruct I as [i1 i2 i3 i4 i5 i7 i9]. rewrite Hst in *.
          constructor; simpl; try done.
          - intros x Hx. apply i2. set_solver.
          - set_solver.
          - intros x Hx. destruct (i5 x Hx) as [H|H]; [by left|]. set_solver.
          - intros x c Hx Hc. destruct (i7 x c Hx Hc) as [H|H]; set_solver.
          - intros x p [Hx|Hx] Hp; [by eapply i9; eauto|].
            eapply i9; [|done]. right. set_solver. }
        destruct (IH _ I') as [[H1 H2]|(n & d' & H1 & H2)].
        * unfold dfs_measure in *. rewrite Hst in Hm. simpl in *. lia.
        * left. split; [exact H1|exact H2].
        * right. exists n, d'. exact (conj H1 H2).
      + apply bool_decide_eq_false in Hfin. right.
        eexists nx, _. split; [reflexivity|].
        pose proof I as [i1 i2 i3 i4 i5 i7 i9]. rewrite Hst in *.
        split_and!; simpl; try done.
        * constructor; simpl.
          -- set_solver.
          -- intros x Hx. apply i2. set_solver.
          -- done.
          -- set_solver.
          -- intros x Hx. destruct (i5 x Hx) as [H|H]; set_solver.
          -- intros x c Hx Hc. destruct (i7 x c Hx Hc) as [H|H]; set_solver.
          -- intros x p [Hx|Hx] Hp; [by eapply i9; eauto|].
             eapply i9; [|done]. right. set_solver.
        * apply i2. set_solver.
    - apply bool_decide_eq_false in Hdisc.
      assert (Hlive : is_Some (N !! nx)) by (apply (pi_live _ _ _ _ I); rewrite Hst; set_solver).
      set (succs := filter (fun s => s ∉ {[nx]} ∪ d_disc d) (neighbors g nx)) in *.
      assert (Hs : forall c, c ∈ rev succs <-> PE es nx c).
      { intros c. rewrite (elem_of_list_rev succs c). unfold succs.
        rewrite elem_of_list_filter, (elem_of_neighbors g nx c Eg). split; [tauto|].
        intros Hc. split; [|done]. rewrite not_elem_of_union, not_elem_of_singleton. split.
        - intros ->. by apply (PE_irrefl S nx).
        - intros Hcd. apply Hdisc. eapply (pi_par _ _ _ _ I c nx); [by left|done]. }
      assert (Hlen : length (rev succs) <= length (filter (fun r => e_src r = nx) es)).
      { rewrite rev_length. etrans; [apply filter_length_le|]. by apply neighbors_length. }
      clearbody succs.
      assert (I' : pinv N es root
                     (mk_dfs (rev succs ++ nx :: rest) ({[nx]} ∪ d_disc d) (d_fin d))).
      { destruct I as [i1 i2 i3 i4 i5 i7 i9]. rewrite Hst in *.
        constructor; simpl.
        - set_solver.
        - intros x [Hx|Hx]%elem_of_app; [|by apply i2].
          apply Hs in Hx. by apply (sh_live _ _ _ S nx x).
        - intros x [->%elem_of_singleton|Hx]%elem_of_union; [done|by apply i3].
        - set_solver.
        - intros x [->%elem_of_singleton|Hx]%elem_of_union; [right; set_solver|].
          destruct (i5 x Hx) as [H|H]; set_solver.
        - intros x c [->%elem_of_singleton|Hx]%elem_of_union Hc.
          + left. apply elem_of_app. left. by apply Hs.
          + destruct (i7 x c Hx Hc) as [H|H]; [left|by right]. set_solver.
        - intros x p Hx Hp. destruct (decide (p = nx)) as [->|Hpn]; [set_solver|].
          apply elem_of_union. right.
          assert (Hx' : x ∈ d_disc d \/ x ∈ nx :: rest).
          { destruct Hx as [[->%elem_of_singleton|Hx]%elem_of_union|[Hx|Hx]%elem_of_app];
              [right; set_solver|by left| |by right].
            apply Hs in Hx. exfalso. apply Hpn. by apply (PE_parent_unique S p nx x). }
          by eapply i9. }
      destruct (IH _ I') as [[H1 H2]|(n & d' & H1 & H2)].
      + unfold dfs_measure in *. rewrite Hst in Hm. simpl in *. rewrite app_length. simpl.
        pose proof (filter_split_src (es:=es) (d_disc d) nx Hdisc).
        assert (Hin : nx ∈ dom N) by (by apply elem_of_dom).
        pose proof (size_difference_step _ _ _ Hin Hdisc).
        lia.
      + left. split; [exact H1|exact H2].
      + right. exists n, d'. exact (conj H1 H2).
  Qed.
End pdfs.

(** ** One re-attachment *)

(** [moved t a rep t']: [t'] is [t] with the subtree [rep] talks about hung below [a]; the report
    names its parent, its edge and its root in [t]; the edge keeps its label. *)
Definition moved (t : tree) (a : nat) (rep : report) (t' : tree) : Prop :=
  exists r0 e', r0 ∈ edges t /\ is_primary (e_w r0) = true /\
    rep = (e_src r0, e_w r0, e_tgt r0) /\
    Dom (edges t) (e_src r0) a /\ e_src r0 <> a /\ ~ Dom (edges t) (e_tgt r0) a /\
    (forall r, r ∈ edges t' <-> r = mk_e e' a (e_tgt r0) (e_w r0) \/ (r ∈ edges t /\ r <> r0)) /\
    eq_strip_nt (nodes t') (nodes t) /\ tr_root t' = tr_root t /\ tr_nterm t' = tr_nterm t /\
    exists nt, nodes t !! a = Some (NT nt).
Inductive moves : tree -> list report -> tree -> Prop :=
| moves_nil t : moves t [] t
| moves_cons t a rep t1 v t2 : moved t a rep t1 -> moves t1 v t2 -> moves t (rep :: v) t2.
Lemma moves_snoc t v t1 a rep t2 : moves t v t1 -> moved t1 a rep t2 -> moves t (v ++ [rep]) t2.
Proof.
  intros H M. induction H as [t|t b rep' t1 v t' M' H IH]; simpl.
  - econstructor; [exact M|constructor].
  - econstructor; [exact M'|by apply IH].
Qed.

(** The climb from a terminal to the lowest ancestor covering [s]. *)
Lemma find_handle_spec fuel t s x l :
  WF t -> span_ok s -> upath (edges t) x l -> length l <= fuel -> is_Some (nodes t !! x) ->
  (exists f w, f ∈ l /\ nodes t !! f = Some w /\ span_covers (node_span w) s = true) ->
  exists r0 w, find_handle fuel t s x (parent t x) = Ret (Some (e_src r0, e_id r0, e_tgt r0)) /\
    r0 ∈ edges t /\ is_primary (e_w r0) = true /\ Dom (edges t) (e_tgt r0) x /\
    nodes t !! e_src r0 = Some w /\ span_covers (node_span w) s = true /\
    (e_tgt r0 = x \/ exists w', nodes t !! e_tgt r0 = Some w' /\ span_covers (node_span w') s = false).
Proof.
  intros W Hs Hl. pose proof W as [G Sh Tm Nt Nd]. revert fuel.
  induction Hl as [x Hx|x p l Hp Hl IH]; intros fuel Hf Hlx (f & w & Hin & Hw & Hc); [set_solver|].
  destruct fuel as [|fuel]; [simpl in Hf; lia|].
  pose proof Hp as (r0 & Hr0 & Pr0 & Sr0 & Tr0).
  assert (HPp : parent t x = Some (p, e_id r0)).
  { apply (parent_Some t x p (e_id r0) Sh). by exists r0. }
  rewrite HPp. cbn [find_handle climber_next].
  destruct (PE_src_nt Sh p x Hp) as [nt Hnt]. rewrite (node_at_Some _ _ _ Hnt). cbn [mbind outcome_bind].
  destruct (span_covers (node_span (NT nt)) s) eqn:E.
  - exists r0, (NT nt). rewrite Sr0, Tr0. split_and!; try done. by left.
  - destruct (IH fuel) as (r1 & w1 & H1 & H2 & H3 & H4 & H5 & H6 & H7).
    + simpl in Hf. lia.
    + eauto.
    + apply elem_of_cons in Hin as [->|Hin]; [congruence|]. by exists f, w.
    + exists r1, w1. split_and!; try done.
      * by eapply rtc_r.
      * right. destruct H7 as [->|H7]; [|done]. by exists (NT nt).
Qed.

Lemma gappy_dec_skips w : gappy w \/ ~ gappy w.
Proof. destruct (decide (gappy w)); auto. Qed.

Section onestep.
  Context {t : tree} {a : nat} {wa : node} {sk : gset nat} {j m : nat}.
  Hypothesis (W : WF t) (Ha : nodes t !! a = Some wa) (Esk : sp_skips (node_span wa) = Some sk)
             (Hj : j ∈ sk) (Hm : term_pos (nodes t) m j).

  Lemma step_handle :
    exists r0, find_handle (climb_fuel t) t (node_span wa) m (climber_new m t)
               = Ret (Some (e_src r0, e_id r0, e_tgt r0)) /\
      r0 ∈ edges t /\ is_primary (e_w r0) = true /\ Dom (edges t) (e_tgt r0) m /\
      Dom (edges t) (e_src r0) a /\ e_src r0 <> a /\
      ~ Dom (edges t) (e_tgt r0) a /\ ~ Dom (edges t) a (e_tgt r0) /\
      (forall f, Dom (edges t) f a -> Dom (edges t) f m -> Dom (edges t) f (e_src r0)).
  Proof.
    pose proof W as [G Sh Tm Nt Nd].
    destruct (node_span_ok _ _ _ _ _ _ Sh Tm Nt Ha) as [Hok Hca].
    assert (Hnot : ~ Dom (edges t) a m).
    { intros H. assert (Hc : covers (node_span wa) j) by (apply Hca; by exists m).
      rewrite covers_iff, Esk in Hc. simpl in Hc. tauto. }
    destruct Hm as (tm & Htm & Hst).
    assert (HaNT : exists nt, wa = NT nt).
    { destruct wa as [nt|ta] eqn:Ewa; [by exists nt|]. exfalso.
      destruct (to_pos _ _ Tm a ta Ha) as (i & Hi & _). simpl in Esk. rewrite Hi in Esk. discriminate Esk. }
    destruct HaNT as [nta ->].
    destruct (upath_exists Sh m ltac:(eauto)) as [l Hl].
    assert (Hmr : m <> tr_root t).
    { intros ->. pose proof (sh_reach _ _ _ Sh a ltac:(eauto)) as H.
      apply (term_Dom Sh _ tm a Htm) in H. subst. congruence. }
    assert (Hroot : tr_root t ∈ l).
    { pose proof (upath_root Sh m l ltac:(eauto) Hl Hmr) as H. by apply elem_of_list_lookup_2 with (pred (length l)); rewrite <- last_lookup. }
    destruct (find_handle_spec (climb_fuel t) t (node_span (NT nta)) m l) as (r0 & w & H1 & H2 & H3 & H4 & H5 & H6 & H7); try done.
    { pose proof (upath_length Sh m l ltac:(eauto) Hl). unfold climb_fuel, node_count. lia. }
    { destruct (sh_root _ _ _ Sh) as [wr Hwr]. exists (tr_root t), wr. split_and!; try done.
      destruct (node_span_ok _ _ _ _ _ _ Sh Tm Nt Hwr) as [Hokr Hcr].
      apply span_covers_iff; [done..|]. intros i Hi. apply Hcr. apply Hca in Hi.
      eapply yields_Dom; [|exact Hi]. apply (sh_reach _ _ _ Sh). eauto. }
    assert (Hpc : PE (edges t) (e_src r0) (e_tgt r0)) by (by exists r0).
    destruct (node_span_ok _ _ _ _ _ _ Sh Tm Nt H5) as [Hokh Hch].
    assert (Hsub : forall i, yields (nodes t) (edges t) a i -> yields (nodes t) (edges t) (e_src r0) i).
    { intros i Hi%Hca. apply Hch. revert i Hi. by apply span_covers_iff. }
    assert (Hha : Dom (edges t) (e_src r0) a).
    { destruct (Hsub _ (proj1 (Hca _) (span_ok_start _ Hok))) as (x & Hx1 & Hx2).
      destruct (proj1 (Hca _) (span_ok_start _ Hok)) as (y & Hy1 & Hy2).
      rewrite (to_inj _ _ Tm x y _ Hx2 Hy2) in Hx1.
      destruct (Dom_comparable Sh _ _ _ Hx1 Hy1) as [H|H]; [done|].
      exfalso. apply Hnot. etrans; [exact H|]. by eapply rtc_l. }
    assert (Hcov : forall f, Dom (edges t) f a -> f = m \/ forall w', nodes t !! f = Some w' -> span_covers (node_span w') (node_span (NT nta)) = true).
    { intros f Hf. right. intros w' Hw'. destruct (node_span_ok _ _ _ _ _ _ Sh Tm Nt Hw') as [Hokf Hcf].
      apply span_covers_iff; [done..|]. intros i Hi%Hca. apply Hcf. by eapply yields_Dom. }
    assert (Hnc : ~ Dom (edges t) (e_tgt r0) a).
    { intros H. destruct H7 as [E|(w' & Hw' & Hf)].
      - rewrite E in H. apply (term_Dom Sh _ tm a Htm) in H. subst. congruence.
      - destruct (Hcov _ H) as [E|Hc]; [|rewrite (Hc _ Hw') in Hf; done].
        rewrite E in H. apply (term_Dom Sh _ tm a Htm) in H. subst. congruence. }
    exists r0. split_and!; try done.
    - intros E. apply Hnot. rewrite <- E. by eapply rtc_l.
    - intros H. apply Hnot. by etrans.
    - intros f Hfa Hfm. destruct (Dom_comparable Sh f (e_tgt r0) m Hfm H4) as [H|H].
      + destruct (Dom_step_r Sh f _ _ H Hpc) as [->|H']; [by exfalso; apply Hnc|done].
      + exfalso. apply Hnc. by etrans.
  Qed.

  (** The tree after the re-attachment. *)
  Lemma step_ok :
    exists r0 t1 e' edge, find_handle (climb_fuel t) t (node_span wa) m (climber_new m t)
               = Ret (Some (e_src r0, e_id r0, e_tgt r0)) /\
      reattach_node t a (e_id r0) = Ret (t1, Ok (e', e_w r0)) /\ edge_at t1 e' = Ret edge /\
      let t' := put_edge t1 e' (e_w r0) in
      WF t' /\ moved t a (e_src r0, e_w r0, e_tgt r0) t' /\
      (forall x y, PE (edges t') x y <-> (x = a /\ y = e_tgt r0) \/ (PE (edges t) x y /\ y <> e_tgt r0)) /\
      PE (edges t) (e_src r0) (e_tgt r0) /\ Dom (edges t) (e_src r0) a /\
      (forall f w w', nodes t !! f = Some w -> nodes t' !! f = Some w' -> ~ gappy w -> ~ gappy w') /\
      (forall w', nodes t' !! a = Some w' ->
         (forall i, covers (node_span wa) i -> covers (node_span w') i) /\ covers (node_span w') j).
  Proof.
    pose proof W as [G Sh Tm Nt Nd].
    destruct step_handle as (r0 & HF & Hr0 & Pr0 & Htm & Hha & Hne & Hna & Han & Hmin).
    assert (Hpc : PE (edges t) (e_src r0) (e_tgt r0)) by (by exists r0).
    assert (HaNT : exists nt, wa = NT nt).
    { destruct wa as [nt|ta] eqn:Ewa; [by exists nt|]. exfalso.
      destruct (to_pos _ _ Tm a ta Ha) as (i & Hi & _). simpl in Esk. rewrite Hi in Esk. discriminate Esk. }
    destruct HaNT as [nta Ewa]. rewrite Ewa in Ha.
    assert (Hleft : e_src r0 = a \/ exists s, PE (edges t) (e_src r0) s /\ s <> e_tgt r0).
    { right. apply rtc_inv in Hha as [E|(s & Hs & Hsa)]; [by destruct Hne|]. exists s. split; [done|]. intros ->. done. }
    destruct (reattach_primary_ok t a nta r0 W Hr0 Pr0 Ha Hna (or_intror Hha) Hleft)
      as (t1 & e' & HR & W1 & HE & Hes & Hes' & Hrt & Hnt).
    assert (Hne' : e_tgt r0 <> a) by (intros E; apply Hna; by rewrite E).
    set (rn := mk_e e' a (e_tgt r0) (Primary None)) in *.
    assert (Hrn : rn ∈ edges t1) by (apply Hes'; by left).
    assert (Hpp : is_primary (e_w r0) = is_primary (e_w rn)) by (by rewrite Pr0).
    pose proof (put_edge_WF t1 e' (e_w r0) rn W1 Hrn eq_refl Hpp) as W'.
    pose proof W1 as [G1 Sh1 Tm1 Nt1 Nd1].
    assert (Hfresh : forall r, r ∈ edges t1 -> e_id r = e' -> r = rn).
    { intros r Hr He. by apply (eid_inj _ _ _ G1 Hr Hrn). }
    assert (Hes2 : forall r, r ∈ edges (put_edge t1 e' (e_w r0)) <->
               r = mk_e e' a (e_tgt r0) (e_w r0) \/ (r ∈ edges t /\ r <> r0)).
    { intros r. simpl. rewrite elem_of_list_fmap. split.
      - intros (y & -> & Hy). destruct (Nat.eqb_spec (e_id y) e') as [E|E].
        + left. rewrite (Hfresh y Hy E). done.
        + right. apply Hes' in Hy as [->|Hy]; [done|done].
      - intros [->|[Hr Hrne]].
        + exists rn. split; [|done]. unfold rn. simpl. by rewrite Nat.eqb_refl.
        + exists r. assert (Hr1 : r ∈ edges t1) by (apply Hes'; by right). split; [|done].
          destruct (Nat.eqb_spec (e_id r) e') as [E|E]; [|done]. exfalso.
          assert (r = rn) as -> by (by apply Hfresh).
          assert (Hpc2 : PE (edges t) a (e_tgt r0)) by (by exists rn).
          apply Hne. by apply (PE_parent_unique Sh _ _ _ Hpc Hpc2). }
    assert (HPE : forall x y, PE (edges (put_edge t1 e' (e_w r0))) x y <->
              (x = a /\ y = e_tgt r0) \/ (PE (edges t) x y /\ y <> e_tgt r0))
      by (intros x y; eapply (move_PE (es:=edges t)); eauto).
    exists r0, t1, e', (e_w rn). split_and!; [done| | |].
    { rewrite (reattach_node_primary t a r0); done. }
    { unfold edge_at. pose proof (proj2 (find_edge_Some _ _ rn G1) (conj Hrn eq_refl)) as Hfe. simpl in Hfe. by rewrite Hfe. }
    set (t' := put_edge t1 e' (e_w r0)) in *.
    assert (HN : nodes t' = nodes t1) by done.
    assert (HD : forall x y, Dom (edges t') x y <->
       (~ Dom (edges t) (e_tgt r0) y /\ Dom (edges t) x y) \/
       (Dom (edges t) (e_tgt r0) y /\ ((Dom (edges t) (e_tgt r0) x /\ Dom (edges t) x y) \/
                                       (~ Dom (edges t) (e_tgt r0) x /\ Dom (edges t) x a)))).
    { intros x y. eapply (move_Dom (es:=edges t) (r0:=r0)); eauto. }
    assert (HT : forall x i, term_pos (nodes t') x i <-> term_pos (nodes t) x i).
    { intros x i. unfold term_pos. rewrite HN. split; intros (tm & H1 & H2); exists tm; (split; [|done]);
        by apply (eq_strip_nt_T _ _ x tm HE). }
    assert (Hup : forall f i, yields (nodes t) (edges t) f i -> yields (nodes t') (edges t') f i).
    { intros f i (x & Hx & Hxi). exists x. split; [|by apply HT]. apply HD.
      destruct (Dom_em _ _ _ (e_tgt r0) x Sh) as [Hcx|Hcx]; [|by left]. right. split; [done|].
      destruct (Dom_em _ _ _ (e_tgt r0) f Sh) as [Hcf|Hcf]; [by left|]. right. split; [done|].
      destruct (Dom_comparable Sh f (e_tgt r0) x Hx Hcx) as [H|H]; [|done].
      destruct (Dom_step_r Sh f _ _ H Hpc) as [->|H']; [done|]. by etrans. }
    split_and!; try done.
    - exists r0, e'. split_and!; try done. eauto.
    - intros f w w' Hw Hw' Hg. pose proof W' as [G' Sh' Tm' Nt' Nd'].
      destruct (node_span_ok _ _ _ _ _ _ Sh Tm Nt Hw) as [Hokf Hcf].
      destruct (node_span_ok _ _ _ _ _ _ Sh' Tm' Nt' Hw') as [Hokf' Hcf'].
      destruct (node_span_ok _ _ _ _ _ _ Sh Tm Nt Ha) as [Hoka Hca]. rewrite <- Ewa in *.
      assert (Hsame : node_span w' = node_span w).
      { apply span_ext; [done..|]. intros i. rewrite Hcf', Hcf. split; [|apply Hup].
        intros (x & Hx & Hxi%HT). apply HD in Hx as [[_ Hx]|[Hcx [[_ Hx]|[Hcf0 Hfa]]]]; [by exists x..|].
        (* [f] dominates [a] and has no gap: it covers the skipped position as well *)
        assert (Hfj : covers (node_span w) j).
        { destruct Hoka as [_ Hoka]. rewrite Esk in Hoka. destruct Hoka as [_ Hoka]. specialize (Hoka j Hj).
          destruct (node_span_ok _ _ _ _ _ _ Sh Tm Nt Ha) as [Hoka' _].
          assert (C1 : covers (node_span w) (sp_start (node_span wa))).
          { apply Hcf. eapply yields_Dom; [exact Hfa|]. by apply Hca, span_ok_start. }
          assert (C2 : covers (node_span w) (sp_end (node_span wa) - 1)).
          { apply Hcf. eapply yields_Dom; [exact Hfa|]. by apply Hca, span_ok_last. }
          destruct (decide (covers (node_span w) j)) as [|Hn]; [done|]. exfalso. apply Hg. unfold gappy.
          apply span_ok_skips; [done|]. exists (sp_start (node_span wa)), j, (sp_end (node_span wa) - 1).
          split_and!; try done; lia. }
        apply Hcf in Hfj as (m' & Hm' & Hpm'). rewrite (to_inj _ _ Tm m' m j Hpm' Hm) in Hm'.
        exists x. split; [|done]. etrans; [|exact Hcx]. etrans; [by apply (Hmin f)|]. by apply rtc_once. }
      unfold gappy in *. by rewrite Hsame.
    - intros w' Hw'. pose proof W' as [G' Sh' Tm' Nt' Nd'].
      destruct (node_span_ok _ _ _ _ _ _ Sh' Tm' Nt' Hw') as [Hokf' Hcf'].
      destruct (node_span_ok _ _ _ _ _ _ Sh Tm Nt Ha) as [Hoka Hca]. rewrite <- Ewa in *. split.
      + intros i Hi%Hca. apply Hcf'. by apply Hup.
      + apply Hcf'. exists m. split; [|by apply HT]. apply HD. right. split; [done|]. right. by split.
  Qed.
End onestep.

(** ** The loops *)
Lemma n_indices_lt s s' j :
  span_ok s -> span_ok s' -> (forall i, covers s i -> covers s' i) -> covers s' j -> ~ covers s j ->
  span_n_indices s < span_n_indices s'.
Proof.
  intros H1 H2 Hsub Hj Hn. rewrite <- !span_iter_length by done.
  assert (Hs : (j :: span_iter s) ⊆+ span_iter s').
  { apply NoDup_submseteq.
    - constructor; [by rewrite elem_of_span_iter|apply span_iter_nodup].
    - intros x [->|Hx]%elem_of_cons; rewrite elem_of_span_iter in *; [done|]. by apply Hsub. }
  apply submseteq_length in Hs. simpl in Hs. lia.
Qed.
Lemma n_indices_le s k : span_ok s -> (forall i, covers s i -> i < k) -> span_n_indices s <= k.
Proof.
  intros H1 Hb. rewrite <- span_iter_length by done.
  assert (Hs : span_iter s ⊆+ seq 0 k).
  { apply NoDup_submseteq; [apply span_iter_nodup|].
    intros x Hx%elem_of_span_iter. apply elem_of_seq. specialize (Hb x Hx). lia. }
  apply submseteq_length in Hs. by rewrite seq_length in Hs.
Qed.
Lemma yields_bound N es k n i : terms_ok N k -> yields N es n i -> i < k.
Proof.
  intros Tm (m & _ & tm & Hm & Hs). destruct (to_pos _ _ Tm m tm Hm) as (i' & Hi & Hlt).
  rewrite Hs in Hi. injection Hi as ->. done.
Qed.

Lemma moved_frame t a rep t' :
  moved t a rep t' -> eq_strip_nt (nodes t') (nodes t) /\ tr_root t' = tr_root t /\ tr_nterm t' = tr_nterm t.
Proof. intros (r0 & e' & _ & _ & _ & _ & _ & _ & _ & H1 & H2 & H3 & _). done. Qed.
Lemma moves_frame t v t' :
  moves t v t' -> eq_strip_nt (nodes t') (nodes t) /\ tr_root t' = tr_root t /\ tr_nterm t' = tr_nterm t.
Proof.
  induction 1 as [t|t a rep t1 v t2 M H (IH1 & IH2 & IH3)]; [done|].
  destruct (moved_frame _ _ _ _ M) as (M1 & M2 & M3). split_and!; congruence.
Qed.
Lemma moves_app t v1 t1 v2 t2 : moves t v1 t1 -> moves t1 v2 t2 -> moves t (v1 ++ v2) t2.
Proof. induction 1; simpl; [done|]. intros. econstructor; eauto. Qed.

Lemma sentence_strip t t' l :
  eq_strip_nt (nodes t') (nodes t) -> tr_nterm t' = tr_nterm t -> sentence t l -> sentence t' l.
Proof.
  intros HE Hn [H1 H2]. split; [congruence|]. intros i n. rewrite H2. unfold term_pos.
  split; intros (tm & Htm & Hs); exists tm; (split; [|done]); by apply (eq_strip_nt_T _ _ n tm HE).
Qed.

(** Nodes without a gap keep their span. *)
Definition no_new_gap (t t' : tree) : Prop :=
  forall f w w', nodes t !! f = Some w -> nodes t' !! f = Some w' -> ~ gappy w -> ~ gappy w'.
Lemma no_new_gap_trans t t1 t2 :
  eq_strip_nt (nodes t1) (nodes t) -> no_new_gap t t1 -> no_new_gap t1 t2 -> no_new_gap t t2.
Proof.
  intros HE H1 H2 f w w' Hw Hw' Hg.
  destruct (fmap_eq_lookup strip_nt _ _ _ _ (eq_sym HE) Hw) as (w1 & Hw1 & _).
  eapply H2; [exact Hw1|exact Hw'|]. by eapply H1.
Qed.

Section loops.
  Context (choose : nat -> gset nat -> nat) (terms : list nat).
  Hypothesis (Hchoose : forall k s, s <> ∅ -> choose k s ∈ s).

  Lemma fill_gaps_spec a d fuel t v k wa :
    WF t -> sentence t terms -> nodes t !! a = Some wa -> a ∈ d_disc d ->
    pinv (nodes t) (edges t) (tr_root t) d ->
    tr_nterm t - span_n_indices (node_span wa) < fuel ->
    exists t' v' k', fill_gaps fuel choose terms a t v k = Ret (t', v ++ v', k') /\
      WF t' /\ moves t v' t' /\ pinv (nodes t') (edges t') (tr_root t') d /\ no_new_gap t t' /\
      exists wa', nodes t' !! a = Some wa' /\ ~ gappy wa'.
  Proof.
    revert t v k wa. induction fuel as [|fuel IH]; intros t v k wa W HS Ha Hd I Hm; [lia|].
    cbn [fill_gaps]. rewrite (node_at_Some _ _ _ Ha). cbn [mbind outcome_bind].
    pose proof W as [G Sh Tm Nt Nd].
    destruct (node_span_ok _ _ _ _ _ _ Sh Tm Nt Ha) as [Hoka Hca].
    destruct (sp_skips (node_span wa)) as [sk|] eqn:Esk.
    2:{ exists t, [], k. rewrite app_nil_r. split_and!; try done; [constructor|by intros f w w' ? ?; simplify_eq|].
        exists wa. split; [done|]. unfold gappy. rewrite Esk. tauto. }
    assert (Hsk : sk <> ∅) by (pose proof Hoka as [_ H]; rewrite Esk in H; tauto).
    destruct (Nat.eqb_spec (size sk) 0) as [E|_]; [by apply size_empty_iff, leibniz_equiv in E|].
    set (j := choose k sk). assert (Hj : j ∈ sk) by (by apply Hchoose). clearbody j.
    assert (Hjb : sp_start (node_span wa) < j < sp_end (node_span wa) - 1).
    { pose proof Hoka as [_ H]. rewrite Esk in H. destruct H as [_ H]. specialize (H j Hj). lia. }
    assert (Hjk : j < tr_nterm t).
    { pose proof (yields_bound _ _ _ _ _ Tm (proj1 (Hca _) (span_ok_last _ Hoka))). lia. }
    destruct (to_surj _ _ Tm j Hjk) as [m Hpm].
    rewrite (proj2 (proj2 HS j m) Hpm). cbn [unwrap mbind outcome_bind].
    destruct (step_ok W Ha Esk Hj Hpm) as (r0 & t1 & e' & edge & HF & HR & HE & H).
    rewrite HF. cbn [mbind outcome_bind]. rewrite HR. cbn [mbind outcome_bind unwrap_ok].
    rewrite HE. cbn [mbind outcome_bind].
    set (t2 := put_edge t1 e' (e_w r0)) in *. clearbody t2. clear HR HE t1.
    destruct H as (W2 & M & HPE & Hpc & Hha & Hgap & Hgrow).
    destruct (moved_frame _ _ _ _ M) as (E1 & E2 & E3).
    destruct (fmap_eq_lookup strip_nt _ _ _ _ (eq_sym E1) Ha) as (wa2 & Ha2 & _).
    destruct (Hgrow wa2 Ha2) as [Hg1 Hg2].
    pose proof W2 as [G2 Sh2 Tm2 Nt2 Nd2].
    destruct (node_span_ok _ _ _ _ _ _ Sh2 Tm2 Nt2 Ha2) as [Hoka2 Hca2].
    assert (Hnj : ~ covers (node_span wa) j) by (rewrite covers_iff, Esk; simpl; tauto).
    pose proof (n_indices_lt _ _ _ Hoka Hoka2 Hg1 Hg2 Hnj) as Hlt.
    assert (Hle : span_n_indices (node_span wa2) <= tr_nterm t2).
    { apply n_indices_le; [done|]. intros i Hi%Hca2. by eapply yields_bound. }
    assert (Hlive : forall x, is_Some (nodes t2 !! x) <-> is_Some (nodes t !! x))
      by (intros x; by apply (fmap_eq_is_Some strip_nt)).
    assert (I2 : pinv (nodes t2) (edges t2) (tr_root t2) d).
    { destruct I as [i1 i2 i3 i4 i5 i7 i9]. rewrite E2. constructor; try done.
      - intros x Hx. apply Hlive. by apply i2.
      - intros x Hx. apply Hlive. by apply i3.
      - intros x c Hx [[-> ->]|[Hc _]]%HPE; [|by apply (i7 x c)].
        eapply i7; [|exact Hpc]. eapply pinv_anc; [|exact Hd|exact Hha]. by constructor.
      - intros x p Hx [[-> ->]|[Hc _]]%HPE; [done|by apply (i9 x p)]. }
    destruct (IH t2 (v ++ [(e_src r0, e_w r0, e_tgt r0)]) (S k) wa2)
      as (t' & v' & k' & F1 & F2 & F3 & F4 & F5 & F6); try done.
    { by apply (sentence_strip t). }
    { lia. }
    exists t', ((e_src r0, e_w r0, e_tgt r0) :: v'), k'. split_and!; try done.
    - rewrite F1. by rewrite <- app_assoc.
    - by econstructor.
    - by eapply (no_new_gap_trans t t2).
  Qed.

  Lemma ndisc_zero N : (forall n w, N !! n = Some w -> ~ gappy w) -> ndisc_of N = 0.
  Proof.
    intros H. unfold ndisc_of. apply map_size_empty_iff, map_filter_empty_iff.
    intros i x Hx. simpl. by eapply H.
  Qed.

  Lemma proj_loop_spec fuel t d v k :
    WF t -> sentence t terms -> pinv (nodes t) (edges t) (tr_root t) d ->
    (forall f w, f ∈ d_fin d -> nodes t !! f = Some w -> ~ gappy w) ->
    dfs_left (nodes t) d < fuel ->
    exists t' v', proj_loop fuel choose terms t d v k = Ret (t', v ++ v') /\
      WF t' /\ moves t v' t' /\ is_projective t' = true.
  Proof.
    revert t d v k. induction fuel as [|fuel IH]; intros t d v k W HS I Hfin Hm; [lia|].
    cbn [proj_loop]. pose proof W as [G Sh Tm Nt Nd].
    destruct (pdfs_next_spec Sh (dfs_fuel (tr_graph t) d) (tr_graph t) d eq_refl I)
      as [[-> Hall]|(a & d' & -> & I' & [wa Ha] & Hnf & Hfd)].
    { apply dfs_fuel_enough; done. }
    - cbn [mbind outcome_bind]. exists t, []. rewrite app_nil_r. split_and!; try done; [constructor|].
      unfold is_projective. rewrite Nd, ndisc_zero; [done|]. intros n w Hn. eapply Hfin; [|done]. apply Hall. eauto.
    - cbn [mbind outcome_bind].
      destruct (fill_gaps_spec a d' (S (tr_nterm t)) t v k wa) as (t1 & v1 & k1 & -> & W1 & M1 & I1 & Hg1 & wa' & Ha' & Hga); try done.
      { apply (pi_fin _ _ _ _ I'). rewrite Hfd. set_solver. }
      { lia. }
      cbn [mbind outcome_bind].
      destruct (is_projective t1) eqn:Ep; [by exists t1, v1|].
      destruct (moves_frame _ _ _ M1) as (E1 & E2 & E3).
      assert (Hdom : dom (nodes t1) = dom (nodes t)) by (by apply (fmap_eq_dom strip_nt)).
      destruct (IH t1 d' (v ++ v1) k1) as (t' & v' & -> & W' & M' & Hp); try done.
      + by apply (sentence_strip t).
      + intros f w Hf Hw. rewrite Hfd in Hf. apply elem_of_union in Hf as [->%elem_of_singleton|Hf];
          [by rewrite Ha' in Hw; injection Hw as <-|].
        destruct (fmap_eq_lookup strip_nt _ _ _ _ E1 Hw) as (w0 & Hw0 & _).
        eapply Hg1; [exact Hw0|exact Hw|]. by eapply Hfin.
      + pose proof (dfs_left_step (nodes t) d d' a ltac:(eauto) Hnf Hfd) as Hl.
        unfold dfs_left in *. rewrite Hdom. lia.
      + exists t', (v1 ++ v'). rewrite app_assoc. split_and!; try done. by eapply moves_app.
  Qed.
End loops.

Lemma projectivize_ok choose t :
  (forall k s, s <> ∅ -> choose k s ∈ s) -> WF t -> is_projective t = false ->
  exists t' v, projectivize choose t = Ret (t', Some v) /\ WF t' /\ moves t v t' /\
    is_projective t' = true.
Proof.
  intros Hch W Hp. unfold projectivize. rewrite Hp. cbn [negb].
  pose proof W as [G Sh Tm Nt Nd].
  destruct (proj_loop_spec choose (sort_indices t (terminals t)) Hch (S (node_count (tr_graph t))) t (dfs_post_new (tr_root t)) [] 0)
    as (t' & v & -> & H).
  - done.
  - by apply sentence_sorted.
  - by apply pinv_new.
  - set_solver.
  - unfold dfs_left, node_count. simpl.
    assert (size (dom (nodes t) ∖ ∅) <= size (dom (nodes t))) by (apply subseteq_size; set_solver).
    rewrite size_dom in *. lia.
  - by exists t', v.
Qed.
