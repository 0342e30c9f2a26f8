(** The post-order traversal visits every node exactly once, children first. *)
From Coq Require Import Lia.
From Verif Require Import TreeSpec BaseProofs ShapeProofs GraphProofs.

Lemma elem_of_list_rev {A} (l : list A) x : x ∈ rev l <-> x ∈ l.
Proof. by rewrite !elem_of_list_In, <- in_rev. Qed.

Lemma size_difference_step (X D : gset nat) n :
  n ∈ X -> n ∉ D -> size (X ∖ D) = S (size (X ∖ ({[n]} ∪ D))).
Proof.
  intros Hin HD. assert (E : X ∖ D = {[n]} ∪ X ∖ ({[n]} ∪ D)).
  { apply set_eq. intros x. destruct (decide (x = n)) as [->|]; set_solver. }
  rewrite E at 1. rewrite size_union by set_solver. by rewrite size_singleton.
Qed.

Record dfs_inv (N : gmap nat node) (es : list erec) (root : nat) (d : dfs_post) : Prop := {
  di_fin : d_fin d ⊆ d_disc d;
  di_live : forall x, x ∈ d_stack d -> is_Some (N !! x);
  di_disc_live : forall x, x ∈ d_disc d -> is_Some (N !! x);
  di_root : root ∈ d_stack d \/ root ∈ d_fin d;
  di_on_stack : forall x, x ∈ d_disc d -> x ∈ d_fin d \/ x ∈ d_stack d;
  di_above : forall s1 x s2, d_stack d = s1 ++ x :: s2 -> x ∈ d_disc d -> x ∉ d_fin d ->
               forall c, PE es x c -> c ∈ d_fin d \/ c ∈ s1;
  di_kids : forall x c, x ∈ d_disc d -> PE es x c -> c ∈ d_stack d \/ c ∈ d_fin d;
  di_fin_kids : forall x c, x ∈ d_fin d -> PE es x c -> c ∈ d_fin d;
  di_par : forall x p, x ∈ d_disc d \/ x ∈ d_stack d -> PE es p x -> p ∈ d_disc d
}.

Section dfs.
  Context {N : gmap nat node} {es : list erec} {root : nat}.
  Hypothesis (S : shape_ok N es root).

  Lemma dfs_inv_new : dfs_inv N es root (dfs_post_new root).
  Proof.
    constructor; simpl; try set_solver.
    - intros x ->%elem_of_list_singleton. apply (sh_root _ _ _ S).
    - intros x p [H|H]; [set_solver|]. apply elem_of_list_singleton in H as ->.
      intros H. by apply (sh_root_top _ _ _ S) in H.
  Qed.

  Lemma elem_of_neighbors g n c : g_edges g = es -> c ∈ neighbors g n <-> PE es n c.
  Proof.
    intros E. unfold neighbors, out_edges. rewrite E, elem_of_list_fmap. split.
    - intros (r & -> & Hr). rewrite !elem_of_list_filter in Hr. exists r. tauto.
    - intros (r & H1 & H2 & H3 & <-). exists r. split; [done|].
      rewrite !elem_of_list_filter. tauto.
  Qed.
  Lemma neighbors_length g n :
    g_edges g = es -> length (neighbors g n) <= length (filter (fun r => e_src r = n) es).
  Proof.
    intros E. unfold neighbors, out_edges. rewrite map_length, E.
    generalize (filter (fun r => e_src r = n) es). clear. intros l.
    induction l as [|r l IH]; [done|]. rewrite filter_cons. destruct (decide _); simpl; lia.
  Qed.

  (** Measure of one call. *)
  Definition dfs_measure (d : dfs_post) : nat :=
    length (d_stack d) + size (dom N ∖ d_disc d) + length (filter (fun r => e_src r ∉ d_disc d) es).

  Lemma filter_length_le {A} (P : A -> Prop) `{!forall x, Decision (P x)} (l : list A) :
    length (filter P l) <= length l.
  Proof. induction l as [|x l IH]; [done|]. rewrite filter_cons. destruct (decide _); simpl; lia. Qed.
  Lemma filter_split_src D n :
    n ∉ D ->
    length (filter (fun r => e_src r ∉ ({[n]} ∪ D : gset nat)) es)
    + length (filter (fun r => e_src r = n) es)
    = length (filter (fun r => e_src r ∉ D) es).
  Proof.
    intros Hn. clear S. induction es as [|r l IH]; [done|]. rewrite !filter_cons.
    destruct (decide (e_src r ∉ {[n]} ∪ D)), (decide (e_src r = n)), (decide (e_src r ∉ D));
      simpl; try lia; exfalso; set_solver.
  Qed.

  Lemma dfs_next_spec fuel g d :
    g_edges g = es -> dfs_inv N es root d -> dfs_measure d < fuel ->
    (dfs_post_next fuel g d = Ret None /\ forall n, is_Some (N !! n) -> n ∈ d_fin d) \/
    exists n d', dfs_post_next fuel g d = Ret (Some (n, d')) /\ dfs_inv N es root d' /\
      is_Some (N !! n) /\ n ∉ d_fin d /\ d_fin d' = {[n]} ∪ d_fin d /\
      (forall c, PE es n c -> c ∈ d_fin d) /\
      (forall p, PE es p n -> p ∈ d_disc d' /\ p ∉ d_fin d).
  Proof.
    intros Eg. revert d. induction fuel as [|fuel IH]; intros d I Hm; [lia|]. simpl.
    destruct (d_stack d) as [|nx rest] eqn:Hst.
    { left. split; [done|]. apply (tree_ind_down S).
      - destruct (di_root _ _ _ _ I) as [H|H]; [|done]. rewrite Hst in H. set_solver.
      - intros p c _ Hp Hc. by eapply (di_fin_kids _ _ _ _ I). }
    destruct (bool_decide (nx ∈ d_disc d)) eqn:Hdisc.
    - apply bool_decide_eq_true in Hdisc.
      destruct (bool_decide (nx ∈ d_fin d)) eqn:Hfin.
      + apply bool_decide_eq_true in Hfin.
        assert (I' : dfs_inv N es root (mk_dfs rest (d_disc d) (d_fin d))).
        { destruct I as [i1 i2 i3 i4 i5 i6 i7 i8 i9]. rewrite Hst in *.
          constructor; simpl; try done.
          - intros x Hx. apply i2. set_solver.
          - set_solver.
          - intros x Hx. destruct (i5 x Hx) as [H|H]; [by left|]. set_solver.
          - intros s1 x s2 E Hx Hxf c Hc.
            destruct (i6 (nx :: s1) x s2 ltac:(by rewrite E) Hx Hxf c Hc) as [H|H]; [by left|].
            apply elem_of_cons in H as [->|H]; [by left|by right].
          - intros x c Hx Hc. destruct (i7 x c Hx Hc) as [H|H]; set_solver.
          - intros x p [Hx|Hx] Hp; [by eapply i9; eauto|].
            eapply i9; [|done]. right. set_solver. }
        destruct (IH _ I') as [[H1 H2]|(n & d' & H1 & H2)].
        * unfold dfs_measure in *. rewrite Hst in Hm. simpl in *. lia.
        * left. split; [exact H1|exact H2].
        * right. exists n, d'. exact (conj H1 H2).
      + apply bool_decide_eq_false in Hfin. right.
        eexists nx, _. split; [reflexivity|].
        pose proof I as [i1 i2 i3 i4 i5 i6 i7 i8 i9]. rewrite Hst in *.
        assert (Hk : forall c, PE es nx c -> c ∈ d_fin d).
        { intros c Hc. destruct (i6 [] nx rest eq_refl Hdisc Hfin c Hc) as [H|H]; set_solver. }
        split_and!; simpl; try done.
        * constructor; simpl.
          -- set_solver.
          -- intros x Hx. apply i2. set_solver.
          -- done.
          -- set_solver.
          -- intros x Hx. destruct (i5 x Hx) as [H|H]; set_solver.
          -- intros s1 x s2 E Hx Hxf c Hc.
             destruct (i6 (nx :: s1) x s2 ltac:(by rewrite E) Hx ltac:(set_solver) c Hc) as [H|H];
               set_solver.
          -- intros x c Hx Hc. destruct (i7 x c Hx Hc) as [H|H]; set_solver.
          -- intros x c Hx Hc. apply elem_of_union in Hx as [->%elem_of_singleton|Hx]; [set_solver|].
             apply elem_of_union. right. by eapply i8.
          -- intros x p [Hx|Hx] Hp; [by eapply i9; eauto|].
             eapply i9; [|done]. right. set_solver.
        * apply i2. set_solver.
        * intros p Hp. split; [eapply i9; [|done]; by left|].
          intros Hpf. apply Hfin. by eapply i8.
    - apply bool_decide_eq_false in Hdisc.
      assert (Hlive : is_Some (N !! nx)) by (apply (di_live _ _ _ _ I); rewrite Hst; set_solver).
      set (succs := filter (fun s => s ∉ {[nx]} ∪ d_disc d) (neighbors g nx)) in *.
      assert (Hs : forall c, c ∈ rev succs <-> PE es nx c).
      { intros c. rewrite (elem_of_list_rev succs c). unfold succs.
        rewrite elem_of_list_filter, (elem_of_neighbors g nx c Eg). split; [tauto|].
        intros Hc. split; [|done]. rewrite not_elem_of_union, not_elem_of_singleton. split.
        - intros ->. by apply (PE_irrefl S nx).
        - intros Hcd. apply Hdisc. eapply (di_par _ _ _ _ I c nx); [by left|done]. }
      assert (Hlen : length (rev succs) <= length (filter (fun r => e_src r = nx) es)).
      { rewrite rev_length. etrans; [apply filter_length_le|]. by apply neighbors_length. }
      clearbody succs.
      assert (I' : dfs_inv N es root
                     (mk_dfs (rev succs ++ nx :: rest) ({[nx]} ∪ d_disc d) (d_fin d))).
      { destruct I as [i1 i2 i3 i4 i5 i6 i7 i8 i9]. rewrite Hst in *.
        constructor; simpl.
        - set_solver.
        - intros x [Hx|Hx]%elem_of_app; [|by apply i2].
          apply Hs in Hx. by apply (sh_live _ _ _ S nx x).
        - intros x [->%elem_of_singleton|Hx]%elem_of_union; [done|by apply i3].
        - set_solver.
        - intros x [->%elem_of_singleton|Hx]%elem_of_union; [right; set_solver|].
          destruct (i5 x Hx) as [H|H]; set_solver.
        - intros s1 x s2 E Hx Hxf c Hc.
          apply app_eq_app in E as (k & [[E1 E2]|[E1 E2]]).
          + destruct k as [|y k].
            * rewrite app_nil_r in E1. subst s1. injection E2 as <- <-.
              right. by apply Hs.
            * (* x is one of the pushed successors: not discovered *)
              injection E2 as <- E2. exfalso.
              assert (Hxs : x ∈ rev succs) by (rewrite E1; set_solver).
              apply Hs in Hxs. apply elem_of_union in Hx as [->%elem_of_singleton|Hx].
              -- by apply (PE_irrefl S nx).
              -- apply Hdisc. eapply i9; [by left|done].
          + destruct k as [|y k].
            * rewrite app_nil_r in E1. subst s1. injection E2 as <- <-. right. by apply Hs.
            * simpl in E2. injection E2 as <- E2. subst s1.
              destruct (decide (x = nx)) as [->|Hne]; [right; apply elem_of_app; left; by apply Hs|].
              assert (Hxd : x ∈ d_disc d) by set_solver.
              destruct (i6 (nx :: k) x s2 ltac:(by rewrite E2) Hxd Hxf c Hc) as [H|H];
                [by left|]. right. set_solver.
        - intros x c [->%elem_of_singleton|Hx]%elem_of_union Hc.
          + left. apply elem_of_app. left. by apply Hs.
          + destruct (i7 x c Hx Hc) as [H|H]; [left|by right]. set_solver.
        - done.
        - intros x p Hx Hp. destruct (decide (p = nx)) as [->|Hpn]; [set_solver|].
          apply elem_of_union. right.
          assert (Hx' : x ∈ d_disc d \/ x ∈ nx :: rest).
          { destruct Hx as [[->%elem_of_singleton|Hx]%elem_of_union|[Hx|Hx]%elem_of_app];
              [right; set_solver|by left| |by right].
            apply Hs in Hx. exfalso. apply Hpn. by apply (PE_parent_unique S p nx x). }
          by eapply i9. }
      destruct (IH _ I') as [[H1 H2]|(n & d' & H1 & H2)].
      + unfold dfs_measure in *. rewrite Hst in Hm. simpl in *. rewrite app_length. simpl.
        pose proof (filter_split_src (d_disc d) nx Hdisc).
        assert (Hin : nx ∈ dom N) by (by apply elem_of_dom).
        pose proof (size_difference_step _ _ _ Hin Hdisc).
        lia.
      + left. split; [exact H1|exact H2].
      + right. exists n, d'. exact (conj H1 H2).
  Qed.

  Lemma dfs_fuel_enough g d :
    g_nodes g = N -> g_edges g = es -> dfs_measure d < dfs_fuel g d.
  Proof.
    clear S. intros EN EE. unfold dfs_measure, dfs_fuel, node_count. rewrite EN, EE.
    pose proof (filter_length_le (fun r => e_src r ∉ d_disc d) es).
    assert (size (dom N ∖ d_disc d) <= size (dom N)) by (apply subseteq_size; set_solver).
    rewrite size_dom in *. lia.
  Qed.
End dfs.

(** The number of nodes still to be finished. *)
Definition dfs_left (N : gmap nat node) (d : dfs_post) : nat := size (dom N ∖ d_fin d).
Lemma dfs_left_step N (d d' : dfs_post) n :
  is_Some (N !! n) -> n ∉ d_fin d -> d_fin d' = {[n]} ∪ d_fin d ->
  dfs_left N d = S (dfs_left N d').
Proof.
  intros Hn Hf E. unfold dfs_left. rewrite E.
  apply size_difference_step; [by apply elem_of_dom|done].
Qed.
