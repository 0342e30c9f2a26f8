(** Existence and uniqueness of the rose tree of a well-formed tree; its leaves. *)
From Coq Require Import Lia.
From Verif Require Import ModModel TreeSpec BaseProofs ShapeProofs GraphProofs TreeOps SortProofs RoseSpec.

Lemma Den_ind' (N : gmap nat node) (es : list erec) (P : nat -> rose -> Prop) :
  (forall n tm, N !! n = Some (T tm) -> P n (RLeaf tm)) ->
  (forall n nt l cs,
    N !! n = Some (NT nt) ->
    (forall r, r ∈ l <-> r ∈ es /\ is_primary (e_w r) = true /\ e_src r = n) ->
    StronglySorted (fun a b => first_pos N (e_tgt a) < first_pos N (e_tgt b)) l ->
    Forall2 (fun r c => c.1 = edge_label (e_w r) /\ Den N es (e_tgt r) c.2 /\ P (e_tgt r) c.2) l cs ->
    P n (RNode nt cs)) ->
  forall n r, Den N es n r -> P n r.
Proof.
  intros Hl Hn. fix IH 3. intros n r [n' tm H|n' nt l cs H1 H2 H3 H4]; [by apply Hl|].
  apply (Hn n' nt l cs H1 H2 H3).
  clear H2 H3. induction H4 as [|e c l cs [E D] H4 IH4]; constructor; [|exact IH4].
  split; [exact E|]. split; [exact D|]. exact (IH _ _ D).
Qed.

Lemma elem_of_concat {A} (x : A) (ls : list (list A)) : x ∈ concat ls <-> exists l, x ∈ l /\ l ∈ ls.
Proof.
  induction ls as [|l ls IH]; simpl; [set_solver|]. rewrite elem_of_app, IH. split.
  - intros [H|(l' & H & H')]; [exists l|exists l']; set_solver.
  - intros (l' & H & [->|H']%elem_of_cons); [by left|right; eauto].
Qed.
Lemma first_pos_start N n : first_pos N n = node_start N n.
Proof. done. Qed.

Lemma Den_live N es n r : Den N es n r -> is_Some (N !! n).
Proof. intros [? ? H|? ? ? ? H]; eauto. Qed.

(** Sorting the outgoing primary edges. *)
Definition out_sorted (t : tree) (n : nat) : list erec :=
  sort_by (fun a b => Nat.compare (first_pos (nodes t) (e_tgt a)) (first_pos (nodes t) (e_tgt b)))
    (filter (fun r => is_primary (e_w r) = true) (out_edges (tr_graph t) n)).
Lemma out_sorted_spec t n :
  graph_ok (tr_graph t) -> shape_ok (nodes t) (edges t) (tr_root t) ->
  terms_ok (nodes t) (tr_nterm t) -> nts_ok (nodes t) (edges t) ->
  (forall r, r ∈ out_sorted t n <-> r ∈ edges t /\ is_primary (e_w r) = true /\ e_src r = n) /\
  StronglySorted (fun a b => first_pos (nodes t) (e_tgt a) < first_pos (nodes t) (e_tgt b)) (out_sorted t n).
Proof.
  intros G Sh Tm Nt. unfold out_sorted.
  set (es := filter (fun r => is_primary (e_w r) = true) (out_edges (tr_graph t) n)).
  set (cmp := fun a b => Nat.compare (first_pos (nodes t) (e_tgt a)) (first_pos (nodes t) (e_tgt b))).
  assert (Hes : forall r, r ∈ es <-> r ∈ edges t /\ is_primary (e_w r) = true /\ e_src r = n).
  { intros r. unfold es, out_edges. rewrite !elem_of_list_filter. tauto. }
  assert (Hnd : NoDup es) by (apply NoDup_filter, NoDup_filter, edges_nodup, G).
  split.
  - intros r. by rewrite elem_of_sort_by.
  - assert (HS : StronglySorted (fun a b => cmp a b <> Gt) (sort_by cmp es)).
    { apply (sort_by_sorted _ (fun _ => True)).
      - intros a b _ _. unfold cmp. rewrite Nat.compare_gt_iff, Nat.compare_ngt_iff. lia.
      - intros a b c _ _ _. unfold cmp. rewrite !Nat.compare_ngt_iff. lia.
      - by apply Forall_forall. }
    assert (Hin : forall x, x ∈ sort_by cmp es -> x ∈ es) by (intros x; by rewrite elem_of_sort_by).
    assert (Hnd' : NoDup (sort_by cmp es)) by (by rewrite sort_by_perm).
    induction HS as [|a l HS IH HF]; constructor.
    + apply IH; [intros x Hx; apply Hin; set_solver|]. by apply NoDup_cons in Hnd' as [_ ?].
    + apply Forall_forall. intros b Hb. rewrite Forall_forall in HF. specialize (HF b Hb).
      unfold cmp in HF. rewrite Nat.compare_ngt_iff in HF.
      apply NoDup_cons in Hnd' as [Ha _].
      assert (first_pos (nodes t) (e_tgt a) <> first_pos (nodes t) (e_tgt b)); [|lia].
      intros E. destruct (proj1 (Hes a) (Hin a ltac:(set_solver))) as (A1 & A2 & A3).
      destruct (proj1 (Hes b) (Hin b ltac:(set_solver))) as (B1 & B2 & B3).
      assert (e_tgt a = e_tgt b) as Et.
      { apply (sibling_starts Sh Tm Nt n); [by exists a|by exists b|exact E]. }
      apply Ha. by rewrite (sh_uniq _ _ _ Sh a b A1 B1 A2 B2 Et).
Qed.

(** Every node of a well-formed tree has a reading ... *)
Lemma Den_total t n : WF t -> is_Some (nodes t !! n) -> exists r, Den (nodes t) (edges t) n r.
Proof.
  intros [G Sh Tm Nt Nd]. revert n. apply (tree_ind_up Sh). intros n [[nt|tm] Hn] IH.
  - destruct (out_sorted_spec t n G Sh Tm Nt) as (Hl & HS).
    set (l := out_sorted t n) in *. clearbody l.
    assert (exists cs, Forall2 (fun r c => c.1 = edge_label (e_w r) /\ Den (nodes t) (edges t) (e_tgt r) c.2) l cs)
      as [cs Hcs].
    { assert (Hall : Forall (fun r => exists c, Den (nodes t) (edges t) (e_tgt r) c) l).
      { apply Forall_forall. intros r (H1 & H2 & H3)%Hl. apply IH. by exists r. }
      clear Hl HS. induction Hall as [|r l [c Hc] Hall [cs Hcs]]; [by exists []|].
      exists ((edge_label (e_w r), c) :: cs). by constructor. }
    exists (RNode nt cs). by apply (Den_node _ _ n nt l cs).
  - exists (RLeaf tm). by constructor.
Qed.
Lemma Reads_total t : WF t -> exists r, Reads t r.
Proof. intros W. apply Den_total; [done|]. apply (sh_root _ _ _ (wf_shape _ W)). Qed.

(** ... and only one. *)
Lemma Den_fun N es n r1 : Den N es n r1 -> forall r2, Den N es n r2 -> r1 = r2.
Proof.
  revert n r1. apply (Den_ind' N es (fun n r1 => forall r2, Den N es n r2 -> r1 = r2)).
  - intros n tm H r2 D. inversion D; subst; congruence.
  - intros n nt l cs H1 H2 H3 H4 r2 D. inversion D as [n' tm H'|n' nt' l' cs' H1' H2' H3' H4']; subst; [congruence|].
    assert (nt' = nt) as -> by congruence.
    assert (l' = l) as ->.
    { apply (ssorted_eq (fun r => first_pos N (e_tgt r))); [done|done|].
      intros x. rewrite H2, H2'. done. }
    f_equal. clear D H1 H2 H3 H1' H2' H3'.
    revert cs' H4'. induction H4 as [|e c l cs (E & D & IH) H4 IH4]; intros cs' H4'.
    + by inversion H4'.
    + inversion H4' as [|? c' ? cs'' [E' D'] H4'']; subst. f_equal; [|by apply IH4].
      destruct c, c'; simpl in *. f_equal; [congruence|by apply IH].
Qed.

(** The leaves of a reading are the dominated terminals. *)
Lemma Den_leaves t n r :
  WF t -> Den (nodes t) (edges t) n r ->
  forall tm, tm ∈ leaves r <-> exists m, Dom (edges t) n m /\ nodes t !! m = Some (T tm).
Proof.
  intros [G Sh Tm Nt Nd]. revert n r.
  apply (Den_ind' (nodes t) (edges t) (fun n r => forall tm, tm ∈ leaves r <-> exists m, Dom (edges t) n m /\ nodes t !! m = Some (T tm))).
  - intros n tm H tm'. simpl. rewrite elem_of_list_singleton. split.
    + intros ->. exists n. split; [done|done].
    + intros (m & Hm & E). pose proof (term_Dom Sh n tm m H Hm) as ->. congruence.
  - intros n nt l cs H1 H2 H3 H4 tm. simpl. split.
    + intros Hin. apply elem_of_concat in Hin as (ls & Htm & Hls).
      apply elem_of_list_fmap in Hls as (c & -> & Hc).
      apply elem_of_list_lookup in Hc as [i Hc].
      destruct (Forall2_lookup_r _ _ _ _ _ H4 Hc) as (e & He & E & D & IH).
      apply IH in Htm as (m & Hm & Ht). exists m. split; [|done].
      apply elem_of_list_lookup_2, H2 in He as (He1 & He2 & He3).
      eapply rtc_l; [|exact Hm]. by exists e.
    + intros (m & Hm & Ht). inversion Hm as [|? c ? Hc Hcm]; subst; [congruence|].
      destruct Hc as (e & He1 & He2 & He3 & He4).
      assert (e ∈ l) as [i Hi]%elem_of_list_lookup by (by apply H2).
      destruct (Forall2_lookup_l _ _ _ _ _ H4 Hi) as (d & Hd & E & D & IH).
      apply elem_of_concat. exists (leaves d.2). split.
      * apply IH. exists m. split; [by subst|done].
      * apply elem_of_list_fmap. exists d. split; [done|]. by apply elem_of_list_lookup_2 in Hd.
Qed.
Lemma Den_yields t n r :
  WF t -> Den (nodes t) (edges t) n r -> forall i, yields (nodes t) (edges t) n i <-> i ∈ map t_idx (leaves r).
Proof.
  intros W D i. pose proof (Den_leaves t n r W D) as H. unfold yields. rewrite elem_of_list_fmap. split.
  - intros (m & Hm & tm & Ht & Hs). exists tm. split; [unfold t_idx; by rewrite Hs|]. apply H. eauto.
  - intros (tm & -> & Hin). apply H in Hin as (m & Hm & Ht). exists m. split; [done|].
    by apply (term_pos_of _ _ _ _ (wf_terms _ W)).
Qed.

(** The sorted children computed by the code are the edges of the reading. *)
Lemma sorted_children_edges t n l :
  WF t -> (forall r, r ∈ l <-> r ∈ edges t /\ is_primary (e_w r) = true /\ e_src r = n) ->
  StronglySorted (fun a b => first_pos (nodes t) (e_tgt a) < first_pos (nodes t) (e_tgt b)) l ->
  sort_indices t (map fst (children t n)) = map e_tgt l.
Proof.
  intros [G Sh Tm Nt Nd] Hl HS.
  destruct (sorted_children_spec t n G Sh Tm Nt) as (HS' & HP & Hin).
  apply (ssorted_eq (node_start (nodes t))); [exact HS'| |].
  - clear Hl. induction HS as [|a l HS IH HF]; simpl; constructor; [done|].
    rewrite Forall_forall in HF. apply Forall_forall. intros x (r & -> & Hr)%elem_of_list_fmap. by apply HF.
  - intros c. unfold sorted_children in Hin. rewrite Hin, elem_of_list_fmap. split.
    + intros (r & H1 & H2 & H3 & H4). exists r. split; [done|]. by apply Hl.
    + intros (r & -> & (H1 & H2 & H3)%Hl). by exists r.
Qed.
Lemma sorted_targets_inj N (l : list erec) i j a b :
  StronglySorted (fun a b => first_pos N (e_tgt a) < first_pos N (e_tgt b)) l ->
  l !! i = Some a -> l !! j = Some b -> e_tgt a = e_tgt b -> i = j.
Proof.
  intros HS. revert i j. induction HS as [|x l HS IH HF]; intros i j Hi Hj E; [done|].
  rewrite Forall_forall in HF. destruct i as [|i], j as [|j]; simpl in *; [done| | |].
  - injection Hi as ->. apply elem_of_list_lookup_2, HF in Hj. rewrite E in Hj. lia.
  - injection Hj as ->. apply elem_of_list_lookup_2, HF in Hi. rewrite E in Hi. lia.
  - f_equal. by apply IH.
Qed.

(** Computing the reading, for concrete examples. *)
Fixpoint read_rose (fuel : nat) (t : tree) (n : nat) : rose :=
  match fuel with
  | 0 => RNode (mk_nt [] None (span_of 0)) []
  | S fuel =>
      match nodes t !! n with
      | Some (T tm) => RLeaf tm
      | Some (NT nt) => RNode nt (map (fun r => (edge_label (e_w r), read_rose fuel t (e_tgt r))) (out_sorted t n))
      | None => RNode (mk_nt [] None (span_of 0)) []
      end
  end.
Definition rose_of (t : tree) : rose := read_rose (size (nodes t)) t (tr_root t).
Lemma rose_of_ok t : WF t -> Reads t (rose_of t).
Proof.
  intros [G Sh Tm Nt Nd]. unfold Reads, rose_of.
  assert (H : forall fuel n l, is_Some (nodes t !! n) -> upath (edges t) n l -> size (nodes t) <= length l + fuel ->
            Den (nodes t) (edges t) n (read_rose fuel t n)).
  { induction fuel as [|fuel IH]; intros n l Hn Hl Hsz.
    - pose proof (upath_length Sh n l Hn Hl). lia.
    - simpl. destruct Hn as [[nt|tm] Hn]; rewrite Hn; [|by constructor].
      destruct (out_sorted_spec t n G Sh Tm Nt) as [Ho HS]. apply (Den_node _ _ n nt (out_sorted t n)); [done|done|done|].
      assert (Hall : forall r, r ∈ out_sorted t n -> PE (edges t) n (e_tgt r)).
      { intros r (R1 & R2 & R3)%Ho. by exists r. }
      clear Ho HS. induction (out_sorted t n) as [|r es IHes]; simpl; constructor.
      + split; [done|]. simpl. apply (IH _ (n :: l)).
        * apply (sh_live _ _ _ Sh n). apply Hall. set_solver.
        * constructor; [apply Hall; set_solver|done].
        * simpl. lia.
      + apply IHes. set_solver. }
  apply (H _ _ []); [apply (sh_root _ _ _ Sh)| |simpl; lia]. constructor. apply (sh_root_top _ _ _ Sh).
Qed.
