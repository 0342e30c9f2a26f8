(** Graphs laid out like an ordered tree: from the layout to well-formedness and the reading. *)
From Coq Require Import Lia.
From Verif Require Import EncModel TreeSpec BaseProofs ShapeProofs SpanProofs GraphProofs SortProofs ResetProofs RoseSpec RoseProofs
  PtbPrint EncSpec DecPure.

Inductive it := IL (n : nat) (tm : terminal) | IN (n : nat) (nt : nonterminal) (cs : list it).
Section it_ind.
  Context (P : it -> Prop).
  Hypothesis Hl : forall n tm, P (IL n tm).
  Hypothesis Hn : forall n nt cs, Forall P cs -> P (IN n nt cs).
  Fixpoint it_ind' (x : it) : P x :=
    match x with
    | IL n tm => Hl n tm
    | IN n nt cs => Hn n nt cs ((fix go cs : Forall P cs :=
        match cs with [] => @List.Forall_nil _ _ | c :: cs => @List.Forall_cons _ _ c cs (it_ind' c) (go cs) end) cs)
    end.
End it_ind.
Definition iid (x : it) : nat := match x with IL n _ => n | IN n _ _ => n end.
Fixpoint ids (x : it) : list nat :=
  match x with IL n _ => [n] | IN n _ cs => n :: concat (map ids cs) end.
Fixpoint ileafs (x : it) : list (nat * terminal) :=
  match x with IL n tm => [(n, tm)] | IN _ _ cs => concat (map ileafs cs) end.
Definition ipos (x : it) : list nat := map (fun p => t_idx p.2) (ileafs x).
(** Targets of the outgoing edges, newest first. *)
Definition kids (es : list erec) (n : nat) : list nat := map e_tgt (filter (fun r => e_src r = n) es).
Inductive holds (N : gmap nat node) (es : list erec) : it -> Prop :=
| H_leaf n tm : N !! n = Some (T tm) -> kids es n = [] -> holds N es (IL n tm)
| H_node n nt cs : N !! n = Some (NT nt) -> kids es n = rev (map iid cs) -> Forall (holds N es) cs ->
    holds N es (IN n nt cs).
Inductive sub (y : it) : it -> Prop :=
| sub_refl : sub y y
| sub_child n nt cs c : c ∈ cs -> sub y c -> sub y (IN n nt cs).

Lemma iid_in x : iid x ∈ ids x.
Proof. destruct x; simpl; set_solver. Qed.
Lemma ids_cons x : exists l, ids x = iid x :: l.
Proof. destruct x; simpl; eauto. Qed.
Lemma holds_frame N es N' es' x :
  holds N es x -> (forall n, n ∈ ids x -> N' !! n = N !! n /\ kids es' n = kids es n) -> holds N' es' x.
Proof.
  induction x as [n tm|n nt cs IH] using it_ind'; intros H HF; inversion H; subst.
  - destruct (HF n ltac:(simpl; set_solver)) as [F1 F2]. constructor; congruence.
  - destruct (HF n ltac:(simpl; set_solver)) as [F1 F2]. constructor; [congruence|congruence|].
    apply Forall_forall. intros c Hc. rewrite Forall_forall in IH. match goal with H : Forall (holds _ _) _ |- _ => rewrite Forall_forall in H end.
    apply IH; [done|auto|]. intros m Hm. apply HF. simpl. apply elem_of_cons. right. apply elem_of_concat.
    exists (ids c). split; [done|]. by apply elem_of_list_fmap_1.
Qed.
Lemma sub_holds N es y x : sub y x -> holds N es x -> holds N es y.
Proof.
  induction 1 as [|n nt cs c Hc H IH]; [done|]. intros Hx. inversion Hx; subst. apply IH.
  match goal with H : Forall (holds _ _) _ |- _ => rewrite Forall_forall in H; auto end.
Qed.
Lemma elem_concat_map {A B} (f : A -> list B) (l : list A) x : x ∈ concat (map f l) <-> exists a, a ∈ l /\ x ∈ f a.
Proof.
  rewrite elem_of_concat. split.
  - intros (k & H1 & (a & -> & Ha)%elem_of_list_fmap). eauto.
  - intros (a & Ha & Hx). exists (f a). split; [done|]. by apply elem_of_list_fmap_1.
Qed.
Lemma sub_ids y x : sub y x -> forall n, n ∈ ids y -> n ∈ ids x.
Proof.
  induction 1 as [|n nt cs c Hc H IH]; [done|]. intros m Hm. simpl. apply elem_of_cons. right.
  apply elem_concat_map. eauto.
Qed.
Lemma ids_sub x n : n ∈ ids x -> exists y, sub y x /\ iid y = n.
Proof.
  induction x as [m tm|m nt cs IH] using it_ind'; simpl; intros Hn.
  - apply elem_of_list_singleton in Hn as ->. exists (IL m tm). split; [constructor|done].
  - apply elem_of_cons in Hn as [->|Hn]; [exists (IN m nt cs); split; [constructor|done]|].
    apply elem_concat_map in Hn as (c & Hc & Hn). rewrite Forall_forall in IH.
    destruct (IH c Hc Hn) as (y & Hy & <-). exists y. split; [|done]. by econstructor.
Qed.
Lemma sub_trans z y x : sub z y -> sub y x -> sub z x.
Proof. intros H1 H2. induction H2; [done|]. econstructor; eauto. Qed.
Lemma nodup_concat_same {A B} (f : A -> list B) (l : list A) a b x :
  NoDup (concat (map f l)) -> a ∈ l -> b ∈ l -> x ∈ f a -> x ∈ f b -> a = b.
Proof.
  induction l as [|c l IH]; simpl; intros Hnd Ha Hb Hxa Hxb; [set_solver|].
  apply NoDup_app in Hnd as (H1 & H2 & H3).
  apply elem_of_cons in Ha as [->|Ha], Hb as [->|Hb].
  - done.
  - destruct (H2 x Hxa). apply elem_concat_map. eauto.
  - destruct (H2 x Hxb). apply elem_concat_map. eauto.
  - auto.
Qed.
Lemma nodup_concat_part {A B} (f : A -> list B) (l : list A) a : NoDup (concat (map f l)) -> a ∈ l -> NoDup (f a).
Proof.
  induction l as [|c l IH]; simpl; intros Hnd Ha; [set_solver|].
  apply NoDup_app in Hnd as (H1 & H2 & H3). apply elem_of_cons in Ha as [->|Ha]; auto.
Qed.
Lemma sub_nodup y x : sub y x -> NoDup (ids x) -> NoDup (ids y).
Proof.
  induction 1 as [|n nt cs c Hc H IH]; [done|]. simpl. intros [_ Hnd]%NoDup_cons. apply IH.
  by apply (nodup_concat_part _ _ c Hnd).
Qed.
(** A child is not the top. *)
Lemma child_not_top p nt cs c x : NoDup (ids x) -> sub (IN p nt cs) x -> c ∈ cs -> iid c <> iid x.
Proof.
  intros Hnd Hs Hc. inversion Hs as [|n' nt' ds d Hd Hsub]; subst.
  - simpl in *. apply NoDup_cons in Hnd as [H _]. intros E. apply H. apply elem_concat_map. exists c.
    split; [done|]. rewrite <- E. apply iid_in.
  - simpl in *. apply NoDup_cons in Hnd as [H _]. intros E. apply H. apply elem_concat_map. exists d.
    split; [done|]. rewrite <- E. apply (sub_ids _ _ Hsub). simpl. apply elem_of_cons. right. apply elem_concat_map.
    exists c. split; [done|apply iid_in].
Qed.
Lemma parent_unique x : forall p q np nq cs ds c d,
  NoDup (ids x) -> sub (IN p np cs) x -> sub (IN q nq ds) x -> c ∈ cs -> d ∈ ds -> iid c = iid d -> p = q.
Proof.
  induction x as [m tm|m nt es IH] using it_ind'; intros p q np nq cs ds c d Hnd Hp Hq Hc Hd E.
  - inversion Hp.
  - assert (Hnd' : NoDup (concat (map ids es))) by (simpl in Hnd; by apply NoDup_cons in Hnd as []).
    assert (Hin : forall r nr fs f e, sub (IN r nr fs) e -> f ∈ fs -> iid f ∈ ids e).
    { intros r nr fs f e Hs Hf. apply (sub_ids _ _ Hs). simpl. apply elem_of_cons. right. apply elem_concat_map.
      exists f. split; [done|apply iid_in]. }
    rewrite Forall_forall in IH.
    inversion Hp as [|n1 nt1 es1 e1 He1 Hs1]; inversion Hq as [|n2 nt2 es2 e2 He2 Hs2]; subst; [done| | |].
    + exfalso. assert (c = e2). { apply (nodup_concat_same ids es c e2 (iid c)); try done; [apply iid_in|]. rewrite E. eauto. }
      subst. apply (child_not_top q nq ds d e2); try done. by apply (nodup_concat_part _ es).
    + exfalso. assert (d = e1). { apply (nodup_concat_same ids es d e1 (iid d)); try done; [apply iid_in|]. rewrite <- E. eauto. }
      subst. apply (child_not_top p np cs c e1); try done. by apply (nodup_concat_part _ es).
    + assert (e1 = e2). { apply (nodup_concat_same ids es e1 e2 (iid c)); try done; [eauto|]. rewrite E. eauto. }
      subst. apply (IH e2 He1 p q np nq cs ds c d); try done. by apply (nodup_concat_part _ es).
Qed.
Lemma children_nodup_ids n nt cs : NoDup (ids (IN n nt cs)) -> NoDup (map iid cs).
Proof.
  simpl. intros [_ Hnd]%NoDup_cons. induction cs as [|c cs IH]; simpl in *; [constructor|].
  apply NoDup_app in Hnd as (H1 & H2 & H3). constructor; [|auto]. intros (d & E & Hd)%elem_of_list_fmap.
  destruct (H2 (iid c)); [apply iid_in|]. apply elem_concat_map. exists d. split; [done|]. rewrite E. apply iid_in.
Qed.

(** *** Dominance *)
Section layout.
  Context (N : gmap nat node) (es : list erec).
  Hypothesis Hprim : forall r, r ∈ es -> e_w r = Primary None.
  Lemma PE_kids p c : PE es p c <-> c ∈ kids es p.
  Proof.
    unfold PE, kids. rewrite elem_of_list_fmap. setoid_rewrite elem_of_list_filter. split.
    - intros (r & Hr & _ & <- & <-). eauto.
    - intros (r & -> & <- & Hr). exists r. split_and!; try done. by rewrite Hprim.
  Qed.
  Lemma PE_child y c : holds N es y -> PE es (iid y) c <-> exists n nt cs d, y = IN n nt cs /\ d ∈ cs /\ iid d = c.
  Proof.
    intros Hy. rewrite PE_kids. inversion Hy as [? ? ? H0|? ? ? ? H0]; subst; simpl.
    - rewrite H0. split; [set_solver|]. intros (? & ? & ? & ? & ? & _). done.
    - rewrite H0, elem_of_list_In, <- in_rev, <- elem_of_list_In, elem_of_list_fmap. split.
      + intros (d & -> & Hd). naive_solver.
      + intros (? & ? & ? & d & [= <- <- <-] & Hd & <-). eauto.
  Qed.
  Lemma Dom_ids y m : holds N es y -> Dom es (iid y) m <-> m ∈ ids y.
  Proof.
    intros Hy. split.
    - revert m. refine (rtc_ind_r _ _ _ _); [apply iid_in|]. intros m c _ Hmc Hm.
      destruct (ids_sub y m Hm) as (z & Hz & <-). apply (PE_child z c (sub_holds _ _ _ _ Hz Hy)) in Hmc as (n & nt & cs & d & -> & Hd & <-).
      apply (sub_ids _ _ Hz). simpl. apply elem_of_cons. right. apply elem_concat_map. exists d. split; [done|apply iid_in].
    - revert Hy. induction y as [n tm|n nt cs IH] using it_ind'; intros Hy; simpl.
      + intros ->%elem_of_list_singleton. constructor.
      + intros [->|Hm]%elem_of_cons; [constructor|]. apply elem_concat_map in Hm as (c & Hc & Hm).
        rewrite Forall_forall in IH. inversion Hy as [|? ? ? H1 H2 H3]; subst. rewrite Forall_forall in H3.
        apply rtc_l with (iid c); [|by apply IH; auto]. change n with (iid (IN n nt cs)). apply PE_child; [done|]. naive_solver.
  Qed.
End layout.
  Lemma leaf_in N es y n tm : holds N es y -> NoDup (ids y) -> n ∈ ids y -> N !! n = Some (T tm) -> (n, tm) ∈ ileafs y.
  Proof.
    intros Hy _ Hn HT. destruct (ids_sub y n Hn) as (z & Hz & <-). pose proof (sub_holds _ _ _ _ Hz Hy) as Hz'.
    inversion Hz'; subst; simpl in *; [|congruence].
    assert (tm0 = tm) as -> by congruence. clear -Hz. remember (IL n tm) as z. induction Hz; subst; simpl; [set_solver|].
    apply elem_concat_map. eauto.
  Qed.
  Lemma leaf_out N es y n tm : holds N es y -> (n, tm) ∈ ileafs y -> n ∈ ids y /\ N !! n = Some (T tm).
  Proof.
    induction y as [m tm'|m nt cs IH] using it_ind'; intros Hy; simpl.
    - intros [= -> ->]%elem_of_list_singleton. inversion Hy; subst. split; [set_solver|done].
    - intros (c & Hc & Hin)%elem_concat_map. rewrite Forall_forall in IH. inversion Hy as [|? ? ? H1 H2 H3]; subst.
      rewrite Forall_forall in H3. destruct (IH c Hc (H3 c Hc) Hin). split; [|done].
      apply elem_of_cons. right. apply elem_concat_map. eauto.
  Qed.

(** Leaf positions. *)
Lemma seq_middle l1 l2 l3 : forall lo k, l1 ++ l2 ++ l3 = seq lo k -> l2 = seq (lo + length l1) (length l2).
Proof.
  induction l1 as [|a l1 IH]; simpl; intros lo k H.
  - rewrite Nat.add_0_r. revert lo k H. induction l2 as [|b l2 IH2]; simpl; intros lo k H; [done|].
    destruct k as [|k]; simpl in H; [done|]. injection H as -> H. f_equal. eauto.
  - destruct k as [|k]; simpl in H; [done|]. injection H as -> H. rewrite (IH (S lo) k H) at 1. f_equal. lia.
Qed.
Lemma concat_map_split {A B} (f : A -> list B) (l : list A) a : a ∈ l -> exists p q, concat (map f l) = p ++ f a ++ q.
Proof.
  intros (l1 & l2 & ->)%elem_of_list_split. exists (concat (map f l1)), (concat (map f l2)).
  by rewrite map_app, concat_app.
Qed.
Lemma map_concat {A B} (f : A -> B) (ls : list (list A)) : map f (concat ls) = concat (map (map f) ls).
Proof. induction ls as [|l ls IH]; simpl; [done|]. by rewrite map_app, IH. Qed.
Lemma ipos_node n nt cs : ipos (IN n nt cs) = concat (map ipos cs).
Proof. unfold ipos. simpl. rewrite map_concat, map_map. done. Qed.
Lemma sub_pos y x : sub y x -> forall lo k, ipos x = seq lo k -> exists lo', ipos y = seq lo' (length (ipos y)).
Proof.
  induction 1 as [|n nt cs c Hc H IH]; intros lo k Hx.
  - exists lo. apply (f_equal length) in Hx as Hl. rewrite seq_length in Hl. by rewrite Hl.
  - rewrite ipos_node in Hx. destruct (concat_map_split ipos cs c Hc) as (p & q & E). rewrite E in Hx.
    apply seq_middle in Hx. eauto.
Qed.
Inductive ifull : it -> Prop :=
| if_leaf n tm : ifull (IL n tm)
| if_node n nt cs : cs <> [] -> Forall ifull cs -> ifull (IN n nt cs).
Lemma sub_full y x : sub y x -> ifull x -> ifull y.
Proof.
  induction 1 as [|n nt cs c Hc H IH]; [done|]. intros Hx. inversion Hx as [|? ? ? H1 H2]; subst. apply IH.
  rewrite Forall_forall in H2. auto.
Qed.
Lemma ifull_pos x : ifull x -> ipos x <> [].
Proof.
  induction x as [n tm|n nt cs IH] using it_ind'; intros Hx; [done|]. rewrite ipos_node.
  inversion Hx as [|? ? ? H1 H2]; subst. destruct cs as [|c cs]; [done|]. inversion H2; subst. inversion IH as [|?? IHc IHcs]; subst.
  simpl. specialize (IHc ltac:(done)). by destruct (ipos c).
Qed.
Lemma ileafs_sub y x : sub y x -> forall p, p ∈ ileafs y -> p ∈ ileafs x.
Proof. induction 1 as [|n nt cs c Hc H IH]; [done|]. intros p Hp. simpl. apply elem_concat_map. eauto. Qed.

(** The layout of a graph and its leaf positions make it a tree. *)
Record laid_out (g : graph) (x : it) : Prop := {
  lo_graph : graph_ok g;
  lo_holds : holds (g_nodes g) (g_edges g) x;
  lo_nodup : NoDup (ids x);
  lo_all : forall n, is_Some (g_nodes g !! n) -> n ∈ ids x;
  lo_prim : forall r, r ∈ g_edges g -> e_w r = Primary None
}.
Lemma nodup_map_inj {A B} (f : A -> B) (l : list A) a b : NoDup (map f l) -> a ∈ l -> b ∈ l -> f a = f b -> a = b.
Proof.
  intros Hnd [i Hi]%elem_of_list_lookup [j Hj]%elem_of_list_lookup E.
  assert (i = j) as ->; [|congruence]. apply (NoDup_lookup _ i j (f a) Hnd); rewrite list_lookup_fmap.
  - by rewrite Hi.
  - by rewrite Hj, E.
Qed.
Lemma laid_shape g x : laid_out g x -> ifull x -> shape_ok (g_nodes g) (g_edges g) (iid x).
Proof.
  intros [G H Hnd Hall Hprim] Hf.
  assert (Hpe : forall p c, PE (g_edges g) p c -> exists nt cs d, sub (IN p nt cs) x /\ d ∈ cs /\ iid d = c).
  { intros p c Hpc. assert (Hp : p ∈ ids x).
    { apply Hall. destruct Hpc as (r & Hr & _ & <- & _). apply (go_ends _ G r Hr). }
    destruct (ids_sub x p Hp) as (y & Hy & <-).
    apply (PE_child _ _ Hprim y c (sub_holds _ _ _ _ Hy H)) in Hpc as (n & nt & cs & d & -> & Hd & <-). simpl. eauto 10. }
  constructor.
  - inversion H; subst; simpl; eauto.
  - intros p (nt & cs & d & Hs & Hd & E)%Hpe. by apply (child_not_top p nt cs d x).
  - intros r1 r2 H1 H2 P1 P2 E.
    destruct (Hpe (e_src r1) (e_tgt r1)) as (nt1 & cs1 & d1 & Hs1 & Hd1 & E1); [by exists r1|].
    destruct (Hpe (e_src r2) (e_tgt r2)) as (nt2 & cs2 & d2 & Hs2 & Hd2 & E2); [by exists r2|].
    assert (Es : e_src r1 = e_src r2) by (apply (parent_unique x _ _ _ _ _ _ _ _ Hnd Hs1 Hs2 Hd1 Hd2); congruence).
    pose proof (sub_holds _ _ _ _ Hs1 H) as Hh. inversion Hh as [|? ? ? _ Hk _]; subst.
    apply (nodup_map_inj e_tgt (filter (fun r => e_src r = e_src r1) (g_edges g))); try done.
    + unfold kids in Hk. rewrite Hk.
      apply NoDup_ListNoDup, NoDup_rev, NoDup_ListNoDup. by apply (children_nodup_ids (e_src r1) nt1), (sub_nodup _ _ Hs1).
    + by apply elem_of_list_filter.
    + by apply elem_of_list_filter.
  - intros p c (r & Hr & _ & <- & <-). by apply (go_ends _ G r Hr).
  - intros n Hn. apply (Dom_ids _ _ Hprim x n H). by apply Hall.
  - intros n tm c Hn (nt & cs & d & Hs & _)%Hpe. pose proof (sub_holds _ _ _ _ Hs H) as Hh.
    inversion Hh as [|? ? ? Hh' _ _]; subst. congruence.
  - intros n nt Hn. destruct (ids_sub x n) as (y & Hy & <-); [apply Hall; eauto|].
    pose proof (sub_holds _ _ _ _ Hy H) as Hh. pose proof (sub_full _ _ Hy Hf) as Hfy.
    inversion Hh as [? tm Hh' _|m nt' cs Hh' _ _]; subst; simpl in *; [congruence|].
    inversion Hfy as [|? ? ? Hne _]; subst. destruct cs as [|c cs]; [done|]. exists (iid c).
    change m with (iid (IN m nt' (c :: cs))). apply (PE_child (g_nodes g) _ Hprim); [done|]. exists m, nt', (c :: cs), c. set_solver.
Qed.

(** The leaves stand at [0 .. k-1]. *)
Definition at_positions (x : it) (k : nat) : Prop := map (fun p => t_span p.2) (ileafs x) = map span_of (seq 0 k).
Lemma at_ipos x k : at_positions x k -> ipos x = seq 0 k.
Proof.
  unfold at_positions, ipos. intros H. apply (f_equal (map sp_start)) in H. rewrite !map_map in H.
  unfold t_idx. rewrite H. simpl. apply map_id.
Qed.
Lemma at_span x k p : at_positions x k -> p ∈ ileafs x -> t_span p.2 = span_of (t_idx p.2) /\ t_idx p.2 < k.
Proof.
  intros H [i Hi]%elem_of_list_lookup. unfold at_positions in H.
  assert (Hx : map (fun p => t_span p.2) (ileafs x) !! i = Some (t_span p.2)) by (by rewrite list_lookup_fmap, Hi).
  rewrite H, list_lookup_fmap in Hx. destruct (seq 0 k !! i) as [j|] eqn:Ej; [|done]. simpl in Hx. injection Hx as Hx.
  apply lookup_seq in Ej as [-> Hlt]. unfold t_idx. rewrite <- Hx. simpl. split; [done|lia].
Qed.
Lemma laid_terms g x k : laid_out g x -> at_positions x k -> terms_ok (g_nodes g) k.
Proof.
  intros [G H Hnd Hall Hprim] Hat. pose proof (at_ipos x k Hat) as Hip. constructor.
  - intros n tm Hn. exists (t_idx tm). apply (at_span x k (n, tm) Hat).
    apply (leaf_in (g_nodes g) (g_edges g)); try done. apply Hall. eauto.
  - intros n m i (tm & Hn & Hs) (tm' & Hm & Hs').
    assert (H1 : (n, tm) ∈ ileafs x) by (apply (leaf_in (g_nodes g) (g_edges g)); try done; apply Hall; eauto).
    assert (H2 : (m, tm') ∈ ileafs x) by (apply (leaf_in (g_nodes g) (g_edges g)); try done; apply Hall; eauto).
    enough ((n, tm) = (m, tm')) by congruence.
    apply (nodup_map_inj (fun p => t_idx p.2) (ileafs x)); try done.
    + fold (ipos x). rewrite Hip. apply NoDup_seq.
    + simpl. unfold t_idx. by rewrite Hs, Hs'.
  - intros i Hi. assert (Hin : i ∈ ipos x) by (rewrite Hip; apply elem_of_seq; lia).
    apply elem_of_list_fmap in Hin as ([n tm] & E & Hin). exists n, tm.
    destruct (leaf_out _ _ x n tm H Hin) as [_ Hn]. split; [done|].
    destruct (at_span x k _ Hat Hin) as [Hs _]. simpl in *. by rewrite Hs, E.
Qed.
Lemma laid_yields g x k y i :
  laid_out g x -> at_positions x k -> sub y x ->
  yields (g_nodes g) (g_edges g) (iid y) i <-> i ∈ ipos y.
Proof.
  intros [G H Hnd Hall Hprim] Hat Hs. pose proof (sub_holds _ _ _ _ Hs H) as Hy. unfold yields. split.
  - intros (m & Hm & tm & HT & Hsp). apply (Dom_ids _ _ Hprim y m Hy) in Hm.
    pose proof (leaf_in _ _ y m tm Hy (sub_nodup _ _ Hs Hnd) Hm HT) as Hin.
    apply elem_of_list_fmap. exists (m, tm). split; [|done]. simpl. unfold t_idx. by rewrite Hsp.
  - intros ([m tm] & -> & Hin)%elem_of_list_fmap. destruct (leaf_out _ _ y m tm Hy Hin) as [Hm HT]. exists m. split.
    + by apply (Dom_ids _ _ Hprim y m Hy).
    + exists tm. split; [done|]. by apply (at_span x k (m, tm) Hat), (ileafs_sub _ _ Hs).
Qed.

(** New nonterminals, same layout. *)
Fixpoint resp (N : gmap nat node) (x : it) : it :=
  match x with
  | IL n tm => IL n tm
  | IN n nt cs => IN n (match N !! n with Some (NT nt') => nt' | _ => nt end) (map (resp N) cs)
  end.
Lemma resp_iid N x : iid (resp N x) = iid x.
Proof. by destruct x. Qed.
Lemma resp_ids N x : ids (resp N x) = ids x.
Proof.
  induction x as [n tm|n nt cs IH] using it_ind'; simpl; [done|]. f_equal. f_equal. rewrite map_map.
  apply map_ext_in. intros c Hc. rewrite Forall_forall in IH. apply IH. by apply elem_of_list_In.
Qed.
Lemma resp_ileafs N x : ileafs (resp N x) = ileafs x.
Proof.
  induction x as [n tm|n nt cs IH] using it_ind'; simpl; [done|]. f_equal. rewrite map_map.
  apply map_ext_in. intros c Hc. rewrite Forall_forall in IH. apply IH. by apply elem_of_list_In.
Qed.
Lemma resp_full N x : ifull x -> ifull (resp N x).
Proof.
  induction x as [n tm|n nt cs IH] using it_ind'; simpl; intros H; [constructor|]. inversion H as [|? ? ? Hne HF]; subst.
  constructor; [by destruct cs|]. apply Forall_forall. intros c (d & -> & Hd)%elem_of_list_fmap.
  rewrite Forall_forall in IH, HF. auto.
Qed.
Lemma resp_holds N N' es x : eq_strip_nt N' N -> holds N es x -> holds N' es (resp N' x).
Proof.
  intros E. induction x as [n tm|n nt cs IH] using it_ind'; intros H; inversion H as [? ? H1 H2|? ? ? H1 H2 H3]; subst; simpl.
  - constructor; [|done]. symmetry in E. destruct (fmap_eq_lookup _ _ _ _ _ E H1) as (w & Hw & Hs).
    rewrite Hw. f_equal. by apply strip_nt_T in Hs.
  - symmetry in E. destruct (fmap_eq_lookup _ _ _ _ _ E H1) as (w & Hw & Hs). destruct w as [nt'|tm]; [|done].
    rewrite Hw. constructor; [done| |].
    + rewrite H2, map_map. f_equal. apply map_ext. intros c. by rewrite resp_iid.
    + apply Forall_forall. intros c (d & -> & Hd)%elem_of_list_fmap. rewrite Forall_forall in IH, H3. symmetry in E. auto.
Qed.
(** Erasure. *)
Fixpoint er (x : it) : pt :=
  match x with IL _ tm => PL tm | IN _ nt cs => PN (nt_label nt) (nt_feats nt) (map er cs) end.
Fixpoint ro (x : it) : rose :=
  match x with IL _ tm => RLeaf tm | IN _ nt cs => RNode nt (map (fun c => (None, ro c)) cs) end.
Lemma resp_er N N' es x : eq_strip_nt N' N -> holds N es x -> er (resp N' x) = er x.
Proof.
  intros E. induction x as [n tm|n nt cs IH] using it_ind'; intros H; inversion H as [? ? H1 H2|? ? ? H1 H2 H3]; subst; simpl; [done|].
  symmetry in E. destruct (fmap_eq_lookup _ _ _ _ _ E H1) as (w & Hw & Hs). destruct w as [nt'|tm]; [|done].
  rewrite Hw. simpl in Hs. injection Hs as Hl Hf. rewrite Hl, Hf. f_equal. rewrite map_map. apply map_ext_in. intros c Hc.
  apply elem_of_list_In in Hc. rewrite Forall_forall in IH, H3. symmetry in E. auto.
Qed.
(** Forgetting spans and edge labels. *)
Fixpoint forget (r : rose) : pt :=
  match r with RLeaf tm => PL tm | RNode nt cs => PN (nt_label nt) (nt_feats nt) (map (fun c => forget c.2) cs) end.
Lemma forget_ro x : forget (ro x) = er x.
Proof.
  induction x as [n tm|n nt cs IH] using it_ind'; simpl; [done|]. f_equal. rewrite map_map. simpl. apply map_ext_in.
  intros c Hc%elem_of_list_In. rewrite Forall_forall in IH. auto.
Qed.
Lemma leaves_forget r : pleaves (forget r) = leaves r.
Proof.
  induction r as [tm|nt cs IH] using rose_ind'; simpl; [done|]. f_equal. rewrite map_map. apply map_ext_in.
  intros c Hc%elem_of_list_In. rewrite Forall_forall in IH. auto.
Qed.
Lemma er_leaves x : pleaves (er x) = map snd (ileafs x).
Proof.
  induction x as [n tm|n nt cs IH] using it_ind'; simpl; [done|]. rewrite map_concat, !map_map. f_equal. apply map_ext_in.
  intros c Hc%elem_of_list_In. rewrite Forall_forall in IH. auto.
Qed.
Lemma er_full x : pfull (er x) -> ifull x.
Proof.
  induction x as [n tm|n nt cs IH] using it_ind'; intros H; [constructor|]. apply pfull_PN in H as [H1 H2].
  constructor; [by destruct cs|]. apply Forall_forall. intros c Hc. rewrite Forall_forall in IH. rewrite Forall_forall in H2. apply IH; [done|].
  apply H2. apply elem_of_list_fmap. by exists c.
Qed.

Lemma head_seq lo k : 0 < k -> head (seq lo k) = Some lo.
Proof. destruct k; [lia|done]. Qed.
Lemma laid_first t x k y :
  WF t -> laid_out (tr_graph t) x -> at_positions x k -> ifull x -> sub y x ->
  head (ipos y) = Some (first_pos (nodes t) (iid y)).
Proof.
  intros W L Hat Hf Hs. destruct (sub_pos y x Hs 0 k (at_ipos x k Hat)) as [lo Hlo].
  pose proof (ifull_pos y (sub_full _ _ Hs Hf)) as Hne.
  assert (Hlen : 0 < length (ipos y)) by (destruct (ipos y); [done|simpl; lia]).
  rewrite Hlo, head_seq by done. f_equal. unfold first_pos.
  pose proof W as [G Sh Tm Nt Nd].
  assert (Hlive : is_Some (nodes t !! iid y)).
  { pose proof (sub_holds _ _ _ _ Hs (lo_holds _ _ L)) as Hy. inversion Hy; subst; simpl; eauto. }
  destruct Hlive as [w Hw]. rewrite Hw. destruct (node_span_ok _ _ _ _ _ _ Sh Tm Nt Hw) as [Ho Hc].
  assert (Hst : sp_start (node_span w) ∈ ipos y).
  { apply (laid_yields _ x k y _ L Hat Hs), Hc. by apply span_ok_start. }
  assert (Hlo' : lo ∈ ipos y) by (rewrite Hlo; apply elem_of_seq; lia).
  apply (laid_yields _ x k y _ L Hat Hs), Hc, covers_bounds in Hlo' as [Hle _].
  rewrite Hlo in Hst. apply elem_of_seq in Hst. lia.
Qed.
Lemma sorted_starts (N : gmap nat node) (cs : list it) : forall lo k,
  concat (map ipos cs) = seq lo k -> (forall c, c ∈ cs -> head (ipos c) = Some (first_pos N (iid c))) ->
  StronglySorted (fun a b => first_pos N a < first_pos N b) (map iid cs).
Proof.
  induction cs as [|c cs IH]; intros lo k H Hh; [constructor|]. simpl in *.
  assert (H2 : concat (map ipos cs) = seq (lo + length (ipos c)) (length (concat (map ipos cs)))).
  { rewrite <- (app_nil_r (concat (map ipos cs))) in H. by apply seq_middle in H. }
  assert (H1 : ipos c = seq lo (length (ipos c))). { pose proof (seq_middle [] (ipos c) _ lo k H) as H1. simpl in H1. by rewrite Nat.add_0_r in H1. }
  constructor; [eapply IH; [exact H2|]; intros; apply Hh; set_solver|]. apply Forall_forall.
  intros b (d & -> & Hd)%elem_of_list_fmap. pose proof (Hh c ltac:(set_solver)) as Hc. pose proof (Hh d ltac:(set_solver)) as Hd'.
  apply head_Some_elem_of in Hd'. assert (Hin : first_pos N (iid d) ∈ concat (map ipos cs)) by (apply elem_concat_map; eauto).
  rewrite H2 in Hin. apply elem_of_seq in Hin.
  assert (0 < length (ipos c)) by (destruct (ipos c); [done|simpl; lia]).
  rewrite H1, head_seq in Hc by done. injection Hc as Hc. lia.
Qed.
Lemma StronglySorted_map_inv {A B} (f : A -> B) (R : B -> B -> Prop) (l : list A) :
  StronglySorted R (map f l) -> StronglySorted (fun a b => R (f a) (f b)) l.
Proof.
  induction l as [|a l IH]; simpl; intros H; [constructor|]. inversion H; subst. constructor; [auto|].
  apply Forall_forall. intros b Hb. match goal with H : Forall _ _ |- _ => rewrite Forall_forall in H; apply H end.
  by apply elem_of_list_fmap_1.
Qed.
Lemma laid_Den t x k : WF t -> laid_out (tr_graph t) x -> at_positions x k -> ifull x ->
  forall y, sub y x -> Den (nodes t) (edges t) (iid y) (ro y).
Proof.
  intros W L Hat Hf y. induction y as [n tm|n nt cs IH] using it_ind'; intros Hs;
    pose proof (sub_holds _ _ _ _ Hs (lo_holds _ _ L)) as Hy; inversion Hy as [? ? H1 H2|? ? ? H1 H2 H3]; subst; simpl.
  - by constructor.
  - set (l := rev (filter (fun r => e_src r = n) (edges t))).
    assert (Hl : map e_tgt l = map iid cs).
    { unfold l. rewrite map_rev. fold (kids (edges t) n). by rewrite H2, rev_involutive. }
    destruct (sub_pos _ x Hs 0 k (at_ipos x k Hat)) as [lo Hlo]. rewrite ipos_node in Hlo.
    apply Den_node with l; [done| | |].
    + intros r. unfold l. rewrite elem_of_list_In, <- in_rev, <- elem_of_list_In, elem_of_list_filter. split.
      * intros [<- Hr]. by rewrite (lo_prim _ _ L r Hr).
      * tauto.
    + apply (StronglySorted_map_inv e_tgt (fun a b => first_pos (nodes t) a < first_pos (nodes t) b)). rewrite Hl.
      apply (sorted_starts _ cs lo _ Hlo). intros c Hc. apply (laid_first t x k); try done.
      eapply sub_trans; [|exact Hs]. econstructor; [exact Hc|constructor].
    + apply Forall2_same_length_lookup. split.
      { apply (f_equal length) in Hl. rewrite !map_length in *. done. }
      intros i r c Hr Hc. rewrite list_lookup_fmap in Hc. destruct (cs !! i) as [d|] eqn:Ed; [|done]. simpl in Hc. injection Hc as <-.
      simpl. assert (He : e_tgt r = iid d).
      { apply (f_equal (fun m => m !! i)) in Hl. rewrite !list_lookup_fmap, Hr, Ed in Hl. by injection Hl. }
      assert (Hin : r ∈ edges t).
      { apply elem_of_list_lookup_2 in Hr. unfold l in Hr. rewrite elem_of_list_In, <- in_rev, <- elem_of_list_In in Hr.
        by apply elem_of_list_filter in Hr as []. }
      split; [by rewrite (lo_prim _ _ L r Hin)|]. rewrite He. apply elem_of_list_lookup_2 in Ed. rewrite Forall_forall in IH.
      apply IH; [done|]. eapply sub_trans; [|exact Hs]. econstructor; [exact Ed|constructor].
Qed.

(** From a layout to a well-formed projective tree and its reading. *)
Lemma laid_tree g x k d0 :
  laid_out g x -> ifull x -> at_positions x k ->
  exists t, reset_nt_spans (mk_tree g k (iid x) d0) = Ret t /\ WF t /\ is_projective t = true /\ tr_nterm t = k /\
    (forall e, e ∈ edges t -> e_w e = Primary None) /\ exists r, Reads t r /\ forget r = er x.
Proof.
  intros L Hf Hat. pose proof (laid_shape g x L Hf) as Sh. pose proof (laid_terms g x k L Hat) as Tm.
  destruct (reset_nt_spans_spec (mk_tree g k (iid x) d0) k Sh Tm) as (N' & HR & HE & HN).
  cbn [tr_graph tr_nterm tr_root] in *. eexists. split; [exact HR|]. set (t := mk_tree _ _ _ _).
  assert (Ed : dom N' = dom (g_nodes g)) by (by apply fmap_eq_dom in HE).
  assert (Sh' : shape_ok N' (g_edges g) (iid x)).
  { eapply shape_ok_strip; [|exact Sh]. apply strip_of_strip_nt. by symmetry. }
  assert (W : WF t).
  { constructor; simpl; [|done|eapply terms_ok_strip_nt; [|exact Tm]; by symmetry|done|done].
    apply set_nodes_ok; [apply L|done]. }
  assert (L' : laid_out (tr_graph t) (resp N' x)).
  { destruct L as [G H Hnd Hall Hprim]. constructor; simpl.
    - apply W.
    - by eapply resp_holds.
    - by rewrite resp_ids.
    - intros n Hn. rewrite resp_ids. apply Hall. apply elem_of_dom. rewrite <- Ed. by apply elem_of_dom.
    - done. }
  assert (Hat' : at_positions (resp N' x) k) by (unfold at_positions; by rewrite resp_ileafs).
  pose proof (resp_full N' x Hf) as Hf'.
  split_and!; [done| |done|apply L|].
  - unfold is_projective. apply Nat.eqb_eq. rewrite (wf_ndisc _ W). apply ndisc_of_zero. intros n w Hn Hg.
    pose proof W as [G2 Sh2 Tm2 Nt2 Nd2]. destruct (node_span_ok _ _ _ _ _ _ Sh2 Tm2 Nt2 Hn) as [Ho Hc].
    apply span_ok_skips in Hg as (i & j & l & Hlt & Hi & Hj & Hk); [|done]. apply Hj, Hc.
    destruct (ids_sub (resp N' x) n) as (y & Hy & Hyn); [apply (lo_all _ _ L'); eauto|].
    rewrite <- Hyn in *. apply Hc, (laid_yields _ _ k y _ L' Hat' Hy) in Hi, Hk.
    apply (laid_yields _ _ k y _ L' Hat' Hy). destruct (sub_pos y _ Hy 0 k (at_ipos _ k Hat')) as [lo Hlo].
    rewrite Hlo in *. apply elem_of_seq in Hi, Hk. apply elem_of_seq. lia.
  - exists (ro (resp N' x)). split.
    + unfold Reads. change (tr_root t) with (iid x). rewrite <- (resp_iid N' x).
      apply (laid_Den t (resp N' x) k); try done. constructor.
    + rewrite forget_ro. eapply resp_er; [exact HE|]. apply L.
Qed.
