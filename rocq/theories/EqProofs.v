(** What [PartialEq for Tree] decides on well-formed trees. *)
From Coq Require Import Lia.
From Verif Require Import ModModel TreeSpec BaseProofs ShapeProofs GraphProofs TreeOps SortProofs RoseSpec RoseProofs.

(** ** Content equality, stated without the code *)
Definition same_feats (a b : option features) : Prop := default ∅ a = default ∅ b.
(** Nonterminals: label and features. *)
Definition nt_same (a b : nonterminal) : Prop :=
  nt_label a = nt_label b /\ same_feats (nt_feats a) (nt_feats b).
(** Terminals up to the word form: tag, lemma, features and position. *)
Definition term_same_tag (a b : terminal) : Prop :=
  t_pos a = t_pos b /\ t_lemma a = t_lemma b /\ same_feats (t_feats a) (t_feats b) /\
  t_idx a = t_idx b.
Definition term_same (a b : terminal) : Prop := t_form a = t_form b /\ term_same_tag a b.

Lemma opt_feats_eqb_iff a b : opt_feats_eqb a b = true <-> same_feats a b.
Proof.
  unfold same_feats, opt_feats_eqb. destruct a, b; simpl; try rewrite bool_decide_eq_true; naive_solver.
Qed.
Lemma str_eqb_iff a b : str_eqb a b = true <-> a = b.
Proof. unfold str_eqb. by rewrite bool_decide_eq_true. Qed.
Lemma nt_eqb_iff a b : nt_eqb a b = true <-> nt_same a b /\ nt_span a = nt_span b.
Proof.
  unfold nt_eqb, nt_same, span_eqb. rewrite !andb_true_iff, str_eqb_iff, opt_feats_eqb_iff, bool_decide_eq_true. tauto.
Qed.
Lemma term_eqb_iff a b i j :
  t_span a = span_of i -> t_span b = span_of j -> term_eqb a b = true <-> term_same_tag a b.
Proof.
  intros Ea Eb. unfold term_eqb, term_same_tag, span_eqb, t_idx.
  rewrite !andb_true_iff, str_eqb_iff, opt_feats_eqb_iff, !bool_decide_eq_true, Ea, Eb. simpl.
  split; [|intros (? & ? & ? & ->); done].
  intros (((? & E) & ?) & ?). injection E. tauto.
Qed.

Lemma edge_info_child t r :
  WF t -> r ∈ edges t -> is_primary (e_w r) = true ->
  exists wp, nodes t !! e_src r = Some wp /\ edge_info t (e_tgt r) = Ret (Some (wp, e_w r)).
Proof.
  intros [G Sh Tm Nt Nd] Hr Hp.
  destruct (proj1 (sh_live _ _ _ Sh (e_src r) (e_tgt r) ltac:(by exists r))) as [wp Hw].
  exists wp. split; [done|]. unfold edge_info.
  rewrite (proj2 (parent_Some t (e_tgt r) (e_src r) (e_id r) Sh)) by (by exists r).
  unfold node_at, edge_at. rewrite Hw. cbn [unwrap mbind outcome_bind].
  rewrite (proj2 (find_edge_Some (tr_graph t) (e_id r) r G)) by done. done.
Qed.

(** The primary edges leaving [n], from left to right. *)
Section subtree.
  Definition edges_of (t : tree) (n : nat) (l : list erec) : Prop :=
    (forall r, r ∈ l <-> r ∈ edges t /\ is_primary (e_w r) = true /\ e_src r = n) /\
    StronglySorted (fun a b => first_pos (nodes t) (e_tgt a) < first_pos (nodes t) (e_tgt b)) l.

  Lemma edges_of_cover (t : tree) n nt l i :
    WF t -> nodes t !! n = Some (NT nt) -> edges_of t n l ->
    covers (nt_span nt) i <-> exists r w, r ∈ l /\ nodes t !! e_tgt r = Some w /\ covers (node_span w) i.
  Proof.
    intros [G Sh Tm Nt Nd] Hn [Hl _]. destruct (Nt n nt Hn) as [_ Hc].
    rewrite Hc, (yields_children n nt i Hn). split.
    - intros (c & (r & H1 & H2 & H3 & H4) & Hy).
      destruct (proj2 (sh_live _ _ _ Sh n c ltac:(by exists r))) as [w Hw].
      exists r, w. subst c. split_and!; [by apply Hl|done|].
      by apply (node_span_ok _ _ _ _ _ _ Sh Tm Nt Hw).
    - intros (r & w & (H1 & H2 & H3)%Hl & Hw & Hy). exists (e_tgt r). split; [by exists r|].
      by apply (node_span_ok _ _ _ _ _ _ Sh Tm Nt Hw).
  Qed.
End subtree.

(** Equal spans of corresponding children force equally many children. *)
Lemma children_le t1 t2 n1 n2 nt1 nt2 l1 l2 :
  WF t1 -> WF t2 -> nodes t1 !! n1 = Some (NT nt1) -> nodes t2 !! n2 = Some (NT nt2) ->
  edges_of t1 n1 l1 -> edges_of t2 n2 l2 -> nt_span nt1 = nt_span nt2 ->
  (forall i r1 r2, l1 !! i = Some r1 -> l2 !! i = Some r2 ->
     exists w1 w2, nodes t1 !! e_tgt r1 = Some w1 /\ nodes t2 !! e_tgt r2 = Some w2 /\
       node_span w1 = node_span w2) ->
  length l2 <= length l1.
Proof.
  intros W1 W2 H1 H2 E1 E2 Es Hp. destruct (decide (length l2 <= length l1)) as [?|Hlt]; [done|exfalso].
  destruct (lookup_lt_is_Some_2 l2 (length l1) ltac:(lia)) as [r2 Hr2].
  pose proof E2 as [Hl2 HS2].
  pose proof (proj1 (Hl2 r2) (elem_of_list_lookup_2 _ _ _ Hr2)) as (A1 & A2 & A3).
  assert (P2 : PE (edges t2) n2 (e_tgt r2)) by (by exists r2).
  pose proof W2 as [G Sh Tm Nt Nd].
  destruct (proj2 (sh_live _ _ _ Sh _ _ P2)) as [w2 Hw2].
  destruct (node_span_ok _ _ _ _ _ _ Sh Tm Nt Hw2) as [Hok Hy].
  pose proof (span_ok_start _ Hok) as Hc.
  assert (Hn : covers (nt_span nt1) (sp_start (node_span w2))).
  { rewrite Es. apply (edges_of_cover t2 n2 nt2 l2); [done|done|done|].
    exists r2, w2. split; [by eapply elem_of_list_lookup_2|done]. }
  apply (edges_of_cover t1 n1 nt1 l1) in Hn as (r1 & w1 & Hr1 & Hw1 & Hc1); [|done|done|done].
  apply elem_of_list_lookup in Hr1 as [j Hj].
  pose proof (lookup_lt_Some _ _ _ Hj) as Hlt'.
  destruct (lookup_lt_is_Some_2 l2 j ltac:(lia)) as [r2' Hr2'].
  destruct (Hp j r1 r2' Hj Hr2') as (w1' & w2' & Hw1' & Hw2' & Ew).
  assert (w1' = w1) as -> by congruence.
  pose proof (proj1 (Hl2 r2') (elem_of_list_lookup_2 _ _ _ Hr2')) as (B1 & B2 & B3).
  assert (e_tgt r2' = e_tgt r2) as Et.
  { apply (yields_sibling Sh Tm n2 _ _ (sp_start (node_span w2))); [by exists r2'|done| |by apply Hy].
    apply (node_span_ok _ _ _ _ _ _ Sh Tm Nt Hw2'). by rewrite <- Ew. }
  pose proof (sorted_targets_inj _ _ _ _ _ _ HS2 Hr2' Hr2 Et). lia.
Qed.

(** The relation decided by [==]. *)
Notation similar := (rose_rel term_same_tag nt_same eq).

Lemma rel_leaves_idx r1 : forall r2, similar r1 r2 -> map t_idx (leaves r1) = map t_idx (leaves r2).
Proof.
  induction r1 as [tm|nt cs IH] using rose_ind'; intros r2 H; inversion H as [a b Hab|a b cs' ds Hab HF]; subst; simpl.
  - destruct Hab as (_ & _ & _ & ->). done.
  - clear H Hab. induction HF as [|c d cs ds [_ Hcd] HF IHF]; simpl; [done|].
    apply Forall_cons in IH as [IHc IH]. rewrite !map_app. f_equal; [by apply IHc|by apply IHF].
Qed.
Lemma rel_span t1 t2 n1 n2 r1 r2 w1 w2 :
  WF t1 -> WF t2 -> Den (nodes t1) (edges t1) n1 r1 -> Den (nodes t2) (edges t2) n2 r2 ->
  nodes t1 !! n1 = Some w1 -> nodes t2 !! n2 = Some w2 -> similar r1 r2 -> node_span w1 = node_span w2.
Proof.
  intros W1 W2 D1 D2 H1 H2 Hs. pose proof (rel_leaves_idx _ _ Hs) as E.
  pose proof W1 as [G1 Sh1 Tm1 Nt1 _]. pose proof W2 as [G2 Sh2 Tm2 Nt2 _].
  destruct (node_span_ok _ _ _ _ _ _ Sh1 Tm1 Nt1 H1) as [O1 C1].
  destruct (node_span_ok _ _ _ _ _ _ Sh2 Tm2 Nt2 H2) as [O2 C2].
  apply span_ext; [done|done|]. intros i. rewrite C1, C2.
  by rewrite (Den_yields _ _ _ W1 D1), (Den_yields _ _ _ W2 D2), E.
Qed.

Definition both_nt (r1 r2 : rose) : Prop :=
  match r1, r2 with RNode _ _, RNode _ _ => True | _, _ => False end.

(** Comparing the contents of two nodes and their subtrees decides [similar]. *)
Lemma similar_split t1 t2 n1 n2 r1 r2 w1 w2 (b : bool) :
  WF t1 -> WF t2 -> Den (nodes t1) (edges t1) n1 r1 -> Den (nodes t2) (edges t2) n2 r2 ->
  nodes t1 !! n1 = Some w1 -> nodes t2 !! n2 = Some w2 ->
  (both_nt r1 r2 -> b = true <-> similar r1 r2) -> (~ both_nt r1 r2 -> b = true) ->
  (node_eqb w1 w2 = true /\ b = true) <-> similar r1 r2.
Proof.
  intros W1 W2 D1 D2 H1 H2 Hb Hb'.
  inversion D1 as [? tm1 E1|? nt1 l1 cs1 E1 _ _ _]; inversion D2 as [? tm2 E2|? nt2 l2 cs2 E2 _ _ _]; subst;
    rewrite H1 in E1; injection E1 as ->; rewrite H2 in E2; injection E2 as ->; simpl in *.
  - destruct (to_pos _ _ (wf_terms _ W1) _ _ H1) as (i & Hi & _).
    destruct (to_pos _ _ (wf_terms _ W2) _ _ H2) as (j & Hj & _).
    rewrite (term_eqb_iff _ _ i j Hi Hj). split; [intros [? _]; by constructor|].
    intros H. inversion H; subst. split; [done|]. apply Hb'. tauto.
  - split; [intros [? _]; discriminate|inversion 1].
  - split; [intros [? _]; discriminate|inversion 1].
  - rewrite Hb by done. split; [tauto|]. intros H. split; [|done].
    apply nt_eqb_iff. split; [by inversion H|].
    exact (rel_span t1 t2 n1 n2 _ _ _ _ W1 W2 D1 D2 H1 H2 H).
Qed.

Local Arguments subtree_eq : simpl never.

Lemma subtree_eq_spec t1 t2 fuel : WF t1 -> WF t2 -> forall n1 n2 r1 r2 l,
  upath (edges t1) n1 l -> size (nodes t1) <= length l + fuel ->
  Den (nodes t1) (edges t1) n1 r1 -> Den (nodes t2) (edges t2) n2 r2 ->
  exists b, subtree_eq fuel t1 n1 t2 n2 = Ret b /\
    (both_nt r1 r2 -> b = true <-> similar r1 r2) /\ (~ both_nt r1 r2 -> b = true).
Proof.
  intros W1 W2. pose proof W1 as [G1 Sh1 Tm1 Nt1 _]. pose proof W2 as [G2 Sh2 Tm2 Nt2 _].
  induction fuel as [|fuel IH]; intros n1 n2 r1 r2 l Hl Hsz D1 D2.
  { pose proof (upath_length Sh1 n1 l (Den_live _ _ _ _ D1) Hl). lia. }
  assert (Hterm : forall t n tm, WF t -> nodes t !! n = Some (T tm) -> children t n = []).
  { intros t n tm W Hn. destruct (children t n) as [|[c e] cs] eqn:Ec; [done|exfalso].
    apply (sh_leaf _ _ _ (wf_shape _ W) n tm c Hn). apply children_PE. exists e. rewrite Ec. set_solver. }
  inversion D1 as [? tm1 E1|? nt1 l1 cs1 E1 L1 S1 F1]; subst.
  { unfold subtree_eq; fold subtree_eq. rewrite (Hterm _ _ _ W1 E1). exists true. split; [done|].
    split; [intros []|done]. }
  inversion D2 as [? tm2 E2|? nt2 l2 cs2 E2 L2 S2 F2]; subst.
  { unfold subtree_eq; fold subtree_eq. rewrite (Hterm _ _ _ W2 E2). exists true.
    split; [by destruct (sort_indices t1 _)|]. split; [intros []|done]. }
  unfold subtree_eq; fold subtree_eq.
  rewrite (sorted_children_edges t1 n1 l1 W1 L1 S1), (sorted_children_edges t2 n2 l2 W2 L2 S2).
  match goal with |- context[?f (map e_tgt l1) (map e_tgt l2)] => set (go := f) end.
  assert (LOOP : forall l1' l2' cs1' cs2',
    (forall r, r ∈ l1' -> r ∈ l1) -> (forall r, r ∈ l2' -> r ∈ l2) ->
    Forall2 (fun r c => c.1 = edge_label (e_w r) /\ Den (nodes t1) (edges t1) (e_tgt r) c.2) l1' cs1' ->
    Forall2 (fun r c => c.1 = edge_label (e_w r) /\ Den (nodes t2) (edges t2) (e_tgt r) c.2) l2' cs2' ->
    exists b, go (map e_tgt l1') (map e_tgt l2') = Ret b /\
      (b = true <-> forall i c1 c2, cs1' !! i = Some c1 -> cs2' !! i = Some c2 ->
         nt_eqb nt1 nt2 = true /\ c1.1 = c2.1 /\ similar c1.2 c2.2)).
  { induction l1' as [|a l1' IHl]; intros l2' cs1' cs2' I1 I2 F1' F2'.
    { inversion F1'; subst. exists true. split; [done|]. split; [|done]. intros _ i c1 c2 Hc. done. }
    inversion F1' as [|? c1 ? cs1'' [Ea Da] F1'']; subst.
    destruct l2' as [|b l2'].
    { inversion F2'; subst. exists true. split; [done|]. split; [|done]. intros _ i c1' c2 _ Hc. done. }
    inversion F2' as [|? c2 ? cs2'' [Eb Db] F2'']; subst.
    destruct (Den_live _ _ _ _ Da) as [wa Hwa]. destruct (Den_live _ _ _ _ Db) as [wb Hwb].
    destruct (proj1 (L1 a) (I1 a ltac:(set_solver))) as (A1 & A2 & A3).
    destruct (proj1 (L2 b) (I2 b ltac:(set_solver))) as (B1 & B2 & B3).
    destruct (edge_info_child t1 a W1 A1 A2) as (wp1 & Hp1 & Ei1).
    destruct (edge_info_child t2 b W2 B1 B2) as (wp2 & Hp2 & Ei2).
    rewrite A3, E1 in Hp1. injection Hp1 as <-. rewrite B3, E2 in Hp2. injection Hp2 as <-.
    assert (Ewe : e_w a = e_w b <-> c1.1 = c2.1).
    { rewrite Ea, Eb. destruct (e_w a), (e_w b); simpl in *; try discriminate. split; congruence. }
    assert (Hup : upath (edges t1) (e_tgt a) (n1 :: l)).
    { constructor; [|done]. by exists a. }
    destruct (IH _ (e_tgt b) _ _ _ Hup ltac:(simpl; lia) Da Db) as (bs & Ebs & Hb1 & Hb2).
    pose proof (similar_split t1 t2 _ _ _ _ wa wb bs W1 W2 Da Db Hwa Hwb Hb1 Hb2) as Hsim.
    destruct (IHl l2' cs1'' cs2'' ltac:(set_solver) ltac:(set_solver) F1'' F2'') as (br & Ebr & Hbr).
    set (ok := nt_eqb nt1 nt2 = true /\ c1.1 = c2.1 /\ similar c1.2 c2.2).
    assert (Hcons : (forall i d1 d2, (c1 :: cs1'') !! i = Some d1 -> (c2 :: cs2'') !! i = Some d2 ->
         nt_eqb nt1 nt2 = true /\ d1.1 = d2.1 /\ similar d1.2 d2.2) <-> ok /\ br = true).
    { rewrite Hbr. split.
      - intros H. split; [by apply (H 0)|]. intros i. apply (H (S i)).
      - intros [Ho H] [|i] d1 d2; simpl; [|by apply H]. by intros [= <-] [= <-]. }
    setoid_rewrite Hcons. clear Hcons.
    unfold go. simpl. fold go. unfold node_at. rewrite Hwa, Hwb. cbn [unwrap mbind outcome_bind].
    destruct (node_eqb wa wb) eqn:Enode; simpl.
    2:{ exists false. split; [done|]. split; [done|]. intros [(_ & _ & Hs) _]. apply Hsim in Hs as [? _]. done. }
    rewrite Ei1, Ei2. cbn [unwrap mbind outcome_bind edge_info_eqb node_eqb].
    destruct (nt_eqb nt1 nt2) eqn:Ent; simpl.
    2:{ exists false. split; [done|]. split; [done|]. intros [(? & _) _]. done. }
    destruct (bool_decide_reflect (e_w a = e_w b)) as [Ew|Ew]; simpl.
    2:{ exists false. split; [done|]. split; [done|]. intros [(_ & ? & _) _]. tauto. }
    rewrite Ebs. cbn [unwrap mbind outcome_bind].
    destruct bs.
    - rewrite Ebr. exists br. split; [done|]. unfold ok. tauto.
    - exists false. split; [done|]. split; [done|]. intros [(_ & _ & Hs) _]. apply Hsim in Hs as [_ ?]. done. }
  destruct (LOOP l1 l2 cs1 cs2 ltac:(done) ltac:(done) F1 F2) as (b & Eb & Hb).
  exists b. split; [done|]. split; [|simpl; tauto]. intros _. rewrite Hb. split.
  - intros H.
    destruct (sh_inner _ _ _ Sh1 n1 nt1 E1) as (x1 & q1 & Q1 & Q2 & Q3 & Q4).
    destruct (sh_inner _ _ _ Sh2 n2 nt2 E2) as (x2 & q2 & R1 & R2 & R3 & R4).
    assert (q1 ∈ l1) as Hq1 by (by apply L1). assert (q2 ∈ l2) as Hq2 by (by apply L2).
    destruct cs1 as [|c1 cs1]; [inversion F1; subst; set_solver|].
    destruct cs2 as [|c2 cs2]; [inversion F2; subst; set_solver|].
    destruct (H 0 c1 c2 eq_refl eq_refl) as (Hnt & _). apply nt_eqb_iff in Hnt as [Hnt Hspan].
    assert (Hpairs : forall i a b, l1 !! i = Some a -> l2 !! i = Some b ->
       exists w1 w2, nodes t1 !! e_tgt a = Some w1 /\ nodes t2 !! e_tgt b = Some w2 /\ node_span w1 = node_span w2).
    { intros i a0 b0 Hi1 Hi2.
      destruct (Forall2_lookup_l _ _ _ _ _ F1 Hi1) as (d1 & Hd1 & _ & Dd1).
      destruct (Forall2_lookup_l _ _ _ _ _ F2 Hi2) as (d2 & Hd2 & _ & Dd2).
      destruct (H i d1 d2 Hd1 Hd2) as (_ & _ & Hs).
      destruct (Den_live _ _ _ _ Dd1) as [wa Hwa]. destruct (Den_live _ _ _ _ Dd2) as [wb Hwb].
      exists wa, wb. split_and!; [done|done|]. by apply (rel_span t1 t2 (e_tgt a0) (e_tgt b0) d1.2 d2.2). }
    assert (Hlen : length l1 = length l2).
    { apply Nat.le_antisymm.
      - apply (children_le t2 t1 n2 n1 nt2 nt1); try done. intros i a0 b0 Hi1 Hi2.
        destruct (Hpairs i b0 a0 Hi2 Hi1) as (wa & wb & ? & ? & ?). by exists wb, wa.
      - by apply (children_le t1 t2 n1 n2 nt1 nt2). }
    constructor; [done|]. apply Forall2_same_length_lookup. split.
    + apply Forall2_length in F1, F2. lia.
    + intros i d1 d2 Hd1 Hd2. destruct (H i d1 d2 Hd1 Hd2) as (_ & ? & ?). done.
  - intros H i d1 d2 Hd1 Hd2. split.
    + apply nt_eqb_iff. split; [by inversion H|].
      exact (rel_span t1 t2 n1 n2 _ _ _ _ W1 W2 D1 D2 E1 E2 H).
    + inversion H as [|? ? ? ? _ HF]; subst. by destruct (Forall2_lookup_lr _ _ _ _ _ _ HF Hd1 Hd2).
Qed.

(** Number of positions and of nodes of a reading. *)
Lemma Reads_nterm t r : WF t -> Reads t r -> forall i, i < tr_nterm t <-> i ∈ map t_idx (leaves r).
Proof.
  intros W D i. rewrite <- (Den_yields t _ r W D). pose proof W as [G Sh Tm Nt _]. split.
  - intros Hi. destruct (to_surj _ _ Tm i Hi) as (n & Hn). exists n. split; [|done].
    apply (sh_reach _ _ _ Sh). destruct Hn as (tm & Hn & _). eauto.
  - intros (n & _ & tm & Hn & Hs). destruct (to_pos _ _ Tm n tm Hn) as (j & Hj & Hlt).
    rewrite Hs in Hj. injection Hj. lia.
Qed.
Fixpoint rsize (r : rose) : nat :=
  match r with
  | RLeaf _ => 1
  | RNode _ cs => S (list_sum (map (fun c => rsize c.2) cs))
  end.
Lemma Den_nodes t n r :
  WF t -> Den (nodes t) (edges t) n r ->
  exists ls, NoDup ls /\ (forall m, m ∈ ls <-> Dom (edges t) n m) /\ length ls = rsize r.
Proof.
  intros [G Sh Tm Nt Nd]. revert n r.
  apply (Den_ind' (nodes t) (edges t) (fun n r => exists ls, NoDup ls /\ (forall m, m ∈ ls <-> Dom (edges t) n m) /\ length ls = rsize r)).
  - intros n tm H. exists [n]. split_and!; [apply NoDup_singleton| |done].
    intros m. rewrite elem_of_list_singleton. split; [by intros ->|]. by apply (term_Dom Sh n tm).
  - intros n nt l cs H1 H2 H3 H4.
    assert (HD : forall m, Dom (edges t) n m <-> m = n \/ exists r, r ∈ l /\ Dom (edges t) (e_tgt r) m).
    { intros m. split.
      - intros Hm. inversion Hm as [|? c ? (r & R1 & R2 & R3 & R4) Hcm]; subst; [by left|right].
        exists r. split; [by apply H2|done].
      - intros [->|(r & (R1 & R2 & R3)%H2 & Hm)]; [done|]. eapply rtc_l; [|exact Hm]. by exists r. }
    assert (exists ls, NoDup ls /\ (forall m, m ∈ ls <-> exists r, r ∈ l /\ Dom (edges t) (e_tgt r) m) /\
              length ls = list_sum (map (fun c => rsize c.2) cs)) as (ls & L1 & L2 & L3).
    { assert (Hsib : forall r, r ∈ l -> PE (edges t) n (e_tgt r)).
      { intros r (R1 & R2 & R3)%H2. by exists r. }
      clear HD H2. induction H4 as [|r c l cs (E & D & ls & N1 & N2 & N3) H4 IH4].
      - exists []. split_and!; [constructor|set_solver|done].
      - apply StronglySorted_inv in H3 as [H3 HF].
        destruct (IH4 H3 ltac:(set_solver)) as (ls' & L1 & L2 & L3).
        exists (ls ++ ls'). split_and!.
        + apply NoDup_app. split_and!; [done| |done]. intros m Hm Hm'. apply N2 in Hm.
          apply L2 in Hm' as (r' & Hr' & Hm').
          assert (e_tgt r = e_tgt r') as Et.
          { apply (sibling_disjoint Sh n _ _ m); [apply Hsib; set_solver|apply Hsib; set_solver|done|done]. }
          rewrite Forall_forall in HF. specialize (HF r' Hr'). rewrite Et in HF. lia.
        + intros m. rewrite elem_of_app, N2, L2. split.
          * intros [H|(r' & H & H')]; [exists r|exists r']; set_solver.
          * intros (r' & [->|H]%elem_of_cons & H'); [by left|right; eauto].
        + rewrite app_length. simpl. lia. }
    exists (n :: ls). split_and!.
    + constructor; [|done]. intros (r & (R1 & R2 & R3)%H2 & Hd)%L2.
      apply (Dom_PE_acyclic Sh (e_tgt r) n Hd). by exists r.
    + intros m. rewrite elem_of_cons, HD, L2. done.
    + simpl. lia.
Qed.
Lemma Reads_size t r : WF t -> Reads t r -> node_count (tr_graph t) = rsize r.
Proof.
  intros W D. destruct (Den_nodes t _ r W D) as (ls & N1 & N2 & <-).
  unfold node_count. rewrite <- (size_dom (D := gset nat)).
  assert (dom (nodes t) = list_to_set (C := gset nat) ls) as ->.
  { apply set_eq. intros m. rewrite elem_of_dom, elem_of_list_to_set, N2. split.
    - apply (sh_reach _ _ _ (wf_shape _ W)).
    - intros Hd. apply (Dom_live_r (wf_shape _ W) _ _ (sh_root _ _ _ (wf_shape _ W)) Hd). }
  by apply size_list_to_set.
Qed.
Lemma similar_size r1 : forall r2, similar r1 r2 -> rsize r1 = rsize r2.
Proof.
  induction r1 as [tm|nt cs IH] using rose_ind'; intros r2 H; inversion H as [a b Hab|a b cs' ds Hab HF]; subst; simpl; [done|].
  f_equal. clear H Hab. induction HF as [|c d cs ds [_ Hcd] HF IHF]; simpl; [done|].
  apply Forall_cons in IH as [IHc IH]. by rewrite (IHc _ Hcd), IHF.
Qed.
Lemma rsize_pos r : 0 < rsize r.
Proof. destruct r; simpl; lia. Qed.
Lemma lt_all_eq a b : (forall i, i < a <-> i < b) -> a = b.
Proof. intros H. pose proof (H a). pose proof (H b). lia. Qed.

Lemma tree_eqb_spec t1 t2 r1 r2 :
  WF t1 -> WF t2 -> Reads t1 r1 -> Reads t2 r2 ->
  exists b, tree_eqb t1 t2 = Ret b /\
    (b = true <-> similar r1 r2 \/ exists a b, r1 = RLeaf a /\ r2 = RLeaf b).
Proof.
  intros W1 W2 D1 D2. unfold tree_eqb.
  pose proof (Reads_size t1 r1 W1 D1) as Z1. pose proof (Reads_size t2 r2 W2 D2) as Z2.
  pose proof (Reads_nterm t1 r1 W1 D1) as K1. pose proof (Reads_nterm t2 r2 W2 D2) as K2.
  assert (Hleaf : forall t r a, (forall i, i < tr_nterm t <-> i ∈ map t_idx (leaves r)) -> r = RLeaf a -> tr_nterm t = 1).
  { intros t r a K ->. simpl in K. apply lt_all_eq. intros i. rewrite K, elem_of_list_singleton.
    assert (t_idx a = 0) as ->; [|lia].
    destruct (decide (0 < tr_nterm t)) as [H|H].
    - apply K in H. by apply elem_of_list_singleton in H.
    - assert (t_idx a < tr_nterm t) by (apply K; set_solver). lia. }
  destruct (Nat.eqb_spec (tr_nterm t1) (tr_nterm t2)) as [En|En]; simpl.
  2:{ exists false. split; [done|]. split; [done|]. intros [Hs|(a & b & Ha & Hb)]; exfalso; apply En.
      - apply lt_all_eq. intros i. by rewrite K1, K2, (rel_leaves_idx _ _ Hs).
      - rewrite (Hleaf t1 r1 a K1 Ha), (Hleaf t2 r2 b K2 Hb). done. }
  destruct (Nat.eqb_spec (node_count (tr_graph t1)) (node_count (tr_graph t2))) as [Ec|Ec]; simpl.
  2:{ exists false. split; [done|]. split; [done|]. rewrite Z1, Z2 in Ec. intros [Hs|(a & b & -> & ->)].
      - by apply similar_size in Hs. - done. }
  destruct (upath_exists (wf_shape _ W1) (tr_root t1) (sh_root _ _ _ (wf_shape _ W1))) as [l Hl].
  destruct (subtree_eq_spec t1 t2 (S (node_count (tr_graph t1))) W1 W2 _ _ _ _ l Hl ltac:(unfold node_count; lia) D1 D2)
    as (b & Eb & H1 & H2).
  exists b. split; [exact Eb|]. rewrite Z1, Z2 in Ec.
  destruct r1 as [a|nt1 cs1], r2 as [b'|nt2 cs2].
  - rewrite H2 by (simpl; tauto). split; [|done]. right. eauto.
  - exfalso. simpl in Ec. inversion D2 as [|? ? l2 ? E2 L2 S2 F2]; subst.
    destruct (sh_inner _ _ _ (wf_shape _ W2) _ _ E2) as (x2 & q2 & R1 & R2 & R3 & R4).
    assert (q2 ∈ l2) as Hq2 by (by apply L2).
    destruct F2 as [|? c ? ? _ _]; [set_solver|]. simpl in Ec. pose proof (rsize_pos c.2). lia.
  - exfalso. simpl in Ec. inversion D1 as [|? ? l2 ? E2 L2 S2 F2]; subst.
    destruct (sh_inner _ _ _ (wf_shape _ W1) _ _ E2) as (x2 & q2 & R1 & R2 & R3 & R4).
    assert (q2 ∈ l2) as Hq2 by (by apply L2).
    destruct F2 as [|? c ? ? _ _]; [set_solver|]. simpl in Ec. pose proof (rsize_pos c.2). lia.
  - rewrite H1 by done. split; [by left|]. intros [H|(a & b' & Ha & _)]; [done|discriminate].
Qed.
