(** Consequences of [shape_ok]: the primary edges form a finite tree. *)
From Coq Require Import Lia.
From Verif Require Import TreeSpec BaseProofs.

Global Instance PE_dec es p c : Decision (PE es p c).
Proof.
  destruct (decide (Exists (fun r => is_primary (e_w r) = true /\ e_src r = p /\ e_tgt r = c) es))
    as [H|H].
  - left. apply Exists_exists in H as (r & Hr & ?). by exists r.
  - right. intros (r & Hr & ?). apply H, Exists_exists. by exists r.
Defined.

(** Path from a node up to the top: the list of its proper ancestors, closest first. *)
Inductive upath (es : list erec) : nat -> list nat -> Prop :=
| up_top n : (forall p, ~ PE es p n) -> upath es n []
| up_step n p l : PE es p n -> upath es p l -> upath es n (p :: l).

Section shape.
  Context {N : gmap nat node} {es : list erec} {root : nat}.
  Hypothesis (S : shape_ok N es root).

  Lemma PE_parent_unique p q c : PE es p c -> PE es q c -> p = q.
  Proof.
    intros (r1 & H1 & P1 & <- & T1) (r2 & H2 & P2 & <- & T2).
    by rewrite (sh_uniq _ _ _ S r1 r2 H1 H2 P1 P2) by congruence.
  Qed.
  Lemma Dom_live n m : Dom es n m -> n <> m -> is_Some (N !! n) /\ is_Some (N !! m).
  Proof.
    intros H Hne. split.
    - apply rtc_inv in H as [->|(x & Hx & _)]; [done|]. by apply (sh_live _ _ _ S n x).
    - apply rtc_inv_r in H as [->|(x & _ & Hx)]; [done|]. by apply (sh_live _ _ _ S x m).
  Qed.
  Lemma Dom_live_r n m : is_Some (N !! n) -> Dom es n m -> is_Some (N !! m).
  Proof. intros Hn H. destruct (decide (n = m)) as [->|Hne]; [done|]. by apply (Dom_live n m). Qed.
  Lemma Dom_live_l n m : is_Some (N !! m) -> Dom es n m -> is_Some (N !! n).
  Proof. intros Hn H. destruct (decide (n = m)) as [->|Hne]; [done|]. by apply (Dom_live n m). Qed.

  (** Induction from the root downwards. *)
  Lemma tree_ind_down (P : nat -> Prop) :
    P root -> (forall p c, is_Some (N !! p) -> P p -> PE es p c -> P c) ->
    forall n, is_Some (N !! n) -> P n.
  Proof.
    intros Hr Hs n Hn. pose proof (sh_reach _ _ _ S n Hn) as H.
    revert Hn. revert n H. refine (rtc_ind_r _ _ _ _); [done|].
    intros a b _ Hab IH Hb. assert (Ha : is_Some (N !! a)) by (by apply (sh_live _ _ _ S a b)).
    eapply Hs; eauto.
  Qed.

  Lemma acyclic n : ~ tc (PE es) n n.
  Proof.
    intros H. assert (Hn : is_Some (N !! n)).
    { inversion H as [x y Hxy|x y z Hxy]; subst; by apply (sh_live _ _ _ S _ _ Hxy). }
    revert n Hn H. apply (tree_ind_down (fun n => tc (PE es) n n -> False)).
    - intros H. assert (exists p, PE es p root) as [p Hp].
      { clear -H. assert (G : forall a b, tc (PE es) a b -> exists q, PE es q b)
          by (induction 1; eauto). by apply (G root root). }
      by apply (sh_root_top _ _ _ S p).
    - intros p c _ IH Hpc Hc. apply IH.
      assert (exists q, rtc (PE es) c q /\ PE es q c) as (q & Hcq & Hqc).
      { clear -Hc. assert (G : forall a b, tc (PE es) a b -> exists q, rtc (PE es) a q /\ PE es q b).
        { induction 1 as [x y Hxy|x y z Hxy H (q & Hq & Hqz)]; [by exists x|].
          exists q. split; [by eapply rtc_l|done]. }
        by apply G. }
      rewrite (PE_parent_unique q p c Hqc Hpc) in Hcq.
      eapply tc_rtc_r; [by apply tc_once|done].
  Qed.
  Lemma Dom_PE_acyclic a b : Dom es a b -> ~ PE es b a.
  Proof. intros H Hp. apply (acyclic b). eapply tc_rtc_r; [by apply tc_once|done]. Qed.
  Lemma PE_irrefl a : ~ PE es a a.
  Proof. intros H. apply (acyclic a). by apply tc_once. Qed.
  Lemma Dom_antisym a b : Dom es a b -> Dom es b a -> a = b.
  Proof.
    intros H1 H2. apply rtc_inv in H1 as [->|(x & Hx & Hxb)]; [done|].
    exfalso. apply (acyclic a). eapply tc_rtc_r; [by apply tc_once|]. by etrans.
  Qed.

  (** Two ancestors of one node are comparable. *)
  Lemma Dom_comparable a b n : Dom es a n -> Dom es b n -> Dom es a b \/ Dom es b a.
  Proof.
    intros Ha Hb. revert b Hb. revert n Ha. refine (rtc_ind_r _ _ _ _).
    - intros b Hb. by right.
    - intros x y Hx Hxy IH b Hb. apply rtc_inv_r in Hb as [<-|(z & Hbz & Hzy)].
      + left. by eapply rtc_r.
      + rewrite (PE_parent_unique z x y Hzy Hxy) in Hbz. by apply IH.
  Qed.
  Lemma Dom_step_r a p c : Dom es a c -> PE es p c -> a = c \/ Dom es a p.
  Proof.
    intros H Hp. apply rtc_inv_r in H as [->|(z & Haz & Hzc)]; [by left|].
    right. by rewrite (PE_parent_unique z p c Hzc Hp) in Haz.
  Qed.
  Lemma Dom_root n : Dom es n root -> n = root.
  Proof.
    intros H. apply rtc_inv_r in H as [->|(z & _ & Hz)]; [done|].
    by apply (sh_root_top _ _ _ S) in Hz.
  Qed.
  Lemma sibling_disjoint p c1 c2 m :
    PE es p c1 -> PE es p c2 -> Dom es c1 m -> Dom es c2 m -> c1 = c2.
  Proof.
    intros H1 H2 D1 D2. destruct (Dom_comparable c1 c2 m D1 D2) as [H|H].
    - destruct (Dom_step_r c1 p c2 H H2) as [->|H']; [done|].
      exfalso. by apply (Dom_PE_acyclic c1 p).
    - destruct (Dom_step_r c2 p c1 H H1) as [->|H']; [done|].
      exfalso. by apply (Dom_PE_acyclic c2 p).
  Qed.
  (** Incomparable nodes have disjoint subtrees. *)
  Lemma Dom_disjoint a b m : ~ Dom es a b -> ~ Dom es b a -> Dom es a m -> Dom es b m -> False.
  Proof. intros H1 H2 D1 D2. destruct (Dom_comparable a b m D1 D2); tauto. Qed.

  Lemma live_parent n : is_Some (N !! n) -> n <> root -> exists p, PE es p n.
  Proof.
    intros Hn Hne. pose proof (sh_reach _ _ _ S n Hn) as H.
    apply rtc_inv_r in H as [->|(z & _ & Hz)]; [done|]. by exists z.
  Qed.
  Lemma PE_src_nt p c : PE es p c -> exists nt, N !! p = Some (NT nt).
  Proof.
    intros H. destruct (sh_live _ _ _ S p c H) as [[w Hw] _].
    destruct w as [nt|tm]; [by exists nt|]. by apply (sh_leaf _ _ _ S p tm c) in Hw.
  Qed.
  Lemma term_Dom n tm m : N !! n = Some (T tm) -> Dom es n m -> m = n.
  Proof.
    intros Hn H. apply rtc_inv in H as [->|(z & Hz & _)]; [done|].
    by apply (sh_leaf _ _ _ S n tm) in Hz.
  Qed.

  (** ** Paths to the root *)
  Lemma upath_exists n : is_Some (N !! n) -> exists l, upath es n l.
  Proof.
    revert n. apply tree_ind_down.
    - exists []. apply up_top, (sh_root_top _ _ _ S).
    - intros p c _ [l Hl] Hpc. exists (p :: l). by eapply up_step.
  Qed.
  Lemma upath_unique n l1 l2 : upath es n l1 -> upath es n l2 -> l1 = l2.
  Proof.
    intros H. revert l2. induction H as [n Hn|n p l Hp Hl IH]; intros l2 H2.
    - inversion H2 as [|? q l' Hq]; subst; [done|]. by apply Hn in Hq.
    - inversion H2 as [? Hn|? q l' Hq Hl']; subst; [by apply Hn in Hp|].
      assert (q = p) as -> by (by eapply PE_parent_unique). f_equal. by apply IH.
  Qed.
  Lemma upath_elem n l m : upath es n l -> m ∈ l <-> tc (PE es) m n.
  Proof.
    intros H. revert m. induction H as [n Hn|n p l Hp Hl IH]; intros m.
    - split; [set_solver|]. intros Ht. exfalso.
      assert (G : forall a b, tc (PE es) a b -> exists q, PE es q b).
      { induction 1; eauto. }
      destruct (G _ _ Ht) as [q Hq]. by apply Hn in Hq.
    - rewrite elem_of_cons, IH. split.
      + intros [->|Ht]; [by apply tc_once|]. by eapply tc_r.
      + intros Ht. assert (G : exists q, rtc (PE es) m q /\ PE es q n).
        { assert (G : forall a b, tc (PE es) a b -> exists q, rtc (PE es) a q /\ PE es q b).
          { induction 1 as [x y Hxy|x y z Hxy H (q & Hq & Hqz)]; [by exists x|].
            exists q. split; [by eapply rtc_l|done]. }
          by apply G. }
        destruct G as (q & Hmq & Hqn). rewrite (PE_parent_unique q p n Hqn Hp) in Hmq.
        apply rtc_tc in Hmq as [->|?]; [by left|by right].
  Qed.
  Lemma upath_nodup n l : upath es n l -> NoDup (n :: l).
  Proof.
    intros H. assert (Hn : n ∉ l).
    { rewrite (upath_elem n l n H). apply acyclic. }
    constructor; [done|]. clear Hn. induction H as [|n p l Hp Hl IH]; [constructor|].
    constructor; [|done]. rewrite (upath_elem p l p Hl). apply acyclic.
  Qed.
  Lemma upath_live n l m : upath es n l -> m ∈ l -> is_Some (N !! m).
  Proof.
    intros H Hm. apply (upath_elem n l m H) in Hm.
    inversion Hm as [x y Hxy|x y z Hxy]; subst; by apply (sh_live _ _ _ S _ _ Hxy).
  Qed.
  Lemma upath_length n l : is_Some (N !! n) -> upath es n l -> length l < size N.
  Proof.
    intros Hn H. pose proof (upath_nodup n l H) as Hnd.
    assert (Hsub : list_to_set (n :: l) ⊆ dom N).
    { intros m Hm. apply elem_of_list_to_set, elem_of_cons in Hm as [->|Hm];
        apply elem_of_dom; [done|by eapply upath_live]. }
    apply subseteq_size in Hsub. rewrite size_list_to_set, size_dom in Hsub by done.
    simpl in Hsub. lia.
  Qed.
  Lemma upath_root n l : is_Some (N !! n) -> upath es n l -> n <> root -> last l = Some root.
  Proof.
    intros Hn H. induction H as [n Hp|n p l Hp Hl IH]; intros Hne.
    - exfalso. destruct (live_parent n Hn Hne) as [p Hp']. by apply Hp in Hp'.
    - assert (Hlp : is_Some (N !! p)) by (by apply (sh_live _ _ _ S p n)).
      destruct (decide (p = root)) as [->|Hr].
      + inversion Hl as [|? q ? Hq]; subst; [done|]. by apply (sh_root_top _ _ _ S) in Hq.
      + specialize (IH Hlp Hr). destruct l; [done|]. done.
  Qed.

  (** Induction from the leaves upwards. *)
  Lemma tree_ind_up (P : nat -> Prop) :
    (forall n, is_Some (N !! n) -> (forall c, PE es n c -> P c) -> P n) ->
    forall n, is_Some (N !! n) -> P n.
  Proof.
    intros Hs.
    assert (G : forall k n l, is_Some (N !! n) -> upath es n l -> size N <= length l + k -> P n).
    { induction k as [|k IH]; intros n l Hn Hl Hk.
      - pose proof (upath_length n l Hn Hl). lia.
      - apply Hs; [done|]. intros c Hc. eapply (IH c (n :: l)).
        + by apply (sh_live _ _ _ S n c).
        + by eapply up_step.
        + simpl. lia. }
    intros n Hn. destruct (upath_exists n Hn) as [l Hl].
    apply (G (size N) n l); [done|done|lia].
  Qed.

  (** Every node dominates a terminal. *)
  Lemma dominates_terminal n : is_Some (N !! n) -> exists m tm, Dom es n m /\ N !! m = Some (T tm).
  Proof.
    revert n. apply tree_ind_up. intros n [w Hw] IH. destruct w as [nt|tm].
    - destruct (sh_inner _ _ _ S n nt Hw) as [c Hc].
      destruct (IH c Hc) as (m & tm & Hm & Ht). exists m, tm. split; [by eapply rtc_l|done].
    - by exists n, tm.
  Qed.

  (** The yield of a nonterminal is the union of its children's yields. *)
  Lemma yields_children n nt i :
    N !! n = Some (NT nt) -> yields N es n i <-> exists c, PE es n c /\ yields N es c i.
  Proof.
    intros Hn. split.
    - intros (m & Hm & Ht). apply rtc_inv in Hm as [->|(c & Hc & Hcm)].
      + destruct Ht as (tm & Htm & _). congruence.
      + exists c. split; [done|]. by exists m.
    - intros (c & Hc & m & Hm & Ht). exists m. split; [by eapply rtc_l|done].
  Qed.
  Lemma yields_term n tm i : N !! n = Some (T tm) -> yields N es n i <-> t_span tm = span_of i.
  Proof.
    intros Hn. split.
    - intros (m & Hm & tm' & Ht & Hs). rewrite (term_Dom n tm m Hn Hm) in Ht. congruence.
    - intros Hs. exists n. split; [done|]. by exists tm.
  Qed.
  Lemma yields_Dom a b i : Dom es a b -> yields N es b i -> yields N es a i.
  Proof. intros H (m & Hm & Ht). exists m. split; [by etrans|done]. Qed.
End shape.

(** Positions of terminals. *)
Lemma term_pos_inj N n i j : term_pos N n i -> term_pos N n j -> i = j.
Proof.
  intros (t1 & H1 & E1) (t2 & H2 & E2). assert (t1 = t2) as -> by congruence.
  rewrite E1 in E2. by inversion E2.
Qed.

(** In a tree with accurate spans, every node's span is canonical and covers its yield. *)
Lemma node_span_ok N es root k n w :
  shape_ok N es root -> terms_ok N k -> nts_ok N es -> N !! n = Some w ->
  span_ok (node_span w) /\ forall i, covers (node_span w) i <-> yields N es n i.
Proof.
  intros S Tm Hnt Hn. destruct w as [nt|tm]; simpl; [by apply Hnt|].
  destruct (to_pos _ _ Tm n tm Hn) as (i & Hi & _). rewrite Hi.
  split; [apply span_ok_singleton|]. intros j. rewrite covers_singleton.
  rewrite (yields_term S n tm j Hn). rewrite Hi. split; [by intros ->|]. by inversion 1.
Qed.
Lemma term_pos_of N k n tm :
  terms_ok N k -> N !! n = Some (T tm) -> term_pos N n (t_idx tm) /\ t_idx tm < k /\
  t_span tm = span_of (t_idx tm).
Proof.
  intros Tm Hn. destruct (to_pos _ _ Tm n tm Hn) as (i & Hi & Hlt).
  assert (t_idx tm = i) as -> by (unfold t_idx; by rewrite Hi).
  split_and!; [by exists tm|done|done].
Qed.
