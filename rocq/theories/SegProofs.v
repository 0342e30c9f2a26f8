(** Building trees bottom-up: a [seg] is a tree over a part of a graph whose terminals occupy the
    positions [lo .. hi-1]; its root may still lack children and its span. *)
From Coq Require Import Lia.
From Verif Require Import ModModel TreeSpec BaseProofs ShapeProofs GraphProofs SortProofs RoseSpec RoseProofs.

Record seg (N : gmap nat node) (E : list erec) (root lo hi : nat) : Prop := {
  sg_root : is_Some (N !! root);
  sg_top : forall r, r ∈ E -> e_tgt r <> root;
  sg_uniq : forall r1 r2, r1 ∈ E -> r2 ∈ E -> e_tgt r1 = e_tgt r2 -> r1 = r2;
  sg_prim : forall r, r ∈ E -> is_primary (e_w r) = true;
  sg_live : forall r, r ∈ E -> is_Some (N !! e_src r) /\ is_Some (N !! e_tgt r);
  sg_reach : forall n, is_Some (N !! n) -> Dom E root n;
  sg_leaf : forall n tm r, N !! n = Some (T tm) -> r ∈ E -> e_src r <> n;
  sg_inner : forall n nt, N !! n = Some (NT nt) -> n <> root -> exists r, r ∈ E /\ e_src r = n;
  sg_pos : forall n tm, N !! n = Some (T tm) -> exists i, t_span tm = span_of i /\ lo <= i < hi;
  sg_inj : forall n m i, term_pos N n i -> term_pos N m i -> n = m;
  sg_surj : forall i, lo <= i < hi -> exists n, term_pos N n i;
  sg_nts : forall n nt, N !! n = Some (NT nt) -> n <> root ->
    span_ok (nt_span nt) /\ sp_skips (nt_span nt) = None /\ forall i, covers (nt_span nt) i <-> yields N E n i
}.
(** The root is complete too. *)
Definition closed (N : gmap nat node) (E : list erec) (root lo hi : nat) : Prop :=
  lo < hi /\ forall nt, N !! root = Some (NT nt) ->
    (exists r, r ∈ E /\ e_src r = root) /\ nt_span nt = mk_span lo hi None.

Lemma seg_PE N E root lo hi a b : seg N E root lo hi -> PE E a b <-> exists r, r ∈ E /\ e_src r = a /\ e_tgt r = b.
Proof.
  intros S. split; [intros (r & H1 & H2 & H3 & H4); eauto|]. intros (r & H1 & H2 & H3). exists r.
  split_and!; [done|by apply (sg_prim _ _ _ _ _ S)|done|done].
Qed.

(** *** Dominance in a union *)
Lemma Dom_closed_part (E E' : list erec) (P : nat -> Prop) :
  (forall r, P (e_src r) -> r ∈ E' <-> r ∈ E) -> (forall r, r ∈ E -> P (e_src r) -> P (e_tgt r)) ->
  forall a b, P a -> Dom E' a b <-> Dom E a b.
Proof.
  intros HE Hc a b Ha. split; intros H.
  - assert (P b /\ Dom E a b) as [_ ?]; [|done].
    revert b H. refine (rtc_ind_r _ _ _ _); [done|]. intros x y _ (r & R1 & R2 & R3 & R4) [Px Dx].
    subst x y. assert (r ∈ E) as Hr by (by apply HE). split; [by apply Hc|].
    eapply rtc_r; [exact Dx|]. by exists r.
  - assert (P b /\ Dom E' a b) as [_ ?]; [|done].
    revert b H. refine (rtc_ind_r _ _ _ _); [done|]. intros x y _ (r & R1 & R2 & R3 & R4) [Px Dx].
    subst x y. split; [by apply Hc|]. eapply rtc_r; [exact Dx|]. exists r.
    split_and!; [by apply HE|done|done|done].
Qed.

Lemma Den_frame N E N' E' (P : nat -> Prop) :
  (forall n w, P n -> N !! n = Some w -> N' !! n = Some w) ->
  (forall r, P (e_src r) -> r ∈ E' <-> r ∈ E) ->
  (forall r, r ∈ E -> P (e_src r) -> P (e_tgt r)) ->
  forall n r, Den N E n r -> P n -> Den N' E' n r.
Proof.
  intros HN HE Hc.
  apply (Den_ind' N E (fun n r => P n -> Den N' E' n r)).
  - intros n tm H Hp. constructor. by apply HN.
  - intros n nt l cs H1 H2 H3 H4 Hp.
    assert (Ht : forall r, r ∈ l -> P (e_tgt r)).
    { intros r (R1 & R2 & R3)%H2. apply Hc; [done|by rewrite R3]. }
    assert (Hl : forall r, r ∈ l -> is_Some (N !! e_tgt r)).
    { intros r [i Hi]%elem_of_list_lookup. destruct (Forall2_lookup_l _ _ _ _ _ H4 Hi) as (c & _ & _ & D & _).
      by apply Den_live in D. }
    apply (Den_node _ _ n nt l cs); [by apply HN| | |].
    + intros r. rewrite H2. split; intros (R1 & R2 & R3); (split; [|done]); apply HE; try done; by rewrite R3.
    + clear H2 H4. induction H3 as [|a l H3 IH HF]; constructor; [apply IH; set_solver|].
      rewrite Forall_forall in HF. apply Forall_forall. intros b Hb. specialize (HF b Hb).
      assert (Hfp : forall x, x ∈ a :: l -> first_pos N' (e_tgt x) = first_pos N (e_tgt x)).
      { intros x Hx. destruct (Hl x Hx) as [w Hw]. unfold first_pos. by rewrite Hw, (HN _ _ (Ht x Hx) Hw). }
      rewrite !Hfp by set_solver. done.
    + apply Forall2_same_length_lookup. split; [by apply Forall2_length in H4|].
      intros i r c Hr Hcc. destruct (Forall2_lookup_lr _ _ _ _ _ _ H4 Hr Hcc) as (E1 & _ & D).
      split; [done|]. apply D, Ht. by eapply elem_of_list_lookup_2.
Qed.

(** *** Starting and finishing *)
Lemma seg_leaf n tm k : t_span tm = span_of k -> seg {[n := T tm]} [] n k (S k) /\ closed {[n := T tm]} [] n k (S k).
Proof.
  intros Ht. split.
  - constructor; try set_solver.
    + by rewrite lookup_singleton.
    + intros m [w Hm]. apply lookup_singleton_Some in Hm as [-> _]. done.
    + intros m nt Hm. apply lookup_singleton_Some in Hm as [_ [=]].
    + intros m tm' Hm. apply lookup_singleton_Some in Hm as [<- [= <-]]. exists k. split; [done|lia].
    + intros a b i (ta & Ha & _) (tb & Hb & _). apply lookup_singleton_Some in Ha as [<- _], Hb as [<- _]. done.
    + intros i Hi. exists n. exists tm. assert (i = k) as -> by lia. by rewrite lookup_singleton.
    + intros m nt Hm. apply lookup_singleton_Some in Hm as [_ [=]].
  - split; [lia|]. intros nt. rewrite lookup_singleton. done.
Qed.
Lemma seg_start n nt k : seg {[n := NT nt]} [] n k k.
Proof.
  assert (Hnt : forall m tm, ({[n := NT nt]} : gmap nat node) !! m <> Some (T tm)).
  { intros m tm Hm. apply lookup_singleton_Some in Hm as [_ [=]]. }
  constructor; try set_solver.
  - by rewrite lookup_singleton.
  - intros m [w Hm]. apply lookup_singleton_Some in Hm as [-> _]. done.
  - intros m nt' Hm Hne. apply lookup_singleton_Some in Hm as [? _]. done.
  - intros a b i (ta & Ha & _). by apply Hnt in Ha.
  - lia.
  - intros m nt' Hm Hne. apply lookup_singleton_Some in Hm as [? _]. done.
Qed.
Lemma seg_yields_root N E root lo hi i : seg N E root lo hi -> yields N E root i <-> lo <= i < hi.
Proof.
  intros S. split.
  - intros (m & _ & tm & Hm & Hs). destruct (sg_pos _ _ _ _ _ S m tm Hm) as (j & Hj & ?).
    rewrite Hs in Hj. injection Hj. lia.
  - intros Hi. destruct (sg_surj _ _ _ _ _ S i Hi) as (m & Hm). exists m. split; [|done].
    apply (sg_reach _ _ _ _ _ S). destruct Hm as (tm & Hm & _). eauto.
Qed.
Lemma covers_plain lo hi i : covers (mk_span lo hi None) i <-> lo <= i < hi.
Proof. rewrite covers_iff. simpl. set_solver by lia. Qed.
Lemma span_ok_plain lo hi : lo < hi -> span_ok (mk_span lo hi None).
Proof. intros H. unfold span_ok. simpl. done. Qed.

(** Replacing the content of a nonterminal root. *)
Lemma seg_finish N E root lo hi nt0 nt :
  seg N E root lo hi -> N !! root = Some (NT nt0) -> seg (<[root := NT nt]> N) E root lo hi.
Proof.
  intros S Hr.
  assert (HT : forall n tm, <[root := NT nt]> N !! n = Some (T tm) <-> N !! n = Some (T tm)).
  { intros n tm. destruct (decide (n = root)) as [->|Hne]; [rewrite lookup_insert; naive_solver|].
    by rewrite lookup_insert_ne. }
  assert (HP : forall n i, term_pos (<[root := NT nt]> N) n i <-> term_pos N n i).
  { intros n i. unfold term_pos. by setoid_rewrite HT. }
  assert (HL : forall n, is_Some (<[root := NT nt]> N !! n) <-> is_Some (N !! n)).
  { intros n. destruct (decide (n = root)) as [->|Hne]; [|by rewrite lookup_insert_ne].
    rewrite lookup_insert, Hr. split; eauto. }
  assert (HY : forall n i, yields (<[root := NT nt]> N) E n i <-> yields N E n i).
  { intros n i. unfold yields. by setoid_rewrite HP. }
  destruct S as [s1 s2 s3 s4 s5 s6 s7 s8 s9 s10 s11 s12]. constructor; try done.
  - by apply HL.
  - intros r Hr'. rewrite !HL. by apply s5.
  - intros n Hn%HL. by apply s6.
  - intros n tm r Hn%HT. by eapply s7.
  - intros n nt' Hn Hne. rewrite lookup_insert_ne in Hn by done. by eapply s8.
  - intros n tm Hn%HT. by apply (s9 n).
  - intros n m i Hn%HP Hm%HP. by apply (s10 n m i).
  - intros i Hi. destruct (s11 i Hi) as [n Hn]. exists n. by apply HP.
  - intros n nt' Hn Hne. rewrite lookup_insert_ne in Hn by done.
    destruct (s12 n nt' Hn Hne) as (? & ? & Hy). split_and!; [done|done|]. intros i. by rewrite HY.
Qed.

(** *** Attaching a finished tree as last child of the root *)
Lemma seg_attach N E root lo mid nt N2 E2 n2 hi e E' :
  seg N E root lo mid -> N !! root = Some (NT nt) ->
  seg N2 E2 n2 mid hi -> closed N2 E2 n2 mid hi -> N ##ₘ N2 -> lo <= mid ->
  e_src e = root -> e_tgt e = n2 -> is_primary (e_w e) = true ->
  (forall r, r ∈ E' <-> r = e \/ r ∈ E2 \/ r ∈ E) ->
  seg (N ∪ N2) E' root lo hi /\
  (forall n r, is_Some (N2 !! n) -> Den N2 E2 n r -> Den (N ∪ N2) E' n r) /\
  (forall n r, is_Some (N !! n) -> n <> root -> Den N E n r -> Den (N ∪ N2) E' n r).
Proof.
  intros S Hr S2 [Hlt Hcl] Hdis Hle He1 He2 Hep HE'.
  assert (HN : forall n w, (N ∪ N2) !! n = Some w <-> N !! n = Some w \/ N2 !! n = Some w).
  { intros n w. by apply lookup_union_Some. }
  assert (Hdj : forall n, is_Some (N !! n) -> is_Some (N2 !! n) -> False).
  { intros n [w Hw] [w2 Hw2]. by apply (map_disjoint_spec N N2) with n w w2 in Hdis. }
  assert (HL : forall n, is_Some ((N ∪ N2) !! n) <-> is_Some (N !! n) \/ is_Some (N2 !! n)).
  { intros n. split.
    - intros [w [?|?]%HN]; [left|right]; eauto.
    - intros [[w Hw]|[w Hw]]; exists w; apply HN; auto. }
  assert (Hr2 : forall n, is_Some (N2 !! n) -> n <> root).
  { intros n Hn ->. apply (Hdj root); [by rewrite Hr|done]. }
  assert (Hn2 : is_Some (N2 !! n2)) by apply (sg_root _ _ _ _ _ S2).
  (* edges leaving N2 nodes, edges leaving N nodes other than the root *)
  assert (HEin2 : forall r, is_Some (N2 !! e_src r) -> r ∈ E' <-> r ∈ E2).
  { intros r Hs. rewrite HE'. split; [|by right; left]. intros [->|[?|H]]; [|done|].
    - exfalso. apply (Hr2 _ Hs). done.
    - exfalso. apply (Hdj (e_src r)); [by apply (sg_live _ _ _ _ _ S)|done]. }
  assert (HEin : forall r, is_Some (N !! e_src r) /\ e_src r <> root -> r ∈ E' <-> r ∈ E).
  { intros r [Hs Hne]. rewrite HE'. split; [|by right; right]. intros [->|[H|?]]; [done| |done].
    exfalso. apply (Hdj (e_src r)); [done|by apply (sg_live _ _ _ _ _ S2)]. }
  assert (HD2 : forall a b, is_Some (N2 !! a) -> Dom E' a b <-> Dom E2 a b).
  { apply (Dom_closed_part E2 E' (fun n => is_Some (N2 !! n))); [done|].
    intros r Hr' _. by apply (sg_live _ _ _ _ _ S2). }
  assert (HD : forall a b, is_Some (N !! a) /\ a <> root -> Dom E' a b <-> Dom E a b).
  { apply (Dom_closed_part E E' (fun n => is_Some (N !! n) /\ n <> root)); [done|].
    intros r Hr' _. split; [by apply (sg_live _ _ _ _ _ S)|by apply (sg_top _ _ _ _ _ S)]. }
  assert (HTP : forall n i, term_pos (N ∪ N2) n i <-> term_pos N n i \/ term_pos N2 n i).
  { intros n i. unfold term_pos. setoid_rewrite HN. naive_solver. }
  assert (HDlive : forall E0 N0 lo0 hi0 r0, seg N0 E0 r0 lo0 hi0 -> forall a b, is_Some (N0 !! a) -> Dom E0 a b -> is_Some (N0 !! b)).
  { intros E0 N0 lo0 hi0 r0 S0 a b Ha Hd. apply rtc_inv_r in Hd as [->|(c & _ & (r & R1 & R2 & R3 & R4))]; [done|].
    subst. by apply (sg_live _ _ _ _ _ S0). }
  assert (HY2 : forall n i, is_Some (N2 !! n) -> yields (N ∪ N2) E' n i <-> yields N2 E2 n i).
  { intros n i Hn. unfold yields. split.
    - intros (m & Hm & Hp). rewrite HD2 in Hm by done. exists m. split; [done|].
      apply HTP in Hp as [(tm & Hp & _)|?]; [|done]. exfalso. apply (Hdj m); [by rewrite Hp|]. by eapply HDlive.
    - intros (m & Hm & Hp). exists m. rewrite HD2 by done. split; [done|]. apply HTP. by right. }
  assert (HY : forall n i, is_Some (N !! n) -> n <> root -> yields (N ∪ N2) E' n i <-> yields N E n i).
  { intros n i Hn Hne. unfold yields. split.
    - intros (m & Hm & Hp). rewrite HD in Hm by done. exists m. split; [done|].
      apply HTP in Hp as [?|(tm & Hp & _)]; [done|]. exfalso. apply (Hdj m); [by eapply HDlive|by rewrite Hp].
    - intros (m & Hm & Hp). exists m. rewrite HD by done. split; [done|]. apply HTP. by left. }
  split_and!.
  - constructor.
    + apply HL. left. by rewrite Hr.
    + intros r [->|[H|H]]%HE'.
      * rewrite He2. by apply Hr2.
      * apply Hr2. by apply (sg_live _ _ _ _ _ S2).
      * by apply (sg_top _ _ _ _ _ S).
    + assert (Hx : forall r, r ∈ E -> e_tgt r <> n2 /\ forall r2, r2 ∈ E2 -> e_tgt r <> e_tgt r2).
      { intros r Hr1. destruct (sg_live _ _ _ _ _ S r Hr1) as [_ Hl]. split.
        - intros E0. apply (Hdj n2); [by rewrite <- E0|done].
        - intros r2 H2 E0. destruct (sg_live _ _ _ _ _ S2 r2 H2) as [_ Hl2]. apply (Hdj (e_tgt r2)); [by rewrite <- E0|done]. }
      intros r1 r2 [->|[H1|H1]]%HE' [->|[H2|H2]]%HE' Et; try done.
      * exfalso. apply (sg_top _ _ _ _ _ S2 r2 H2). congruence.
      * exfalso. destruct (Hx r2 H2) as [Hx1 _]. congruence.
      * exfalso. apply (sg_top _ _ _ _ _ S2 r1 H1). congruence.
      * by apply (sg_uniq _ _ _ _ _ S2).
      * exfalso. destruct (Hx r2 H2) as [_ Hx2]. by apply (Hx2 r1 H1).
      * exfalso. destruct (Hx r1 H1) as [Hx1 _]. congruence.
      * exfalso. destruct (Hx r1 H1) as [_ Hx2]. by apply (Hx2 r2 H2).
      * by apply (sg_uniq _ _ _ _ _ S).
    + intros r [->|[H|H]]%HE'; [done|by apply (sg_prim _ _ _ _ _ S2)|by apply (sg_prim _ _ _ _ _ S)].
    + intros r [->|[H|H]]%HE'; rewrite !HL.
      * rewrite He1, He2. split; [left; by rewrite Hr|by right].
      * destruct (sg_live _ _ _ _ _ S2 r H). tauto.
      * destruct (sg_live _ _ _ _ _ S r H). tauto.
    + intros n [Hn|Hn]%HL.
      * eapply rtc_subrel; [|by apply (sg_reach _ _ _ _ _ S)]. intros a b (r & R1 & R2). exists r.
        split; [apply HE'; tauto|done].
      * eapply rtc_l; [|apply HD2; [exact Hn2|by apply (sg_reach _ _ _ _ _ S2)]].
        exists e. split; [apply HE'; tauto|done].
    + intros n tm r Hn [->|[H|H]]%HE'.
      * rewrite He1. intros <-. apply HN in Hn as [Hn|Hn]; [congruence|]. apply (Hr2 root); [by rewrite Hn|done].
      * intros <-. apply HN in Hn as [Hn|Hn].
        -- apply (Hdj (e_src r)); [by rewrite Hn|by apply (sg_live _ _ _ _ _ S2)].
        -- by apply (sg_leaf _ _ _ _ _ S2 _ tm r Hn H).
      * intros <-. apply HN in Hn as [Hn|Hn].
        -- by apply (sg_leaf _ _ _ _ _ S _ tm r Hn H).
        -- apply (Hdj (e_src r)); [by apply (sg_live _ _ _ _ _ S)|by rewrite Hn].
    + intros n nt' [Hn|Hn]%HN Hne.
      * destruct (sg_inner _ _ _ _ _ S n nt' Hn Hne) as (r & R1 & R2). exists r. split; [apply HE'; tauto|done].
      * destruct (decide (n = n2)) as [->|Hne2].
        -- destruct (Hcl nt' Hn) as [(r & R1 & R2) _]. exists r. split; [apply HE'; tauto|done].
        -- destruct (sg_inner _ _ _ _ _ S2 n nt' Hn Hne2) as (r & R1 & R2). exists r. split; [apply HE'; tauto|done].
    + intros n tm [Hn|Hn]%HN.
      * destruct (sg_pos _ _ _ _ _ S n tm Hn) as (i & Hi & ?). exists i. split; [done|lia].
      * destruct (sg_pos _ _ _ _ _ S2 n tm Hn) as (i & Hi & ?). exists i. split; [done|lia].
    + assert (Hp1 : forall n i, term_pos N n i -> i < mid).
      { intros n i (tm & Hn & Hs). destruct (sg_pos _ _ _ _ _ S n tm Hn) as (j & Hj & ?). rewrite Hs in Hj. injection Hj. lia. }
      assert (Hp2 : forall n i, term_pos N2 n i -> mid <= i).
      { intros n i (tm & Hn & Hs). destruct (sg_pos _ _ _ _ _ S2 n tm Hn) as (j & Hj & ?). rewrite Hs in Hj. injection Hj. lia. }
      intros n m i [H1|H1]%HTP [H2|H2]%HTP.
      * by apply (sg_inj _ _ _ _ _ S n m i).
      * pose proof (Hp1 _ _ H1). pose proof (Hp2 _ _ H2). lia.
      * pose proof (Hp2 _ _ H1). pose proof (Hp1 _ _ H2). lia.
      * by apply (sg_inj _ _ _ _ _ S2 n m i).
    + intros i Hi. destruct (decide (i < mid)) as [H|H].
      * destruct (sg_surj _ _ _ _ _ S i ltac:(lia)) as [n Hn]. exists n. apply HTP. by left.
      * destruct (sg_surj _ _ _ _ _ S2 i ltac:(lia)) as [n Hn]. exists n. apply HTP. by right.
    + intros n nt' [Hn|Hn]%HN Hne.
      * destruct (sg_nts _ _ _ _ _ S n nt' Hn Hne) as (? & ? & Hy). split_and!; [done|done|].
        intros i. rewrite HY by (done || by rewrite Hn). done.
      * destruct (decide (n = n2)) as [->|Hne2].
        -- destruct (Hcl nt' Hn) as [_ ->]. split_and!; [by apply span_ok_plain|done|].
           intros i. rewrite covers_plain, HY2, (seg_yields_root _ _ _ _ _ i S2) by done. done.
        -- destruct (sg_nts _ _ _ _ _ S2 n nt' Hn Hne2) as (? & ? & Hy). split_and!; [done|done|].
           intros i. rewrite HY2 by (by rewrite Hn). done.
  - intros n r Hn D. apply (Den_frame N2 E2 _ _ (fun n => is_Some (N2 !! n))); try done.
    + intros m w _ Hm. apply HN. by right.
    + intros r0 Hr0 _. by apply (sg_live _ _ _ _ _ S2).
  - intros n r Hn Hne D. apply (Den_frame N E _ _ (fun n => is_Some (N !! n) /\ n <> root)); try done.
    + intros m w _ Hm. apply HN. by left.
    + intros r0 Hr0 _. split; [by apply (sg_live _ _ _ _ _ S)|by apply (sg_top _ _ _ _ _ S)].
Qed.

(** A finished segment starting at position 0 is a well-formed projective tree. *)
Lemma seg_WF g root k :
  graph_ok g -> seg (g_nodes g) (g_edges g) root 0 k -> closed (g_nodes g) (g_edges g) root 0 k ->
  WF (mk_tree g k root 0).
Proof.
  intros HG S [Hlt Hcl].
  assert (Hall : forall n nt, g_nodes g !! n = Some (NT nt) ->
     span_ok (nt_span nt) /\ sp_skips (nt_span nt) = None /\
     forall i, covers (nt_span nt) i <-> yields (g_nodes g) (g_edges g) n i).
  { intros n nt Hn. destruct (decide (n = root)) as [->|Hne].
    - destruct (Hcl nt Hn) as [_ ->]. split_and!; [by apply span_ok_plain|done|].
      intros i. by rewrite covers_plain, (seg_yields_root _ _ _ _ _ i S).
    - by apply (sg_nts _ _ _ _ _ S). }
  constructor; simpl.
  - done.
  - constructor.
    + apply (sg_root _ _ _ _ _ S).
    + intros p (r & H1 & H2 & H3 & H4). by apply (sg_top _ _ _ _ _ S r).
    + intros r1 r2 H1 H2 _ _. by apply (sg_uniq _ _ _ _ _ S).
    + intros p c (r & H1 & H2 & <- & <-). by apply (sg_live _ _ _ _ _ S).
    + apply (sg_reach _ _ _ _ _ S).
    + intros n tm c Hn (r & H1 & H2 & H3 & H4). by apply (sg_leaf _ _ _ _ _ S n tm r).
    + intros n nt Hn.
      assert (exists r, r ∈ g_edges g /\ e_src r = n) as (r & R1 & R2).
      { destruct (decide (n = root)) as [->|Hne]; [by apply (Hcl nt)|by apply (sg_inner _ _ _ _ _ S n nt)]. }
      exists (e_tgt r). exists r. split_and!; [done|by apply (sg_prim _ _ _ _ _ S)|done|done].
  - constructor.
    + intros n tm Hn. destruct (sg_pos _ _ _ _ _ S n tm Hn) as (i & Hi & ?). exists i. split; [done|lia].
    + apply (sg_inj _ _ _ _ _ S).
    + intros i Hi. apply (sg_surj _ _ _ _ _ S). lia.
  - intros n nt Hn. destruct (Hall n nt Hn) as (? & _ & ?). done.
  - unfold ndisc_of. symmetry. apply map_size_empty_iff, map_filter_empty_iff. intros n w Hw Hg.
    unfold gappy in Hg. simpl in Hg. apply Hg. destruct w as [nt|tm]; simpl.
    + by apply (Hall n nt).
    + destruct (sg_pos _ _ _ _ _ S n tm Hw) as (i & -> & _). done.
Qed.
