(** Re-attaching a node with its subtree. *)
From Coq Require Import Lia.
From Verif Require Import TreeSpec BaseProofs ShapeProofs GraphProofs DfsProofs ResetProofs ShapeOps TreeOps SortProofs UnaryProofs RemoveProofs.

Lemma tc_Dom N es root a b : shape_ok N es root -> tc (PE es) a b <-> Dom es a b /\ a <> b.
Proof.
  intros S. split.
  - intros H. split; [by apply tc_rtc|]. intros ->. by apply (acyclic S b).
  - intros [H Hne]. by apply rtc_tc in H as [->|?].
Qed.

(** Spans described by an arbitrary relation. *)
Definition spans_as (N : gmap nat node) (Y : nat -> nat -> Prop) : Prop :=
  forall n nt, N !! n = Some (NT nt) -> span_ok (nt_span nt) /\ forall i, covers (nt_span nt) i <-> Y n i.
Lemma spans_as_ext N Y Y' :
  spans_as N Y -> (forall n nt i, N !! n = Some (NT nt) -> Y n i <-> Y' n i) -> spans_as N Y'.
Proof. intros H E n nt Hn. destruct (H n nt Hn) as [H1 H2]. split; [done|]. intros i. rewrite H2. by eapply E. Qed.

(** A tree that differs from [t] only in the spans of nonterminals. *)
Definition respan (t : tree) (N : gmap nat node) : tree :=
  mk_tree (set_nodes (tr_graph t) N) (tr_nterm t) (tr_root t) (ndisc_of N).
Lemma respan_id t : tr_ndisc t = ndisc_of (nodes t) -> respan t (nodes t) = t.
Proof. intros H. unfold respan. rewrite <- H. by destruct t as [[]]. Qed.
Lemma parent_respan t N n : parent (respan t N) n = parent t n.
Proof. done. Qed.

Lemma put_span_spec N Y n nt s (Z : nat -> Prop) :
  spans_as N Y -> N !! n = Some (NT nt) -> span_ok s -> (forall i, covers s i <-> Z i) ->
  spans_as (<[n := NT (nt_set_span nt s)]> N) (fun m i => if decide (m = n) then Z i else Y m i).
Proof.
  intros HY Hn Hok Hc m ntm Hm. destruct (decide (m = n)) as [->|Hne].
  - rewrite lookup_insert in Hm. injection Hm as <-. done.
  - rewrite lookup_insert_ne in Hm by done. by apply HY.
Qed.

(** ** Removing coverage along a path *)
Lemma remove_coverage_fold C l t N Y :
  NoDup l -> spans_as N Y -> tr_ndisc t = ndisc_of N -> nodes t = N ->
  (forall n, n ∈ l -> exists nt, N !! n = Some (NT nt)) ->
  (forall n i, n ∈ l -> i ∈ C -> Y n i) ->
  (forall n, n ∈ l -> exists i, Y n i /\ i ∉ C) ->
  exists N', foldM (remove_coverage C) l t = Ret (respan t N') /\ eq_strip_nt N' N /\
    spans_as N' (fun n i => Y n i /\ ~ (n ∈ l /\ i ∈ C)).
Proof.
  revert t N Y. induction l as [|n l IH]; intros t N Y Hnd HY Hd HN Hnt Hsub Hex.
  - exists N. simpl. split_and!; try done.
    + rewrite <- HN, respan_id; [done|]. by rewrite HN.
    + eapply spans_as_ext; [exact HY|]. set_solver.
  - apply NoDup_cons in Hnd as [Hn Hnd].
    destruct (Hnt n ltac:(set_solver)) as [nt Hnn]. destruct (HY n nt Hnn) as [Hok Hc].
    destruct (span_remove_spec (nt_span nt) C Hok) as (s & Hs & Hoks & Hcs).
    { intros i Hi. apply covers_bounds, Hc. apply Hsub; [set_solver|done]. }
    { destruct (Hex n ltac:(set_solver)) as (i & Hi & HiC). exists i. split; [by apply Hc|done]. }
    set (N1 := <[n := NT (nt_set_span nt s)]> N).
    assert (Hstep : remove_coverage C t n =
              Ret (mk_tree (set_node (tr_graph t) n (NT (nt_set_span nt s))) (tr_nterm t) (tr_root t) (ndisc_of N1))).
    { unfold remove_coverage, node_at. rewrite HN, Hnn. simpl. rewrite Hs. simpl.
      rewrite projectivity_change_spec by (rewrite ?HN; done). by rewrite HN. }
    cbn [foldM]. rewrite Hstep. cbn [mbind outcome_bind].
    destruct (IH (mk_tree (set_node (tr_graph t) n (NT (nt_set_span nt s))) (tr_nterm t) (tr_root t) (ndisc_of N1))
                 N1 (fun m i => if decide (m = n) then Y n i /\ i ∉ C else Y m i)) as (N' & HF & HE & HY').
    + done.
    + apply (put_span_spec N Y); [done|done|done|]. intros i. rewrite Hcs, Hc. done.
    + done.
    + simpl. by rewrite HN.
    + intros m Hm. destruct (Hnt m ltac:(set_solver)) as [ntm Hntm]. exists ntm. unfold N1.
      rewrite lookup_insert_ne; [done|]. intros ->. done.
    + intros m i Hm Hi. rewrite decide_False by (intros ->; done). apply Hsub; [set_solver|done].
    + intros m Hm. destruct (Hex m ltac:(set_solver)) as (i & Hi). exists i.
      by rewrite decide_False by (intros ->; done).
    + exists N'. rewrite HF. split_and!.
      * unfold respan. simpl. unfold set_node. by destruct t as [[]].
      * rewrite HE. by apply eq_strip_nt_insert.
      * eapply spans_as_ext; [exact HY'|]. intros m ntm i _. simpl.
        destruct (decide (m = n)) as [->|Hne].
        -- split.
           ++ intros [[H1 H2] _]. split; [done|]. tauto.
           ++ intros [H1 H2]. split; [split; [done|]; intros H; apply H2; set_solver|]. tauto.
        -- set_solver.
Qed.

(** The climb looking for the new parent. *)
Lemma reattach_climb_miss fuel t np child n l path :
  shape_ok (nodes t) (edges t) (tr_root t) -> upath (edges t) n l -> length l <= fuel -> np ∉ l ->
  reattach_climb fuel t np child (parent t n) path = Ret t.
Proof.
  intros Sh. revert n l path. induction fuel as [|fuel IH]; intros n l path Hl Hf Hnp.
  - destruct Hl as [n Hn|]; [|simpl in Hf; lia]. rewrite (proj2 (parent_None t n Sh) Hn). done.
  - destruct Hl as [n Hn|n p l Hp Hl].
    + by rewrite (proj2 (parent_None t n Sh) Hn).
    + destruct (proj1 (parent_PE t n p Sh) Hp) as [e ->]. simpl.
      destruct (Nat.eqb_spec np p) as [->|Hne]; [set_solver|].
      apply (IH p l); [done|simpl in Hf; lia|set_solver].
Qed.
Lemma reattach_climb_hit fuel t np child w n l1 l2 path :
  shape_ok (nodes t) (edges t) (tr_root t) -> upath (edges t) n (l1 ++ np :: l2) ->
  length (l1 ++ np :: l2) <= fuel -> np ∉ l1 -> nodes t !! child = Some w ->
  reattach_climb fuel t np child (parent t n) path =
  foldM (remove_coverage (span_iter (node_span w))) (path ++ l1 ++ [np]) t.
Proof.
  intros Sh. revert n l1 path. induction fuel as [|fuel IH]; intros n l1 path Hl Hf Hnp Hw.
  { rewrite app_length in Hf. simpl in Hf. lia. }
  destruct l1 as [|p l1].
  - inversion Hl as [|? p ? Hp Hl']; subst.
    destruct (proj1 (parent_PE t n np Sh) Hp) as [e ->]. cbn [reattach_climb climber_next].
    rewrite Nat.eqb_refl. rewrite (node_at_Some _ _ _ Hw). done.
  - inversion Hl as [|? p' ? Hp Hl']; subst.
    destruct (proj1 (parent_PE t n p Sh) Hp) as [e ->]. cbn [reattach_climb climber_next].
    destruct (Nat.eqb_spec np p) as [->|Hne]; [set_solver|].
    change (climber_next (Some (p, e)) t) with (Some ((p, e), parent t p)).
    rewrite (IH p l1); [|done|simpl in Hf; lia|set_solver|done].
    by rewrite <- app_assoc.
Qed.

(** ** Merging into the ancestors *)
Lemma reattach_merge_spec fuel t N Y cs n l :
  shape_ok (nodes t) (edges t) (tr_root t) ->
  upath (edges t) n l -> length l <= fuel ->
  spans_as N Y -> tr_ndisc t = ndisc_of N -> nodes t = N -> span_ok cs ->
  (forall a b, a ∈ l -> Dom (edges t) b a -> (forall i, covers cs i -> Y a i) -> forall i, covers cs i -> Y b i) ->
  exists N', reattach_merge fuel t cs (parent t n) = Ret (respan t N') /\ eq_strip_nt N' N /\
    spans_as N' (fun m i => Y m i \/ (m ∈ l /\ covers cs i)).
Proof.
  intros Sh Hl. revert n fuel t N Y Sh Hl.
  induction l as [|p l IH]; intros n fuel t N Y Sh Hl Hf HY Hd HN Hcs Hmono.
  - inversion Hl as [? Hn|]; subst. rewrite (proj2 (parent_None t n Sh) Hn).
    exists (nodes t). split_and!.
    + rewrite respan_id by done. by destruct fuel.
    + done.
    + eapply spans_as_ext; [exact HY|]. set_solver.
  - assert (Hp : PE (edges t) p n /\ upath (edges t) p l) by (inversion Hl; subst; done).
    destruct Hp as [Hp Hl']. destruct (proj1 (parent_PE t n p Sh) Hp) as [e ->].
    destruct fuel as [|fuel]; [simpl in Hf; lia|]. cbn [reattach_merge climber_next].
    destruct (PE_src_nt Sh p n Hp) as [nt Hnt]. rewrite (node_at_Some _ _ _ Hnt). simpl.
    rewrite HN in Hnt. destruct (HY p nt Hnt) as [Hok Hc].
    destruct (span_covers (nt_span nt) cs) eqn:Ecov.
    + exists N. split_and!; [rewrite <- HN, respan_id; [done|]; by rewrite HN|done|].
      eapply spans_as_ext; [exact HY|]. intros m ntm i Hm. split; [by left|].
      intros [H|[Hml Hi]]; [done|]. apply (Hmono p m); [set_solver| |intros j Hj|done].
      * apply elem_of_cons in Hml as [->|Hml]; [done|]. apply tc_rtc. by eapply (upath_elem Sh).
      * apply Hc. by apply (span_covers_iff (nt_span nt) cs Hok Hcs).
    + destruct (span_merge_spec (nt_span nt) cs Hok Hcs) as (s & -> & Hoks & Hcv). simpl.
      rewrite projectivity_change_spec by (rewrite ?HN; done). simpl. rewrite HN.
      set (N1 := <[p := NT (nt_set_span nt s)]> N).
      set (t1 := mk_tree (set_node (tr_graph t) p (NT (nt_set_span nt s))) (tr_nterm t) (tr_root t) (ndisc_of N1)).
      assert (Est : eq_strip_nt N1 N) by (by apply eq_strip_nt_insert).
      assert (HN1 : nodes t1 = N1) by (simpl; by rewrite HN).
      destruct (IH p fuel t1 N1 (fun m i => if decide (m = p) then Y p i \/ covers cs i else Y m i))
        as (N' & HF & HE & HY').
      * rewrite HN1. eapply shape_ok_strip; [|exact Sh]. rewrite HN. symmetry. by apply strip_of_strip_nt.
      * done.
      * simpl in Hf. lia.
      * apply (put_span_spec N Y); [done|done|done|]. intros i. rewrite Hcv, Hc. done.
      * done.
      * done.
      * done.
      * intros a b Ha Hb Hsub i Hi. destruct (decide (b = p)) as [->|Hbp]; [by right|].
        assert (Hap : a <> p).
        { intros ->. pose proof (upath_nodup Sh p l Hl') as Hnd. apply NoDup_cons in Hnd as [? _]. done. }
        apply (Hmono a b); [set_solver|done| |done]. intros j Hj. specialize (Hsub j Hj).
        by rewrite decide_False in Hsub.
      * exists N'. change (parent t1 p) with (parent t p) in HF. rewrite HF. split_and!.
        -- unfold respan. simpl. unfold set_node. by destruct t as [[]].
        -- by rewrite HE.
        -- eapply spans_as_ext; [exact HY'|]. intros m ntm i _. simpl.
           destruct (decide (m = p)) as [->|Hne]; set_solver.
Qed.

Local Arguments reattach_climb : simpl never.
Local Arguments reattach_merge : simpl never.
Lemma Dom_trans es a b c : Dom es a b -> Dom es b c -> Dom es a c.
Proof. apply rtc_transitive. Qed.
Lemma Dom_em N es root c x : shape_ok N es root -> Dom es c x \/ ~ Dom es c x.
Proof.
  intros Sh. destruct (decide (c = x)) as [->|Hcx]; [by left|].
  destruct (decide (is_Some (N !! x))) as [Hx|Hx].
  - destruct (upath_exists Sh x Hx) as [u Hu].
    destruct (decide (c ∈ u)) as [Hin|Hin].
    + left. apply (upath_elem Sh x u c Hu) in Hin. by apply tc_rtc.
    + right. intros H. apply Hin, (upath_elem Sh x u c Hu), (tc_Dom _ _ _ _ _ Sh). done.
  - right. intros H. apply Hx. by apply (Dom_live Sh c x).
Qed.
Lemma upath_split N es root n l1 a l2 :
  shape_ok N es root -> upath es n (l1 ++ a :: l2) ->
  upath es a l2 /\ a ∉ l1 /\
  forall x, x ∈ n :: l1 ++ [a] <-> Dom es a x /\ Dom es x n.
Proof.
  intros S H. pose proof (upath_nodup S n _ H) as Hnd.
  assert (H2 : upath es a l2).
  { clear Hnd. revert n H. induction l1 as [|b l1 IH]; intros n H; inversion H; subst; [done|]. by eapply IH. }
  assert (Ha : Dom es a n).
  { apply tc_rtc. apply (upath_elem S n _ a H). set_solver. }
  apply NoDup_cons in Hnd as [Hn Hnd]. apply NoDup_app in Hnd as (_ & Hd & Hnd).
  apply NoDup_cons in Hnd as [Ha2 _].
  assert (Hin : forall x, x ∈ n :: l1 ++ a :: l2 <-> Dom es x n).
  { intros x. rewrite elem_of_cons, (upath_elem S n _ x H), (tc_Dom _ _ _ _ _ S).
    destruct (decide (x = n)) as [->|]; [split; [done|by left]|]. tauto. }
  assert (Hl2 : forall x, x ∈ l2 <-> Dom es x a /\ x <> a).
  { intros x. by rewrite (upath_elem S a _ x H2), (tc_Dom _ _ _ _ _ S). }
  split_and!; [done|intros Ha1; apply (Hd a Ha1); set_solver|]. intros x. split.
  - intros Hx. assert (Hxn : Dom es x n) by (apply Hin; set_solver). split; [|done].
    assert (Hx2 : x ∉ l2).
    { intros Hx2. apply elem_of_cons in Hx as [->|Hx]; [set_solver|].
      apply elem_of_app in Hx as [Hx|Hx]; [apply (Hd x Hx); set_solver|set_solver]. }
    destruct (Dom_comparable S a x n Ha Hxn) as [?|H']; [done|].
    destruct (decide (x = a)) as [->|]; [done|]. exfalso. apply Hx2, Hl2. done.
  - intros [H1 Hx]. apply Hin in Hx. assert (Hx2 : x ∉ l2).
    { intros [H' Hne]%Hl2. by apply Hne, (Dom_antisym S). }
    set_solver.
Qed.

Lemma reattach_primary_ok t np ntp r0 :
  WF t -> r0 ∈ edges t -> is_primary (e_w r0) = true ->
  nodes t !! np = Some (NT ntp) -> ~ Dom (edges t) (e_tgt r0) np ->
  Dom (edges t) np (e_src r0) \/ Dom (edges t) (e_src r0) np ->
  e_src r0 = np \/ (exists s, PE (edges t) (e_src r0) s /\ s <> e_tgt r0) ->
  exists t' e', reattach_primary t np (e_id r0) = Ret (t', Ok (e', e_w r0)) /\ WF t' /\
    eq_strip_nt (nodes t') (nodes t) /\
    edges t' = mk_e e' np (e_tgt r0) (Primary None) :: filter (fun r => e_id r <> e_id r0) (edges t) /\
    (forall r, r ∈ edges t' <-> r = mk_e e' np (e_tgt r0) (Primary None) \/ (r ∈ edges t /\ r <> r0)) /\
    tr_root t' = tr_root t /\ tr_nterm t' = tr_nterm t.
Proof.
  intros W Hr0 Pr0 Hnp Hcyc Hcmp Hleft. pose proof W as [G Sh Tm Nt Nd].
  set (p := e_src r0) in *. set (c := e_tgt r0) in *.
  assert (Hpc : PE (edges t) p c) by (by exists r0).
  destruct (sh_live _ _ _ Sh p c Hpc) as [[wp Hwp] [wc Hwc]].
  destruct (node_span_ok _ _ _ _ _ _ Sh Tm Nt Hwc) as [Hokc Hcc].
  unfold reattach_primary. rewrite (proj2 (find_edge_Some _ _ r0 G) (conj Hr0 eq_refl)). simpl.
  rewrite (node_at_Some _ _ _ Hnp). simpl. fold p. fold c.
  assert (Hguard : (Nat.eqb (length (siblings t c)) 0 && negb (Nat.eqb p np))%bool = false).
  { destruct (Nat.eqb_spec p np) as [->|Hne]; [by rewrite andb_false_r|].
    destruct Hleft as [?|(s & Hs & Hsc)]; [done|].
    destruct (siblings t c) as [|x l] eqn:E; [|done]. exfalso. apply Hsc.
    by apply (proj1 (siblings_nil t c Sh) E p s). }
  rewrite Hguard. clear Hguard. unfold climber_new.
  destruct (upath_exists Sh p ltac:(eauto)) as [lp Hlp].
  assert (Hfuel : length lp <= climb_fuel t).
  { pose proof (upath_length Sh p lp ltac:(eauto) Hlp). unfold climb_fuel, node_count. lia. }
  (* first phase *)
  set (C := span_iter (node_span wc)).
  assert (HC : forall i, i ∈ C <-> yields (nodes t) (edges t) c i)
    by (intros i; unfold C; by rewrite elem_of_span_iter).
  set (Y1 := fun n i => yields (nodes t) (edges t) n i /\
       ~ (Dom (edges t) np n /\ Dom (edges t) n p /\ np <> p /\ yields (nodes t) (edges t) c i)).
  assert (HDpc : Dom (edges t) p c) by (by apply rtc_once).
  assert (Hph1 : exists N1, reattach_climb (climb_fuel t) t np c (parent t p) [p] = Ret (respan t N1) /\
            eq_strip_nt N1 (nodes t) /\ spans_as N1 Y1).
  { destruct (decide (np ∈ lp)) as [Hin|Hin].
    - assert (Hnpp : Dom (edges t) np p /\ np <> p).
      { apply (tc_Dom _ _ _ _ _ Sh). by apply (upath_elem Sh p lp np Hlp). }
      apply elem_of_list_split in Hin as (l1 & l2 & ->).
      destruct (upath_split _ _ _ _ _ _ _ Sh Hlp) as (Hl2 & Hnl1 & Hpath).
      rewrite (reattach_climb_hit _ _ _ _ wc p l1 l2); try done. fold C.
      change ([p] ++ l1 ++ [np]) with (p :: l1 ++ [np]).
      destruct (remove_coverage_fold C (p :: l1 ++ [np]) t (nodes t) (yields (nodes t) (edges t)))
        as (N1 & HF & HE & HS); try done.
      + pose proof (upath_nodup Sh _ _ Hlp) as Hnd. apply NoDup_cons in Hnd as [Hnd1 Hnd2].
        rewrite cons_middle, app_assoc in Hnd2. apply NoDup_app in Hnd2 as (Hnd2 & _ & _).
        constructor; [|done]. set_solver.
      + intros n [H1 H2]%Hpath. assert (Hl : is_Some (nodes t !! n)).
        { apply (Dom_live_r Sh np n); eauto. }
        destruct Hl as [[nt|tm] Hn]; [by exists nt|]. exfalso.
        assert (n = p) as ->. { symmetry. by eapply (term_Dom Sh). }
        by apply (sh_leaf _ _ _ Sh p tm c).
      + intros n i [H1 H2]%Hpath Hi%HC. eapply (yields_Dom (N:=nodes t)); [|exact Hi]. etrans; [exact H2|done].
      + intros n [H1 H2]%Hpath. destruct Hleft as [Hl|(s & Hs & Hsc)]; [by destruct Hnpp|].
        destruct (sh_live _ _ _ Sh p s Hs) as [_ Hls].
        exists (node_start (nodes t) s). pose proof (start_yields Sh Tm Nt s Hls) as Hy. split.
        * eapply (yields_Dom (N:=nodes t)); [|exact Hy]. etrans; [exact H2|by apply rtc_once].
        * intros Hi%HC. apply Hsc. by eapply (yields_sibling Sh Tm p).
      + exists N1. rewrite HF. split_and!; try done. eapply spans_as_ext; [exact HS|].
        intros n nt i Hn. unfold Y1. cbv beta. rewrite Hpath, HC. destruct Hnpp. tauto.
    - rewrite (reattach_climb_miss _ t np c p lp); try done. exists (nodes t). rewrite respan_id by done.
      split_and!; try done. intros n nt Hn. destruct (Nt n nt Hn) as [H1 H2]. split; [done|].
      intros i. rewrite H2. unfold Y1. split; [|tauto]. intros H. split; [done|].
      intros (H3 & H4 & H5 & _). apply Hin, (upath_elem Sh p lp np Hlp), (tc_Dom _ _ _ _ _ Sh).
      split; [|done]. etrans; done. }
  destruct Hph1 as (N1 & -> & E1 & S1). simpl.
  (* second phase *)
  assert (G1 : graph_ok (set_nodes (tr_graph t) N1)).
  { apply set_nodes_ok; [done|]. by apply (fmap_eq_dom strip_nt). }
  destruct (remove_edge_spec (set_nodes (tr_graph t) N1) r0 G1 Hr0) as (g2 & HR & G2 & N2 & Ed2 & El2).
  rewrite HR. simpl in N2, Ed2, El2. simpl.
  assert (HN1 : forall n, is_Some (N1 !! n) <-> is_Some (nodes t !! n)).
  { intros n. rewrite <- !elem_of_dom. by rewrite (fmap_eq_dom strip_nt _ _ E1). }
  destruct (add_edge_spec g2 np c (Primary None) G2) as (g3 & e' & -> & G3 & N3 & Ed3 & _).
  { rewrite N2. apply HN1. eauto. } { rewrite N2. apply HN1. eauto. }
  simpl. rewrite N2 in N3. rewrite Ed2 in Ed3.
  assert (Hes : forall r, r ∈ g_edges g3 <-> r = mk_e e' np c (Primary None) \/ (r ∈ edges t /\ r <> r0)).
  { intros r. rewrite Ed3, elem_of_cons, <- Ed2, El2. done. }
  unfold node_at. simpl. rewrite N3.
  assert (exists wc', N1 !! c = Some wc' /\ node_span wc' = node_span wc) as (wc' & Hwc' & Hspc).
  { destruct wc as [ntc|tmc].
    - destruct (proj2 (HN1 c) ltac:(eauto)) as [w' Hw'].
      destruct (fmap_eq_lookup strip_nt _ _ _ _ E1 Hw') as (w'' & Hw'' & Es). rewrite Hwc in Hw''.
      injection Hw'' as <-. destruct w' as [nt'|]; [|done]. exists (NT nt'). split; [done|]. simpl.
      destruct (S1 c nt' Hw') as [Ho Hcov]. apply span_ext; [done|done|]. intros i.
      rewrite Hcov. unfold Y1. simpl in Hcc. rewrite Hcc. split; [tauto|]. intros H. split; [done|].
      intros (H1 & H2 & _). by apply (Dom_PE_acyclic Sh c p).
    - exists (T tmc). split; [|done]. by apply (eq_strip_nt_T _ _ _ _ E1). }
  rewrite Hwc'. simpl. rewrite Hspc.
  assert (Ttrue : is_primary (Primary (None : option str)) = true) by done.
  assert (Sh2 : shape_ok (nodes t) (g_edges g3) (tr_root t)).
  { eapply (move_shape (l := Primary None) Sh Hr0 Pr0 eq_refl eq_refl Ttrue Hnp Hcyc Hleft). exact Hes. }
  assert (HD : forall a b, Dom (g_edges g3) a b <->
    (~ Dom (edges t) c b /\ Dom (edges t) a b) \/
    (Dom (edges t) c b /\ ((Dom (edges t) c a /\ Dom (edges t) a b) \/ (~ Dom (edges t) c a /\ Dom (edges t) a np)))).
  { intros a b. eapply (move_Dom (l := Primary None) Sh Hr0 Pr0 eq_refl eq_refl Ttrue Hnp Hcyc Hleft). exact Hes. }
  set (t3 := set_graph (respan t N1) g3).
  assert (Sh3 : shape_ok (nodes t3) (edges t3) (tr_root t3)).
  { simpl. rewrite N3. eapply shape_ok_strip; [|exact Sh2]. symmetry. by apply strip_of_strip_nt. }
  destruct (upath_exists Sh3 c ltac:(simpl; rewrite N3; eauto)) as [lc Hlc].
  assert (Hlcin : forall x, x ∈ lc <-> Dom (edges t) x np).
  { intros x. rewrite (upath_elem Sh3 c lc x Hlc), (tc_Dom _ _ _ _ _ Sh3). simpl. rewrite HD. split.
    - intros [[[H _]|[_ [[H1 H2]|[_ H]]]] Hne]; [|by exfalso; apply Hne, (Dom_antisym Sh)|done].
      exfalso. by apply H.
    - intros H. split.
      + right. split; [done|]. right. split; [|done]. intros H'. apply Hcyc. by eauto 2 using Dom_trans.
      + intros ->. done. }
  destruct (reattach_merge_spec (climb_fuel t3) t3 N1 Y1 (node_span wc) c lc) as (N4 & HM & E4 & S4); try done.
  { pose proof (upath_length Sh3 c lc ltac:(simpl; rewrite N3; eauto) Hlc).
    unfold climb_fuel, node_count. lia. }
  { intros a b Ha%Hlcin Hb Hsub i Hi%Hcc. simpl in Hb.
    assert (Hba : Dom (edges t) b a).
    { apply HD in Hb as [[_ ?]|[H' _]]; [done|]. exfalso. apply Hcyc. by eauto 2 using Dom_trans. }
    assert (Hac : Y1 a i) by (apply Hsub, Hcc; done). destruct Hac as [Hac1 Hac2].
    split; [by eapply (yields_Dom (N:=nodes t))|]. intros (H1 & H2 & H3 & _). apply Hac2.
    assert (b = np) as -> by (apply (Dom_antisym Sh); [by eauto 2 using Dom_trans|done]).
    assert (a = np) as -> by (by apply (Dom_antisym Sh)). done. }
  rewrite HM. simpl. eexists _, e'. split; [reflexivity|].
  assert (E4' : eq_strip_nt N4 (nodes t)) by (by rewrite E4).
  simpl. split_and!; try done.
  constructor; simpl.
  - apply set_nodes_ok; [done|]. rewrite N3. by apply (fmap_eq_dom strip_nt).
  - eapply shape_ok_strip; [|exact Sh2]. symmetry. by apply strip_of_strip_nt.
  - eapply terms_ok_strip_nt; [|exact Tm]. by symmetry.
  - intros n nt Hn. destruct (S4 n nt Hn) as [Hok Hcov]. split; [done|]. intros i.
    rewrite Hcov, Hlcin, Hcc. rewrite (yields_strip_nt N4 (nodes t) (g_edges g3) n i E4').
    unfold Y1. split.
    + intros [[(m & Hm & Hpos) H2]|[H1 (m & Hm & Hpos)]]; exists m; (split; [|done]); apply HD.
      * destruct (Dom_em _ _ _ c m Sh) as [Hcm|Hcm]; [|by left]. right. split; [done|].
        destruct (Dom_comparable Sh c n m Hcm Hm) as [H|H]; [by left|].
        destruct (Dom_em _ _ _ c n Sh) as [H'|H']; [by left|]. right. split; [done|].
        destruct (Dom_step_r Sh n p c H Hpc) as [->|Hnp']; [by exfalso; apply H'|].
        destruct Hcmp as [Hc1|Hc1]; [|by eauto 2 using Dom_trans].
        destruct (Dom_comparable Sh n np p Hnp' Hc1) as [?|Hnn]; [done|].
        destruct (decide (np = p)) as [->|Hne]; [done|]. exfalso. apply H2.
        split_and!; try done. exists m. done.
      * right. split; [done|]. right. split; [|done]. intros H. apply Hcyc. by eauto 2 using Dom_trans.
    + intros (m & Hm & Hpos). apply HD in Hm as [[Hcm Hm]|[Hcm [[Hcn Hm]|[Hcn Hnnp]]]].
      * left. split; [by exists m|]. intros (_ & _ & _ & (m' & Hm' & Hpos')).
        rewrite (to_inj _ _ Tm m' m i Hpos' Hpos) in Hm'. done.
      * left. split; [by exists m|]. intros (_ & H & _). apply (Dom_PE_acyclic Sh c p); [by eauto 2 using Dom_trans|done].
      * right. split; [done|]. by exists m.
  - done.
Qed.

(** ** The cases in which the result is not a well-formed tree *)
Lemma projectivity_change_frame t a b t' :
  projectivity_change t a b = Ret t' -> tr_graph t' = tr_graph t /\ tr_root t' = tr_root t.
Proof.
  unfold projectivity_change. destruct a, b; try (intros [= <-]; done).
  intros (n & _ & [= <-])%bind_Ret. done.
Qed.
Lemma reattach_merge_edges fuel t cs c t' :
  reattach_merge fuel t cs c = Ret t' -> edges t' = edges t.
Proof.
  revert t c. induction fuel as [|fuel IH]; intros t [[p e]|]; [done|by intros [= <-]| |by intros [= <-]].
  cbn [reattach_merge climber_next]. intros (w & Hw & H)%bind_Ret.
  destruct (span_covers (node_span w) cs); [by injection H as <-|].
  apply bind_Ret in H as (nt & _ & H). apply bind_Ret in H as (s & _ & H).
  apply bind_Ret in H as (t1 & H1 & H). apply projectivity_change_frame in H1 as [H1 _].
  rewrite (IH _ _ H), H1. done.
Qed.

Lemma reattach_primary_bad t np r0 x t' :
  WF t -> r0 ∈ edges t -> is_primary (e_w r0) = true -> is_Some (nodes t !! np) ->
  reattach_primary t np (e_id r0) = Ret (t', Ok x) -> WF t' ->
  ~ Dom (edges t) (e_tgt r0) np /\ (Dom (edges t) np (e_src r0) \/ Dom (edges t) (e_src r0) np).
Proof.
  intros W Hr0 Pr0 [wnp Hwnp] HR W'. pose proof W as [G Sh Tm Nt Nd].
  set (p := e_src r0) in *. set (c := e_tgt r0) in *.
  assert (Hpc : PE (edges t) p c) by (by exists r0).
  destruct (sh_live _ _ _ Sh p c Hpc) as [[wp Hwp] [wc Hwc]].
  destruct (node_span_ok _ _ _ _ _ _ Sh Tm Nt Hwc) as [Hokc Hcc].
  assert (Hgoal : Dom (edges t) c np \/ (~ Dom (edges t) c np /\ ~ Dom (edges t) np p /\ ~ Dom (edges t) p np) -> False).
  2:{ destruct (Dom_em _ _ _ c np Sh) as [H|H]; [exfalso; apply Hgoal; by left|]. split; [done|].
      destruct (Dom_em _ _ _ np p Sh) as [H1|H1]; [by left|].
      destruct (Dom_em _ _ _ p np Sh) as [H2|H2]; [by right|]. exfalso. apply Hgoal. by right. }
  intros Hbad.
  assert (Hnpp : ~ Dom (edges t) np p).
  { destruct Hbad as [H|(_ & H & _)]; [|done]. intros H'. apply (Dom_PE_acyclic Sh c p); [|done].
    by eauto 2 using Dom_trans. }
  assert (Hpnp : p <> np) by (intros E; apply Hnpp; rewrite E; done).
  unfold reattach_primary in HR. rewrite (proj2 (find_edge_Some _ _ r0 G) (conj Hr0 eq_refl)) in HR.
  cbn [unwrap mbind outcome_bind] in HR. rewrite (node_at_Some _ _ _ Hwnp) in HR.
  cbn [unwrap mbind outcome_bind] in HR. fold p in HR. fold c in HR.
  destruct wnp as [ntnp|tmnp]; [|done]. cbn [is_terminal] in HR.
  destruct (Nat.eqb_spec p np) as [?|_]; [done|]. rewrite andb_true_r in HR.
  destruct (Nat.eqb_spec (length (siblings t c)) 0) as [|Hsib]; [done|].
  assert (Hleft : p = np \/ exists s, PE (edges t) p s /\ s <> c).
  { right. destruct (siblings t c) as [|[s e] l] eqn:E; [done|].
    assert (Hin : (s, e) ∈ siblings t c) by (rewrite E; set_solver).
    apply elem_of_siblings in Hin as (Hne & q & Hq & Hc); [|done]. exists s. split; [|done].
    rewrite (PE_parent_unique Sh _ _ _ Hpc Hq). apply children_PE. eauto. }
  destruct (upath_exists Sh p ltac:(eauto)) as [lp Hlp].
  unfold climber_new in HR. rewrite (reattach_climb_miss _ t np c p lp) in HR; try done.
  2:{ pose proof (upath_length Sh p lp ltac:(eauto) Hlp). unfold climb_fuel, node_count. lia. }
  2:{ intros Hin. apply Hnpp, tc_rtc. by apply (upath_elem Sh p lp np Hlp). }
  cbn [mbind outcome_bind] in HR.
  destruct (remove_edge_spec (tr_graph t) r0 G Hr0) as (g2 & Hrem & G2 & N2 & Ed2 & El2).
  rewrite Hrem in HR. cbn [unwrap mbind outcome_bind] in HR.
  destruct (add_edge_spec g2 np c (Primary None) G2) as (g3 & e' & Hadd & G3 & N3 & Ed3 & _).
  { rewrite N2. eauto. } { rewrite N2. eauto. }
  rewrite Hadd in HR. cbn [mbind outcome_bind] in HR. rewrite N2 in N3. rewrite Ed2 in Ed3.
  unfold node_at in HR. cbn [tr_graph set_graph] in HR. rewrite N3, Hwc in HR.
  cbn [unwrap mbind outcome_bind] in HR.
  apply bind_Ret in HR as (t4 & HM & [= <- <-]).
  assert (Hes : forall r, r ∈ g_edges g3 <-> r = mk_e e' np c (Primary None) \/ (r ∈ edges t /\ r <> r0)).
  { intros r. rewrite Ed3, elem_of_cons, <- Ed2, El2. done. }
  assert (Ttrue : is_primary (Primary (None : option str)) = true) by done.
  destruct Hbad as [Hcyc|(Hcyc & _ & Hpnp')].
  - (* a cycle *)
    pose proof (reattach_merge_edges _ _ _ _ _ HM) as He. simpl in He.
    assert (HPE : forall a b, PE (g_edges g3) a b <-> (a = np /\ b = c) \/ (PE (edges t) a b /\ b <> c)).
    { intros a b. split.
      - intros (r & Hr & H1 & H2 & H3). apply Hes in Hr as [->|[Hr Hne]]; simpl in *.
        + left. naive_solver.
        + right. split; [by exists r|]. intros ->. apply Hne.
          apply (sh_uniq _ _ _ Sh); [done..|exact H3].
      - intros [[-> ->]|[(r & Hr & H1 & H2 & H3) Hb]].
        + eexists. split; [apply Hes; by left|]. done.
        + exists r. split_and!; try done. apply Hes. right. split; [done|]. intros ->. by apply Hb. }
    assert (Hd : Dom (g_edges g3) c np).
    { clear -Hcyc HPE Sh.
      assert (H : forall y, Dom (edges t) c y -> Dom (g_edges g3) c y).
      { refine (rtc_ind_r _ _ _ _); [done|]. intros a b Ha Hab IH. eapply rtc_r; [exact IH|].
        apply HPE. right. split; [done|]. intros ->. by apply (Dom_PE_acyclic Sh c a). }
      by apply H. }
    rewrite <- He in Hd. apply (Dom_PE_acyclic (wf_shape _ W') c np Hd). rewrite He. apply HPE. by left.
  - assert (Sh2 : shape_ok (nodes t) (g_edges g3) (tr_root t)).
    { eapply (move_shape (l := Primary None) Sh Hr0 Pr0 eq_refl eq_refl Ttrue Hwnp Hcyc Hleft). exact Hes. }
    assert (HD : forall a b, Dom (g_edges g3) a b <->
      (~ Dom (edges t) c b /\ Dom (edges t) a b) \/
      (Dom (edges t) c b /\ ((Dom (edges t) c a /\ Dom (edges t) a b) \/ (~ Dom (edges t) c a /\ Dom (edges t) a np)))).
    { intros a b. eapply (move_Dom (l := Primary None) Sh Hr0 Pr0 eq_refl eq_refl Ttrue Hwnp Hcyc Hleft). exact Hes. }
    set (t3 := set_graph t g3) in *.
    assert (Sh3 : shape_ok (nodes t3) (edges t3) (tr_root t3)) by (simpl; by rewrite N3).
    destruct (upath_exists Sh3 c ltac:(simpl; rewrite N3; eauto)) as [lc Hlc].
    assert (Hlcin : forall y, y ∈ lc -> Dom (edges t) y np).
    { intros y. rewrite (upath_elem Sh3 c lc y Hlc), (tc_Dom _ _ _ _ _ Sh3). simpl. rewrite HD.
      intros [[[H _]|[_ [[H1 H2]|[_ H]]]] Hne]; [|by exfalso; apply Hne, (Dom_antisym Sh)|done].
      exfalso. by apply H. }
    destruct (reattach_merge_spec (climb_fuel t3) t3 (nodes t) (yields (nodes t) (edges t)) (node_span wc) c lc)
      as (N4 & HM' & E4 & S4); try done.
    { pose proof (upath_length Sh3 c lc ltac:(simpl; rewrite N3; eauto) Hlc).
      unfold climb_fuel, node_count. lia. }
    { intros a b Ha%Hlcin Hb Hsub i Hi. simpl in Hb. specialize (Hsub i Hi).
      eapply (yields_Dom (N:=nodes t)); [|exact Hsub].
      apply HD in Hb as [[_ ?]|[H' _]]; [done|]. exfalso. apply Hcyc. by eauto 2 using Dom_trans. }
    unfold climber_new in HM. rewrite HM' in HM. injection HM as <-.
    pose proof W' as [G' Sh' Tm' Nt' Nd']. simpl in Nt', Sh', Tm'.
    assert (exists ntp, N4 !! p = Some (NT ntp)) as [ntp Hntp].
    { destruct (PE_src_nt Sh p c Hpc) as [ntp0 H0]. by apply (eq_strip_NT _ _ _ _ (strip_of_strip_nt _ _ E4) H0) || (
        assert (is_Some (N4 !! p)) as [w4 H4] by (rewrite <- elem_of_dom, (fmap_eq_dom strip_nt _ _ E4), elem_of_dom; eauto);
        destruct (fmap_eq_lookup strip_nt _ _ _ _ E4 H4) as (w5 & H5 & H6);
        rewrite H0 in H5; injection H5 as <-; destruct w4 as [nt4|]; [by exists nt4|done]). }
    destruct (S4 p ntp Hntp) as [_ HS]. destruct (Nt' p ntp Hntp) as [_ HS'].
    assert (Hlivec : is_Some (nodes t !! c)) by eauto.
    pose proof (start_yields Sh Tm Nt c Hlivec) as (m & Hm & Hpos).
    assert (Hy : yields N4 (g_edges g3) p (node_start (nodes t) c)).
    { apply HS', HS. left. exists m. split; [|done]. eapply rtc_l; [exact Hpc|done]. }
    destruct Hy as (m' & Hm' & Hpos'). apply (term_pos_strip_nt _ _ _ _ E4) in Hpos'.
    rewrite (to_inj _ _ Tm m' m _ Hpos' Hpos) in Hm'.
    apply HD in Hm' as [[H _]|[_ [[H _]|[_ H]]]]; [done| |done].
    by apply (Dom_PE_acyclic Sh c p).
Qed.

(** ** Errors *)
Lemma reattach_node_self t np r0 :
  WF t -> r0 ∈ edges t -> is_Some (nodes t !! np) -> e_tgt r0 = np ->
  reattach_node t np (e_id r0) = Ret (t, Err).
Proof.
  intros [G Sh Tm Nt Nd] Hr0 Hnp E. unfold reattach_node.
  rewrite (proj2 (contains_node_true _ _) Hnp). simpl.
  rewrite (proj2 (find_edge_Some _ _ r0 G) (conj Hr0 eq_refl)). simpl.
  by rewrite (proj2 (Nat.eqb_eq _ _) E).
Qed.
Lemma reattach_node_primary t np r0 :
  WF t -> r0 ∈ edges t -> is_primary (e_w r0) = true -> is_Some (nodes t !! np) -> e_tgt r0 <> np ->
  reattach_node t np (e_id r0) = reattach_primary t np (e_id r0).
Proof.
  intros [G Sh Tm Nt Nd] Hr0 Pr0 Hnp E. unfold reattach_node.
  rewrite (proj2 (contains_node_true _ _) Hnp). simpl.
  rewrite (proj2 (find_edge_Some _ _ r0 G) (conj Hr0 eq_refl)). simpl.
  destruct (Nat.eqb_spec (e_tgt r0) np); [done|]. by destruct (e_w r0).
Qed.
Lemma reattach_primary_err t np r0 :
  WF t -> r0 ∈ edges t -> is_primary (e_w r0) = true -> is_Some (nodes t !! np) ->
  (exists tm, nodes t !! np = Some (T tm)) \/
  (e_src r0 <> np /\ forall s, PE (edges t) (e_src r0) s -> s = e_tgt r0) ->
  reattach_primary t np (e_id r0) = Ret (t, Err).
Proof.
  intros [G Sh Tm Nt Nd] Hr0 Pr0 [w Hnp] H. unfold reattach_primary.
  rewrite (proj2 (find_edge_Some _ _ r0 G) (conj Hr0 eq_refl)). cbn [unwrap mbind outcome_bind].
  rewrite (node_at_Some _ _ _ Hnp). cbn [unwrap mbind outcome_bind].
  destruct w as [nt|tm]; [|done]. destruct H as [[tm H]|[Hne H]]; [congruence|].
  cbn [is_terminal].
  assert (siblings t (e_tgt r0) = []) as ->.
  { apply (siblings_nil t _ Sh). intros p s Hp Hs. apply H.
    rewrite (PE_parent_unique Sh (e_src r0) p (e_tgt r0)); [done|by exists r0|done]. }
  simpl. by destruct (Nat.eqb_spec (e_src r0) np).
Qed.
