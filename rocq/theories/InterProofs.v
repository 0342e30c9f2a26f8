(** [insert_intermediate]: one new node above every run of adjacent terminal children. *)
From Coq Require Import Lia.
From Verif Require Import ModModel TreeSpec BaseProofs ShapeProofs GraphProofs DfsProofs ResetProofs
  ShapeOps TreeOps SortProofs EditProofs UnaryProofs RemoveProofs ReattachProofs Api FilterProofs.

(** A terminal moves from its parent to a sibling nonterminal. *)
Lemma join_step t p ins nti c tm e :
  WF t -> parent t c = Some (p, e) -> PE (edges t) p ins -> nodes t !! ins = Some (NT nti) ->
  nodes t !! c = Some (T tm) ->
  exists t' x, reattach_node t ins e = Ret (t', Ok x) /\ WF t' /\
    tr_root t' = tr_root t /\ tr_nterm t' = tr_nterm t /\
    (forall n, n <> ins -> nodes t' !! n = nodes t !! n) /\
    (exists sp, nodes t' !! ins = Some (NT (nt_set_span nti sp))) /\
    (forall a b, PE (edges t') a b <-> (b <> c /\ PE (edges t) a b) \/ (a = ins /\ b = c)) /\
    (forall n q e', n <> c -> parent t n = Some (q, e') -> parent t' n = Some (q, e')).
Proof.
  intros W Hpar Hpi Hi Hc. pose proof W as [G Sh Tm Nt Nd].
  destruct (proj1 (parent_Some t c p e Sh) Hpar) as (r0 & Hr0 & Pr0 & Sr0 & Tr0 & <-).
  assert (Hpc : PE (edges t) p c) by (by exists r0).
  assert (Hic : ins <> c) by (intros ->; congruence).
  assert (Hcyc : ~ Dom (edges t) c ins).
  { intros H. apply (term_Dom Sh c tm) in H; [|done]. congruence. }
  rewrite (reattach_node_primary t ins r0 W Hr0 Pr0) by (rewrite ?Tr0; eauto).
  destruct (reattach_primary_ok t ins nti r0 W Hr0 Pr0 Hi)
    as (t' & e' & HR & W' & Es & Ee & Hes & Rt & Kt).
  { by rewrite Tr0. }
  { right. rewrite Sr0. by apply rtc_once. }
  { right. exists ins. rewrite Sr0, Tr0. done. }
  rewrite Tr0 in Hes. pose proof W' as [G' Sh' Tm' Nt' Nd'].
  assert (Ttrue : is_primary (Primary (None : option str)) = true) by done.
  assert (Hleft : p = ins \/ (exists s, PE (edges t) p s /\ s <> c)) by (right; by exists ins).
  assert (HPE : forall a b, PE (edges t') a b <-> (b <> c /\ PE (edges t) a b) \/ (a = ins /\ b = c)).
  { intros a b. pose proof (move_PE (l := Primary None) Sh Hr0 Pr0 Sr0 Tr0 Ttrue Hi Hcyc Hleft Hes a b). tauto. }
  assert (HD : forall a b, a <> ins -> Dom (edges t') a b <-> Dom (edges t) a b).
  { intros a b Ha. rewrite (move_Dom (l := Primary None) Sh Hr0 Pr0 Sr0 Tr0 Ttrue Hi Hcyc Hleft Hes).
    assert (Hcx : forall x, Dom (edges t) c x <-> x = c).
    { intros x. split; [by apply (term_Dom Sh c tm)|by intros ->]. }
    rewrite !Hcx. destruct (decide (b = c)) as [->|]; [|tauto].
    assert (Ha1 : Dom (edges t) a ins <-> Dom (edges t) a p).
    { split; [|intros H; by eapply rtc_r]. intros H. by destruct (Dom_step_r Sh a p ins H Hpi). }
    assert (Ha2 : Dom (edges t) a c <-> a = c \/ Dom (edges t) a p).
    { split; [|intros [->|H]; [done|by eapply rtc_r]]. intros H. by destruct (Dom_step_r Sh a p c H Hpc); [left|right]. }
    rewrite Ha1, Ha2. destruct (decide (a = c)) as [->|]; tauto. }
  exists t'. eexists. rewrite HR. split_and!; try done.
  - intros n Hn. destruct (nodes t !! n) as [w|] eqn:E.
    + symmetry in Es. destruct (fmap_eq_lookup strip_nt _ _ _ _ Es E) as (w' & Hw' & E').
      rewrite Hw'. f_equal. destruct w as [nt|tn], w' as [nt'|tn']; try done.
      * destruct (Nt n nt E) as [O1 C1]. destruct (Nt' n nt' Hw') as [O2 C2].
        assert (nt_span nt' = nt_span nt) as Esp.
        { apply span_ext; [done|done|]. intros i. rewrite C1, C2. unfold yields.
          split; intros (m & Hm & (tm' & Hm' & Hsp)); exists m; (split; [by apply HD|]); exists tm'; (split; [|done]).
          - by apply (eq_strip_nt_T _ _ _ _ Es).
          - by apply (eq_strip_nt_T _ _ _ _ Es). }
        destruct nt, nt'. simpl in *. injection E' as -> ->. by rewrite Esp.
    + destruct (nodes t' !! n) as [w'|] eqn:E'; [|done].
      destruct (fmap_eq_lookup strip_nt _ _ _ _ Es E') as (w & Hw & _). congruence.
  - symmetry in Es. destruct (fmap_eq_lookup strip_nt _ _ _ _ Es Hi) as (w' & Hw' & E').
    destruct w' as [nt'|]; [|done]. exists (nt_span nt'). rewrite Hw'. destruct nti, nt'. by injection E' as -> ->.
  - intros n q e1 Hn Hq. apply parent_Some in Hq as (r & Hr & Pr & Sr & Tr & Er); [|done].
    apply parent_Some; [done|]. exists r. split_and!; try done. apply Hes. right. split; [done|].
    intros ->. congruence.
Qed.

(** A new node above a terminal. *)
Lemma above_step t p c tm e label :
  WF t -> parent t c = Some (p, e) -> nodes t !! c = Some (T tm) ->
  exists t' ins, insert_unary_above t c label = Ret (t', ins) /\ WF t' /\
    tr_root t' = tr_root t /\ tr_nterm t' = tr_nterm t /\
    nodes t !! ins = None /\ nodes t' = <[ins := NT (mk_nt label None (t_span tm))]> (nodes t) /\
    (forall a b, PE (edges t') a b <-> (b <> c /\ PE (edges t) a b) \/ (a = p /\ b = ins) \/ (a = ins /\ b = c)) /\
    (forall n q e', n <> c -> parent t n = Some (q, e') -> parent t' n = Some (q, e')).
Proof.
  intros W Hpar Hc. pose proof W as [G Sh Tm Nt Nd].
  assert (Hpc : PE (edges t) p c) by (apply parent_PE; eauto).
  destruct (insert_unary_above_ok t c (T tm) label W Hc)
    as (t' & ins & HR & W' & Hd & Hins & HN & Hk & Hr & HPE & HE & _).
  apply unary_not_gappy_WF in W'; [|intros Hg|done].
  2:{ destruct (to_pos _ _ Tm c tm Hc) as (i & Hi & _). unfold gappy in Hg. simpl in Hg. by rewrite Hi in Hg. }
  assert (Hcr : c <> tr_root t) by (intros ->; by apply (sh_root_top _ _ _ Sh p)).
  rewrite decide_False in Hr by done.
  assert (Hfresh : forall a, ~ PE (edges t) a ins).
  { intros a H. apply (sh_live _ _ _ Sh) in H as [_ [? H]]. congruence. }
  exists t', ins. split_and!; try done.
  - intros a b. rewrite HPE. split.
    + intros [[H ->]|[?|[? ?]]]; [|tauto|tauto]. right. left. by rewrite (PE_parent_unique Sh a p c H Hpc).
    + intros [[? ?]|[[-> ->]|?]]; tauto.
  - intros n q e1 Hn Hq. destruct (HE p e Hpar) as (e1' & e2' & r0 & Hr0 & Er0 & Hed).
    apply parent_Some in Hq as (r & Hr' & Pr & Sr & Tr & Er); [|done].
    apply parent_Some; [apply W'|]. exists r. split_and!; try done.
    rewrite Hed. right. right. apply elem_of_list_filter. split; [|done]. intros Heq.
    destruct (proj1 (parent_Some t c p e Sh) Hpar) as (r1 & Hr1 & Pr1 & Sr1 & Tr1 & Er1).
    assert (r = r1) as ->; [|congruence].
    apply (eid_inj _ _ _ G); congruence.
Qed.

(** ** One parent *)
Record RunInv (t1 : tree) (p : nat) (label : str) (D : list nat) (t : tree) : Prop := {
  ru_wf : WF t;
  ru_root : tr_root t = tr_root t1;
  ru_nterm : tr_nterm t = tr_nterm t1;
  ru_old : forall n w, nodes t1 !! n = Some w -> nodes t !! n = Some w;
  ru_new : forall n w, nodes t1 !! n = None -> nodes t !! n = Some w ->
    (exists sp, w = NT (mk_nt label None sp)) /\ PE (edges t) p n;
  ru_rest : forall a b, is_Some (nodes t1 !! b) -> b ∉ D -> PE (edges t) a b <-> PE (edges t1) a b;
  ru_done : forall b, b ∈ D -> exists m, nodes t1 !! m = None /\ PE (edges t) m b;
  ru_group : forall x y i j, x ∈ D -> y ∈ D -> term_pos (nodes t1) x i -> term_pos (nodes t1) y j -> i <= j ->
    (exists m, PE (edges t) m x /\ PE (edges t) m y) <->
    (forall k, i <= k <= j -> exists z, z ∈ D /\ term_pos (nodes t1) z k)
}.

Lemma term_pos_fun N x i j : term_pos N x i -> term_pos N x j -> i = j.
Proof. intros (tm & H & E) (tm' & H' & E'). rewrite H in H'. injection H' as <-. rewrite E in E'. by injection E'. Qed.

(** Adding one terminal to the grouped ones. *)
Lemma RunInv_add t1 p label D t t2 c k m :
  WF t1 -> RunInv t1 p label D t -> WF t2 -> c ∉ D -> term_pos (nodes t1) c k ->
  (forall x, x ∈ D -> exists i, term_pos (nodes t1) x i /\ i < k) ->
  tr_root t2 = tr_root t -> tr_nterm t2 = tr_nterm t ->
  nodes t1 !! m = None ->
  (forall n w, nodes t1 !! n = Some w -> nodes t2 !! n = Some w) ->
  (forall n w, nodes t1 !! n = None -> nodes t2 !! n = Some w ->
    (exists sp, w = NT (mk_nt label None sp)) /\ PE (edges t2) p n) ->
  (forall a b, is_Some (nodes t1 !! b) -> PE (edges t2) a b <-> (b <> c /\ PE (edges t) a b) \/ (a = m /\ b = c)) ->
  (* the parent of [c] has further children iff the position before it has just been grouped *)
  (forall x i, x ∈ D -> term_pos (nodes t1) x i -> PE (edges t) m x <-> 
     forall j, i <= j < k -> exists z, z ∈ D /\ term_pos (nodes t1) z j) ->
  RunInv t1 p label (c :: D) t2.
Proof.
  intros W1 R W2 HcD Hck HD Rt Kt Hm Ho Hn HP Hg. pose proof W1 as [G Sh Tm Nt Nd].
  assert (HlD : forall x, x ∈ D -> is_Some (nodes t1 !! x)).
  { intros x (i & (tm & Hx & _) & _)%HD. eauto. }
  assert (Hlc : is_Some (nodes t1 !! c)) by (destruct Hck as (tm & Hx & _); eauto).
  constructor; try done.
  - rewrite Rt. apply R.
  - rewrite Kt. apply R.
  - intros a b Hb [Hbc HbD]%not_elem_of_cons. rewrite HP by done. rewrite (ru_rest _ _ _ _ _ R a b Hb HbD). tauto.
  - intros b [->|Hb]%elem_of_cons.
    + exists m. split; [done|]. apply HP; [done|]. by right.
    + destruct (ru_done _ _ _ _ _ R b Hb) as (m' & Hm' & HPm'). exists m'. split; [done|].
      apply HP; [by apply HlD|]. left. split; [|done]. intros ->. done.
  - intros x y i j Hx Hy Hxi Hyj Hij.
    assert (HPD : forall a b, b ∈ D -> PE (edges t2) a b <-> PE (edges t) a b).
    { intros a b Hb. rewrite HP by (by apply HlD). split; [|intros H; left; split; [intros ->; done|done]].
      intros [[_ ?]|[_ ->]]; done. }
    assert (HPc : forall a, PE (edges t2) a c <-> a = m).
    { intros a. rewrite HP by done. tauto. }
    apply elem_of_cons in Hx as [->|Hx], Hy as [->|Hy].
    + rewrite (term_pos_fun _ _ _ _ Hxi Hck) in *. rewrite (term_pos_fun _ _ _ _ Hyj Hck) in *.
      split; [|intros _; exists m; by rewrite HPc]. intros _ l Hl. exists c.
      replace l with k by lia. split; [set_solver|done].
    + exfalso. destruct (HD y Hy) as (j' & Hyj' & Hlt). rewrite (term_pos_fun _ _ _ _ Hyj Hyj') in *.
      rewrite (term_pos_fun _ _ _ _ Hxi Hck) in *. lia.
    + rewrite (term_pos_fun _ _ _ _ Hyj Hck) in *.
      transitivity (PE (edges t) m x).
      { split; [intros (m' & H1 & ->%HPc); by apply HPD|]. intros H. exists m. rewrite HPc. split; [by apply HPD|done]. }
      rewrite (Hg x i Hx Hxi). split.
      * intros H l Hl. destruct (decide (l = k)) as [->|Hlk]; [exists c; split; [set_solver|done]|].
        destruct (H l ltac:(lia)) as (z & Hz & Hzl). exists z. split; [set_solver|done].
      * intros H l Hl. destruct (H l ltac:(lia)) as (z & [->|Hz]%elem_of_cons & Hzl); [|by exists z].
        rewrite (term_pos_fun _ _ _ _ Hzl Hck) in Hl. lia.
    + transitivity (exists m', PE (edges t) m' x /\ PE (edges t) m' y).
      { split; intros (m' & H1 & H2); exists m'; split; by apply HPD. }
      rewrite (ru_group _ _ _ _ _ R x y i j Hx Hy Hxi Hyj Hij). split.
      * intros H l Hl. destruct (H l Hl) as (z & Hz & Hzl). exists z. split; [set_solver|done].
      * intros H l Hl. destruct (H l Hl) as (z & [->|Hz]%elem_of_cons & Hzl); [|by exists z].
        destruct (HD y Hy) as (j' & Hyj' & Hlt). rewrite (term_pos_fun _ _ _ _ Hyj Hyj') in *.
        rewrite (term_pos_fun _ _ _ _ Hzl Hck) in Hl. lia.
Qed.

Lemma insert_runs_ok t1 p ntp label cs : forall D t vis ins prev,
  WF t1 -> nodes t1 !! p = Some (NT ntp) -> RunInv t1 p label D t ->
  nodes t1 !! ins = None ->
  (exists last, last ∈ D /\ term_pos (nodes t1) last prev /\ PE (edges t) ins last) ->
  (forall x, x ∈ D -> exists i, term_pos (nodes t1) x i /\ i <= prev) ->
  (forall c e, (c, e) ∈ cs -> parent t c = Some (p, e) /\
     exists i, term_pos (nodes t1) c i /\ prev < i) ->
  StronglySorted (fun a b => forall i j, term_pos (nodes t1) a.1 i -> term_pos (nodes t1) b.1 j -> i < j) cs ->
  exists t' vis' D', insert_runs t vis label ins prev cs = Ret (t', vis', Ok ()) /\
    RunInv t1 p label D' t' /\
    (forall x, x ∈ vis' <-> x ∈ vis \/ x ∈ map fst cs) /\
    (forall x, x ∈ D' <-> x ∈ D \/ x ∈ map fst cs).
Proof.
  induction cs as [|[c e] cs IH]; intros D t vis ins prev W1 Hp R Hins Hlast Hmax Hcs Hsort.
  { exists t, vis, D. cbn [insert_runs map]. split_and!; try done; set_solver. }
  pose proof W1 as [G1 Sh1 Tm1 Nt1 Nd1].
  apply StronglySorted_inv in Hsort as [Hsort Hall]. rewrite Forall_forall in Hall.
  destruct (Hcs c e ltac:(set_solver)) as (Hpar & k & Hck & Hlt).
  pose proof Hck as (tm & Hc1 & Hsp).
  pose proof (ru_wf _ _ _ _ _ R) as W. pose proof W as [G Sh Tm Nt Nd].
  pose proof (ru_old _ _ _ _ _ R c _ Hc1) as Hc. cbn [insert_runs]. rewrite (node_at_Some _ _ _ Hc).
  cbn [unwrap mbind outcome_bind node_span]. rewrite Hsp. cbn [span_of sp_start].
  assert (Hk' : sp_start (span_of k) = k) by done. 
  assert (HcD : c ∉ D).
  { intros H. destruct (Hmax c H) as (i & Hi & Hle). rewrite (term_pos_fun _ _ _ _ Hi Hck) in Hle. lia. }
  assert (HD : forall x, x ∈ D -> exists i, term_pos (nodes t1) x i /\ i < k).
  { intros x Hx. destruct (Hmax x Hx) as (i & Hi & Hle). exists i. split; [done|lia]. }
  assert (Hcs' : forall t2, (forall n q e', n <> c -> parent t n = Some (q, e') -> parent t2 n = Some (q, e')) ->
     forall c' e', (c', e') ∈ cs -> parent t2 c' = Some (p, e') /\
     exists i, term_pos (nodes t1) c' i /\ k < i).
  { intros t2 Hpp c' e' Hin. destruct (Hcs c' e' ltac:(set_solver)) as (Hpar' & k' & Hck' & Hlt').
    pose proof (Hall (c', e') Hin k k' Hck Hck') as Hkk. split.
    - apply Hpp; [|done]. intros ->. rewrite (term_pos_fun _ _ _ _ Hck' Hck) in Hkk. lia.
    - by exists k'. }
  destruct Hlast as (last & HlD & Hlp & HPl).
  assert (Hinst : exists sp, nodes t !! ins = Some (NT (mk_nt label None sp)) /\ PE (edges t) p ins).
  { destruct (sh_live _ _ _ Sh ins last HPl) as [[w Hw] _].
    destruct (ru_new _ _ _ _ _ R ins w Hins Hw) as [[sp ->] ?]. eauto. }
  destruct Hinst as (sp & Hi & Hpi).
  destruct (Nat.eqb_spec k (prev + 1)) as [Ek|Ek].
  - destruct (join_step t p ins (mk_nt label None sp) c tm e W Hpar Hpi Hi Hc)
      as (t2 & x & -> & W2 & Rt & Kt & HN & (sp' & HNi) & HP & Hpp).
    cbn [mbind outcome_bind].
    assert (R2 : RunInv t1 p label (c :: D) t2).
    { apply (RunInv_add t1 p label D t t2 c k ins); try done.
      - intros n w Hn. rewrite HN by (intros ->; congruence). by apply (ru_old _ _ _ _ _ R).
      - intros n w Hn Hw. destruct (decide (n = ins)) as [->|Hni].
        + rewrite HNi in Hw. injection Hw as <-. split; [by eexists|]. apply HP. left. split; [congruence|done].
        + rewrite HN in Hw by done. destruct (ru_new _ _ _ _ _ R n w Hn Hw) as [? HPn]. split; [done|].
          apply HP. left. split; [congruence|done].
      - intros y i Hy Hyi. destruct (Hmax y Hy) as (i' & Hyi' & Hle).
        rewrite (term_pos_fun _ _ _ _ Hyi Hyi') in *. clear i Hyi.
        transitivity (exists m, PE (edges t) m y /\ PE (edges t) m last).
        + split; [by exists ins|]. intros (m & H1 & H2). by rewrite (PE_parent_unique Sh ins m last HPl H2).
        + rewrite (ru_group _ _ _ _ _ R y last i' prev Hy HlD Hyi' Hlp Hle).
          split; intros H j Hj; apply H; lia. }
    destruct (IH (c :: D) t2 ({[c]} ∪ vis) ins (prev + 1)) as (t' & vis' & D' & HR & R' & Hvis & HD'); try done.
    + exists c. split_and!; [set_solver|by rewrite <- Ek|]. apply HP. by right.
    + intros y [->|Hy]%elem_of_cons; [exists k; split; [done|lia]|].
      destruct (Hmax y Hy) as (i & Hi' & Hle). exists i. split; [done|lia].
    + rewrite <- Ek. by apply Hcs'.
    + exists t', vis', D'. rewrite HR. split_and!; try done.
      * intros y. rewrite Hvis. cbn [map fst]. set_solver.
      * intros y. rewrite HD'. cbn [map fst]. set_solver.
  - destruct (above_step t p c tm e label W Hpar Hc)
      as (t2 & m & -> & W2 & Rt & Kt & Hm & HN & HP & Hpp).
    cbn [mbind outcome_bind].
    assert (Hm1 : nodes t1 !! m = None).
    { destruct (nodes t1 !! m) as [w|] eqn:E; [|done]. apply (ru_old _ _ _ _ _ R) in E. congruence. }
    assert (HPm : forall x, ~ PE (edges t) m x).
    { intros x H. apply (sh_live _ _ _ Sh) in H as [[? H] _]. congruence. }
    assert (R2 : RunInv t1 p label (c :: D) t2).
    { apply (RunInv_add t1 p label D t t2 c k m); try done.
      - intros n w Hn. rewrite HN, lookup_insert_ne by (intros ->; congruence). by apply (ru_old _ _ _ _ _ R).
      - intros n w Hn Hw. rewrite HN in Hw. apply lookup_insert_Some in Hw as [[<- <-]|[Hne Hw]].
        + split; [by eexists|]. apply HP. right. by left.
        + destruct (ru_new _ _ _ _ _ R n w Hn Hw) as [? HPn]. split; [done|].
          apply HP. left. split; [congruence|done].
      - intros a b Hb. rewrite HP. split; [|tauto]. intros [?|[[_ ->]|?]]; [tauto| |tauto].
        destruct Hb as [? Hb]. congruence.
      - intros y i Hy Hyi. split; [by intros H%HPm|]. intros H. exfalso.
        destruct (Hmax y Hy) as (i' & Hyi' & Hle). rewrite (term_pos_fun _ _ _ _ Hyi Hyi') in *.
        destruct (H (prev + 1) ltac:(lia)) as (z & Hz & Hzp). destruct (Hmax z Hz) as (i2 & Hi2 & Hle2).
        pose proof (term_pos_fun _ _ _ _ Hzp Hi2). lia. }
    destruct (IH (c :: D) t2 ({[c]} ∪ vis) m k) as (t' & vis' & D' & HR & R' & Hvis & HD'); try done.
    + exists c. split_and!; [set_solver|done|]. apply HP. tauto.
    + intros y [->|Hy]%elem_of_cons; [exists k; split; [done|lia]|].
      destruct (Hmax y Hy) as (i & Hi' & Hle). exists i. split; [done|lia].
    + by apply Hcs'.
    + exists t', vis', D'. rewrite HR. split_and!; try done.
      * intros y. rewrite Hvis. cbn [map fst]. set_solver.
      * intros y. rewrite HD'. cbn [map fst]. set_solver.
Qed.

(** ** All parents *)
Record IInv (t0 : tree) (f : tree -> nat -> option str) (P : list nat) (t : tree) : Prop := {
  ii_wf : WF t;
  ii_root : tr_root t = tr_root t0;
  ii_nterm : tr_nterm t = tr_nterm t0;
  ii_old : forall n w, nodes t0 !! n = Some w -> nodes t !! n = Some w;
  ii_new : forall n w, nodes t0 !! n = None -> nodes t !! n = Some w ->
    exists p l sp, p ∈ P /\ f t0 p = Some l /\ w = NT (mk_nt l None sp) /\ PE (edges t) p n;
  ii_rest : forall a b, is_Some (nodes t0 !! b) ->
    ~ ((exists tm, nodes t0 !! b = Some (T tm)) /\ exists p, p ∈ P /\ PE (edges t0) p b) ->
    PE (edges t) a b <-> PE (edges t0) a b;
  ii_done : forall p b tm, p ∈ P -> PE (edges t0) p b -> nodes t0 !! b = Some (T tm) ->
    exists m, nodes t0 !! m = None /\ PE (edges t) m b /\ PE (edges t) p m;
  ii_group : forall p x y i j, p ∈ P -> PE (edges t0) p x -> PE (edges t0) p y ->
    term_pos (nodes t0) x i -> term_pos (nodes t0) y j -> i <= j ->
    (exists m, PE (edges t) m x /\ PE (edges t) m y) <->
    (forall k, i <= k <= j -> exists z, PE (edges t0) p z /\ term_pos (nodes t0) z k)
}.

Lemma IInv_init t f : WF t -> IInv t f [] t.
Proof. intros W. constructor; try done; set_solver. Qed.

Lemma span_order_term t a b i j :
  term_pos (nodes t) a.1 i -> term_pos (nodes t) b.1 j -> span_order t a b = Nat.compare i j.
Proof.
  intros (tm & H & E) (tm' & H' & E'). unfold span_order. rewrite H, H'. simpl. rewrite E, E'.
  unfold span_cmp. simpl. destruct (Nat.eqb_spec i j) as [->|Hne]; simpl.
  - rewrite Nat.compare_refl. rewrite Nat.eqb_refl. by rewrite !Nat.compare_refl.
  - done.
Qed.

Lemma NoDup_map_filter {A B} (g : A -> B) (P : A -> Prop) `{!forall x, Decision (P x)} (l : list A) :
  NoDup (map g l) -> NoDup (map g (filter P l)).
Proof.
  induction l as [|x l IH]; [done|]. cbn [map]. intros [Hx Hl]%NoDup_cons. rewrite filter_cons.
  destruct (decide (P x)); [|by apply IH]. cbn [map]. apply NoDup_cons. split; [|by apply IH].
  intros (y & E & Hy)%elem_of_list_fmap. apply Hx. apply elem_of_list_filter in Hy as [_ Hy].
  rewrite E. by apply elem_of_list_fmap_1.
Qed.

(** The sorted terminal children of [p]. *)
Lemma sorted_term_children t p :
  WF t ->
  let chs := sort_by (span_order t) (filter (fun ce => node_is_term t ce.1 = true) (children t p)) in
  (forall c e, (c, e) ∈ chs <-> parent t c = Some (p, e) /\ exists i, term_pos (nodes t) c i) /\
  StronglySorted (fun a b => forall i j, term_pos (nodes t) a.1 i -> term_pos (nodes t) b.1 j -> i < j) chs.
Proof.
  intros [G Sh Tm Nt Nd] chs.
  assert (Hin : forall c e, (c, e) ∈ chs <-> parent t c = Some (p, e) /\ exists i, term_pos (nodes t) c i).
  { intros c e. unfold chs. rewrite elem_of_sort_by, elem_of_list_filter, elem_of_children, parent_Some by done.
    simpl. unfold node_is_term. split.
    - intros [Ht Hr]. split; [done|]. destruct (nodes t !! c) as [[|tm]|] eqn:E; try done.
      destruct (to_pos _ _ Tm c tm E) as (i & Hi & _). exists i. by exists tm.
    - intros [Hr (i & tm & E & _)]. rewrite E. done. }
  split; [done|].
  assert (Hpos : forall a, a ∈ chs -> exists i, term_pos (nodes t) a.1 i).
  { intros [c e] Ha. by apply Hin in Ha as [_ ?]. }
  assert (Hle : StronglySorted (fun a b => span_order t a b <> Gt) chs).
  { apply (sort_by_sorted (span_order t) (fun a => exists i, term_pos (nodes t) a.1 i)).
    - intros a b [i Ha] [j Hb]. rewrite (span_order_term t a b i j), (span_order_term t b a j i) by done.
      rewrite Nat.compare_gt_iff. intros H1 H2%Nat.compare_gt_iff. lia.
    - intros a b c [i Ha] [j Hb] [k Hc].
      rewrite (span_order_term t a b i j), (span_order_term t b c j k), (span_order_term t a c i k) by done.
      rewrite !Nat.compare_gt_iff. lia.
    - apply Forall_forall. intros a Ha. apply Hpos. unfold chs. by apply elem_of_sort_by. }
  assert (Hnd : NoDup (map fst chs)).
  { unfold chs. rewrite (sort_by_perm (span_order t)). apply NoDup_map_filter, (children_nodup t p G Sh). }
  clear Hin. induction chs as [|a chs IH]; [constructor|].
  apply StronglySorted_inv in Hle as [Hle Hall]. cbn [map] in Hnd. apply NoDup_cons in Hnd as [Ha Hnd].
  constructor; [apply IH; try done; intros; apply Hpos; set_solver|].
  rewrite Forall_forall in Hall. apply Forall_forall. intros b Hb i j Hi Hj.
  specialize (Hall b Hb). rewrite (span_order_term t a b i j) in Hall by done. rewrite Nat.compare_gt_iff in Hall.
  destruct (decide (i = j)) as [->|]; [|lia]. exfalso. apply Ha.
  rewrite (to_inj _ _ Tm a.1 b.1 j Hi Hj). by apply elem_of_list_fmap_1.
Qed.

Lemma RunInv_init t p label : WF t -> RunInv t p label [] t.
Proof. intros W. constructor; try done; try set_solver. Qed.

Lemma IInv_term t0 f P t n tm : IInv t0 f P t -> nodes t !! n = Some (T tm) <-> nodes t0 !! n = Some (T tm).
Proof.
  intros I. split; [|by apply (ii_old _ _ _ _ I)]. intros H. destruct (nodes t0 !! n) as [w|] eqn:E.
  - apply (ii_old _ _ _ _ I) in E as E'. congruence.
  - destruct (ii_new _ _ _ _ I n _ E H) as (? & ? & ? & _ & _ & [=] & _).
Qed.
Lemma IInv_term_pos t0 f P t n i : IInv t0 f P t -> term_pos (nodes t) n i <-> term_pos (nodes t0) n i.
Proof.
  intros I. split; intros (tm & H & E); exists tm; (split; [|done]); by apply (IInv_term _ _ _ _ _ _ I).
Qed.

Lemma IInv_step t0 f P t vis y j p :
  WF t0 -> (forall t1 t2 n, nodes t1 !! n = nodes t2 !! n -> f t1 n = f t2 n) ->
  IInv t0 f P t -> term_pos (nodes t0) y j -> PE (edges t0) p y -> y ∉ vis -> p ∉ P ->
  (f t0 p <> None -> forall c i, PE (edges t0) p c -> term_pos (nodes t0) c i -> j <= i) ->
  exists t' vis' P', insert_intermediate_step f (t, vis) y = Ret ((t', vis'), Ok ()) /\
    IInv t0 f P' t' /\
    match f t0 p with
    | None => P' = P /\ forall x, x ∈ vis' <-> x = y \/ x ∈ vis
    | Some _ => P' = p :: P /\
        forall x, x ∈ vis' <-> x = y \/ x ∈ vis \/ (PE (edges t0) p x /\ exists i, term_pos (nodes t0) x i)
    end.
Proof.
  intros W0 Hf I Hyj Hpy Hvis HpP Hfirst. pose proof W0 as [G0 Sh0 Tm0 Nt0 Nd0].
  pose proof (ii_wf _ _ _ _ I) as W. pose proof W as [G Sh Tm Nt Nd].
  pose proof Hyj as (tm & Hy0 & Hspy).
  destruct (PE_src_nt Sh0 p y Hpy) as [ntp Hp0].
  assert (Hp : nodes t !! p = Some (NT ntp)) by (by apply (ii_old _ _ _ _ I)).
  assert (Hpchild : forall c tc, nodes t0 !! c = Some (T tc) -> PE (edges t) p c <-> PE (edges t0) p c).
  { intros c tc Hc. split.
    - intros Hpc. destruct (live_parent Sh0 c) as [q Hq]; [eauto| |].
      { intros ->. rewrite <- (ii_root _ _ _ _ I) in Hpc. by apply (sh_root_top _ _ _ Sh p). }
      destruct (decide (q ∈ P)) as [HqP|HqP].
      + destruct (ii_done _ _ _ _ I q c tc HqP Hq Hc) as (m & Hm & Hmc & _).
        rewrite (PE_parent_unique Sh p m c Hpc Hmc) in Hp0. congruence.
      + apply (ii_rest _ _ _ _ I p c); [eauto| |done]. intros [_ (q' & Hq' & Hq'c)].
        rewrite (PE_parent_unique Sh0 q' q c Hq'c Hq) in Hq'. done.
    - intros Hpc. apply (ii_rest _ _ _ _ I p c); [eauto| |done]. intros [_ (q' & Hq' & Hq'c)].
      rewrite (PE_parent_unique Sh0 q' p c Hq'c Hpc) in Hq'. done. }
  unfold insert_intermediate_step. rewrite bool_decide_false by done.
  destruct (proj1 (parent_PE t y p Sh) (proj2 (Hpchild y tm Hy0) Hpy)) as [e He]. rewrite He.
  assert (Efp : f t p = f t0 p) by (apply Hf; congruence). rewrite Efp.
  destruct (f t0 p) as [label|] eqn:Ef.
  2:{ exists t, ({[y]} ∪ vis), P. split_and!; try done. set_solver. }
  destruct (sorted_term_children t p W) as [Hin Hsort].
  set (chs := sort_by (span_order t) (filter (fun ce => node_is_term t ce.1 = true) (children t p))) in *.
  assert (Hyin : (y, e) ∈ chs) by (apply Hin; split; [done|]; exists j; by apply (IInv_term_pos _ _ _ _ _ _ I)).
  clearbody chs. destruct chs as [|[c e'] rest]; [set_solver|].
  apply StronglySorted_inv in Hsort as [Hsort Hall]. rewrite Forall_forall in Hall.
  assert (Hce : (c, e') = (y, e)).
  { apply elem_of_cons in Hyin as [<-|Hyr]; [done|]. exfalso.
    destruct (proj1 (Hin c e') ltac:(set_solver)) as (Hpar & i & Hi).
    assert (Hcp : PE (edges t) p c) by (apply parent_PE; eauto).
    pose proof (Hall (y, e) Hyr i j Hi (proj2 (IInv_term_pos _ _ _ _ _ _ I) Hyj)) as Hlt.
    apply (IInv_term_pos _ _ _ _ _ _ I) in Hi. pose proof Hi as (tc & Hc0 & _).
    assert (j <= i); [|lia]. apply (Hfirst ltac:(done) c); [by apply (Hpchild c tc)|done]. }
  injection Hce as -> ->.
  assert (Hy : nodes t !! y = Some (T tm)) by (by apply (ii_old _ _ _ _ I)).
  assert (Hyjt : term_pos (nodes t) y j) by (by apply (IInv_term_pos _ _ _ _ _ _ I)).
  destruct (above_step t p y tm e label W He Hy)
    as (t2 & m & -> & W2 & Rt & Kt & Hm & HN & HP & Hpp).
  cbn [mbind outcome_bind].
  assert (R2 : RunInv t p label [y] t2).
  { apply (RunInv_add t p label [] t t2 y j m); try done.
    - by apply RunInv_init.
    - set_solver.
    - set_solver.
    - intros n w Hn. rewrite HN, lookup_insert_ne by (intros ->; congruence). done.
    - intros n w Hn Hw. rewrite HN in Hw. apply lookup_insert_Some in Hw as [[<- <-]|[Hne Hw]]; [|congruence].
      split; [by eexists|]. apply HP. right. by left.
    - intros a b Hb. rewrite HP. split; [|tauto]. intros [?|[[_ ->]|?]]; [tauto| |tauto].
      destruct Hb as [? Hb]. congruence.
    - set_solver. }
  assert (Hy2 : nodes t2 !! y = Some (T tm)) by (by apply (ru_old _ _ _ _ _ R2)).
  rewrite (node_at_Some _ _ _ Hy2). cbn [unwrap mbind outcome_bind node_span]. rewrite Hspy.
  destruct (insert_runs_ok t p ntp label rest [y] t2 ({[y]} ∪ vis) m j)
    as (t' & vis' & D & HR & R & Hv & HD); try done.
  { exists y. split_and!; [set_solver|done|]. apply HP. tauto. }
  { intros x ->%elem_of_list_singleton. exists j. split; [done|lia]. }
  { intros c e' Hc. destruct (proj1 (Hin c e') ltac:(set_solver)) as (Hpar & i & Hi).
    pose proof (Hall (c, e') Hc j i Hyjt Hi) as Hlt. split; [|by exists i].
    apply Hpp; [|done]. intros ->. pose proof (term_pos_fun _ _ _ _ Hi Hyjt). lia. }
  change (sp_start (span_of j)) with j. rewrite HR.
  assert (HDin : forall x, x ∈ D <-> PE (edges t0) p x /\ exists i, term_pos (nodes t0) x i).
  { intros x. rewrite HD. split.
    - intros Hx. assert (exists e', (x, e') ∈ (y, e) :: rest) as [e' Hx'].
      { destruct Hx as [->%elem_of_list_singleton|([x' e'] & -> & Hx)%elem_of_list_fmap]; [exists e|exists e']; set_solver. }
      apply Hin in Hx' as (Hpar & i & Hi). apply (IInv_term_pos _ _ _ _ _ _ I) in Hi. pose proof Hi as (tx & Hx0 & _).
      split; [|eauto]. apply (Hpchild x tx Hx0). apply parent_PE; eauto.
    - intros (Hpx & i & Hi). pose proof Hi as (tx & Hx0 & _).
      destruct (proj1 (parent_PE t x p Sh) (proj2 (Hpchild x tx Hx0) Hpx)) as [e' He'].
      assert ((x, e') ∈ (y, e) :: rest) as Hx.
      { apply Hin. split; [done|]. exists i. by apply (IInv_term_pos _ _ _ _ _ _ I). }
      apply elem_of_cons in Hx as [[= -> ->]|Hx]; [set_solver|]. right. by apply (elem_of_list_fmap_1 fst _ _ Hx). }
  assert (HDT : forall x, x ∈ D -> exists tx, nodes t0 !! x = Some (T tx)).
  { intros x (_ & i & tx & Hx & _)%HDin. eauto. }
  exists t', vis', (p :: P). split_and!; try done.
  2:{ intros x. rewrite Hv. rewrite <- HDin, HD. set_solver. }
  assert (HDlive : forall b, b ∈ D -> is_Some (nodes t !! b)).
  { intros b [tx Hb]%HDT. exists (T tx). by apply (ii_old _ _ _ _ I). }
  assert (HDP : forall q b, q ∈ P -> PE (edges t0) q b -> b ∉ D).
  { intros q b Hq Hqb [Hpb _]%HDin. apply HpP. by rewrite (PE_parent_unique Sh0 p q b Hpb Hqb). }
  constructor.
  - apply R.
  - rewrite (ru_root _ _ _ _ _ R). apply I.
  - rewrite (ru_nterm _ _ _ _ _ R). apply I.
  - intros n w Hn. by apply (ru_old _ _ _ _ _ R), (ii_old _ _ _ _ I).
  - intros n w Hn Hw. destruct (nodes t !! n) as [w'|] eqn:E.
    + pose proof (ru_old _ _ _ _ _ R n w' E) as E'. rewrite Hw in E'. injection E' as <-.
      destruct (ii_new _ _ _ _ I n w Hn E) as (q & l & sp & Hq & Hl & -> & HPq).
      exists q, l, sp. split_and!; try done; [set_solver|]. apply (ru_rest _ _ _ _ _ R); [eauto| |done].
      intros [tx Hx]%HDT. congruence.
    + destruct (ru_new _ _ _ _ _ R n w E Hw) as [[sp ->] HPn]. exists p, label, sp. split_and!; try done. set_solver.
  - intros a b Hb Hnot. rewrite (ru_rest _ _ _ _ _ R).
    + apply (ii_rest _ _ _ _ I); [done|]. intros [Ht (q & Hq & Hqb)]. apply Hnot. split; [done|]. exists q. set_solver.
    + destruct Hb as [w Hb]. exists w. by apply (ii_old _ _ _ _ I).
    + intros HbD. pose proof (HDT b HbD) as Ht. apply HDin in HbD as [Hpb _]. apply Hnot. split; [done|]. exists p. set_solver.
  - intros q b tb Hq Hqb Hb. apply elem_of_cons in Hq as [->|Hq].
    + assert (HbD : b ∈ D).
      { apply HDin. split; [done|]. destruct (to_pos _ _ Tm0 b tb Hb) as (i & Hi & _). exists i. by exists tb. }
      destruct (ru_done _ _ _ _ _ R b HbD) as (m' & Hm' & HPm'). exists m'.
      assert (Hm0 : nodes t0 !! m' = None).
      { destruct (nodes t0 !! m') as [w|] eqn:E; [|done]. apply (ii_old _ _ _ _ I) in E. congruence. }
      split_and!; try done. pose proof (ru_wf _ _ _ _ _ R) as [_ Sh' _ _ _].
      destruct (sh_live _ _ _ Sh' m' b HPm') as [[w Hw] _].
      by apply (ru_new _ _ _ _ _ R m' w).
    + destruct (ii_done _ _ _ _ I q b tb Hq Hqb Hb) as (m' & Hm' & H1 & H2). exists m'. split_and!; [done| |].
      * apply (ru_rest _ _ _ _ _ R); [exists (T tb); by apply (ii_old _ _ _ _ I)|by eapply HDP|done].
      * apply (ru_rest _ _ _ _ _ R); [by apply (sh_live _ _ _ Sh q m')| |done].
        intros [tx Hx]%HDT. congruence.
  - intros q x z i k Hq Hqx Hqz Hx Hz Hik. apply elem_of_cons in Hq as [->|Hq].
    + rewrite (ru_group _ _ _ _ _ R x z i k).
      * split; intros H l Hl; destruct (H l Hl) as (u & Hu1 & Hu2); exists u.
        -- apply HDin in Hu1 as [? _]. split; [done|]. by apply (IInv_term_pos _ _ _ _ _ _ I).
        -- split; [apply HDin; eauto|by apply (IInv_term_pos _ _ _ _ _ _ I)].
      * apply HDin; eauto.
      * apply HDin; eauto.
      * by apply (IInv_term_pos _ _ _ _ _ _ I).
      * by apply (IInv_term_pos _ _ _ _ _ _ I).
      * done.
    + rewrite <- (ii_group _ _ _ _ I q x z i k Hq Hqx Hqz Hx Hz Hik).
      assert (HPl : forall b i a, term_pos (nodes t0) b i -> PE (edges t0) q b -> PE (edges t') a b <-> PE (edges t) a b).
      { intros b i' a (tb & Hb & _) Hqb. apply (ru_rest _ _ _ _ _ R); [|by eapply HDP].
        exists (T tb). by apply (ii_old _ _ _ _ I). }
      split; intros (m' & H1 & H2); exists m'; split; eapply HPl; eauto.
Qed.

Lemma IInv_loop t0 f l : forall P t vis,
  WF t0 -> (forall t1 t2 n, nodes t1 !! n = nodes t2 !! n -> f t1 n = f t2 n) ->
  (forall p x y i j, PE (edges t0) p x -> PE (edges t0) p y -> term_pos (nodes t0) x i ->
     term_pos (nodes t0) y j -> x < y -> i < j) ->
  (exists nt, nodes t0 !! tr_root t0 = Some (NT nt)) ->
  IInv t0 f P t -> StronglySorted lt l ->
  (forall x, x ∈ l -> exists tm, nodes t0 !! x = Some (T tm)) ->
  (forall x p, x ∈ l -> PE (edges t0) p x -> x ∈ vis <-> p ∈ P) ->
  (forall x tm p, nodes t0 !! x = Some (T tm) -> x ∉ l -> PE (edges t0) p x -> f t0 p <> None -> p ∈ P) ->
  exists t' vis' P', foldR (insert_intermediate_step f) l (t, vis) = Ret ((t', vis'), Ok ()) /\
    IInv t0 f P' t' /\
    forall p, p ∈ P' <-> p ∈ P \/ (f t0 p <> None /\ exists x, x ∈ l /\ PE (edges t0) p x).
Proof.
  induction l as [|y l IH]; intros P t vis W0 Hf Hord Hroot I Hs HT HB HC.
  { exists t, vis, P. split_and!; try done. set_solver. }
  pose proof W0 as [G0 Sh0 Tm0 Nt0 Nd0].
  apply StronglySorted_inv in Hs as [Hs Hall]. rewrite Forall_forall in Hall.
  destruct (HT y ltac:(set_solver)) as [tm Hy].
  destruct (to_pos _ _ Tm0 y tm Hy) as (j & Hj & _).
  assert (Hyj : term_pos (nodes t0) y j) by (by exists tm).
  destruct (live_parent Sh0 y) as [p Hp]; [eauto| |].
  { intros ->. destruct Hroot as [nt Hr]. congruence. }
  assert (Hyl : y ∉ l) by (intros H; specialize (Hall y H); lia).
  cbn [foldR]. destruct (decide (y ∈ vis)) as [Hvis|Hvis].
  - assert (Hstep : insert_intermediate_step f (t, vis) y = Ret ((t, vis), Ok ())).
    { unfold insert_intermediate_step. by rewrite bool_decide_true. }
    rewrite Hstep. cbn [mbind outcome_bind].
    assert (HpP : p ∈ P) by (apply (HB y p); [set_solver|done|done]).
    destruct (IH P t vis) as (t' & vis' & P' & HR & I' & HP'); try done.
    + set_solver.
    + intros x q Hx. apply HB. set_solver.
    + intros x tx q Hx Hxl Hq Hfq. destruct (decide (x = y)) as [->|Hxy].
      * by rewrite (PE_parent_unique Sh0 q p y Hq Hp).
      * apply (HC x tx q); try done. set_solver.
    + exists t', vis', P'. split_and!; try done. intros q. rewrite HP'. split.
      * intros [?|(H1 & x & Hx & H2)]; [by left|]. right. split; [done|]. exists x. set_solver.
      * intros [?|(H1 & x & [->|Hx]%elem_of_cons & H2)]; [by left| |].
        -- left. by rewrite (PE_parent_unique Sh0 q p y H2 Hp).
        -- right. split; [done|]. by exists x.
  - assert (HpP : p ∉ P) by (intros H; apply Hvis, (HB y p); [set_solver|done|done]).
    destruct (IInv_step t0 f P t vis y j p W0 Hf I Hyj Hp Hvis HpP) as (t1 & vis1 & P1 & -> & I1 & HPv).
    { intros Hfp c i Hc Hi. destruct (decide (c ∈ y :: l)) as [Hin|Hin].
      - apply elem_of_cons in Hin as [->|Hin]; [by rewrite (term_pos_fun _ _ _ _ Hi Hyj)|].
        specialize (Hall c Hin). pose proof (Hord p y c j i Hp Hc Hyj Hi Hall). lia.
      - exfalso. pose proof Hi as (tc & Hc' & _). by apply HpP, (HC c tc p). }
    cbn [mbind outcome_bind].
    destruct (IH P1 t1 vis1) as (t' & vis' & P' & HR & I' & HP'); try done.
    + set_solver.
    + intros x q Hx Hq. assert (Hxy : x <> y) by (intros ->; done).
      pose proof (HB x q ltac:(set_solver) Hq) as HBx.
      destruct (f t0 p) as [lb|] eqn:Ef; destruct HPv as [-> Hv]; rewrite Hv.
      * rewrite elem_of_cons, HBx. split.
        -- intros [?|[?|[Hpx _]]]; [done|by right|]. left. by apply (PE_parent_unique Sh0 q p x).
        -- intros [->|?]; [|tauto]. right. right. split; [done|].
           destruct (HT x ltac:(set_solver)) as [tx Hxt]. destruct (to_pos _ _ Tm0 x tx Hxt) as (i & Hi & _).
           exists i. by exists tx.
      * rewrite HBx. tauto.
    + intros x tx q Hx Hxl Hq Hfq.
      destruct (decide (x = y)) as [->|Hxy].
      * rewrite (PE_parent_unique Sh0 q p y Hq Hp) in *.
        destruct (f t0 p) as [lb|] eqn:Ef; destruct HPv as [-> Hv]; [set_solver|done].
      * assert (q ∈ P) by (apply (HC x tx q); try done; set_solver).
        destruct (f t0 p) as [lb|] eqn:Ef; destruct HPv as [-> Hv]; set_solver.
    + exists t', vis', P'. split_and!; try done. intros q. rewrite HP'.
      assert (HP1 : q ∈ P1 <-> q ∈ P \/ (q = p /\ f t0 p <> None)).
      { destruct (f t0 p) as [lb|] eqn:Ef; destruct HPv as [-> Hv]; [|tauto].
        rewrite elem_of_cons. split; [intros [->|?]; [right; done|by left]|tauto]. }
      rewrite HP1. split.
      * intros [[?|[-> ?]]|(H1 & x & Hx & H2)]; [by left| |]; right; (split; [done|]); [exists y|exists x]; set_solver.
      * intros [?|(H1 & x & [->|Hx]%elem_of_cons & H2)]; [tauto| |].
        -- left. right. rewrite <- (PE_parent_unique Sh0 q p y H2 Hp). done.
        -- right. split; [done|]. by exists x.
Qed.
