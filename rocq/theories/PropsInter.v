(** C26: [insert_intermediate] when the inserted nodes are not matched themselves. *)
From Coq Require Import Lia.
From Verif Require Import ModModel TreeSpec BaseProofs ShapeProofs GraphProofs DfsProofs ResetProofs
  ShapeOps TreeOps SortProofs EditProofs UnaryProofs Api PropsTree ProjProofs AnnotProofs FilterProofs InterProofs PropsMod PropsMod3.

(** One step, for any unvisited terminal below a new parent. *)
Lemma IInv_step_any t0 f P t vis y j p :
  WF t0 -> (forall t1 t2 n, nodes t1 !! n = nodes t2 !! n -> f t1 n = f t2 n) ->
  IInv t0 f P t -> term_pos (nodes t0) y j -> PE (edges t0) p y -> y ∉ vis -> p ∉ P ->
  exists t' vis' P', insert_intermediate_step f (t, vis) y = Ret ((t', vis'), Ok ()) /\
    IInv t0 f P' t' /\
    match f t0 p with
    | None => P' = P /\ forall x, x ∈ vis' <-> x = y \/ x ∈ vis
    | Some _ => P' = p :: P /\
        forall x, x ∈ vis' -> x = y \/ x ∈ vis \/ (PE (edges t0) p x /\ exists i, term_pos (nodes t0) x i)
    end.
Proof.
  intros W0 Hf I Hyj Hpy Hvis HpP. pose proof W0 as [G0 Sh0 Tm0 Nt0 Nd0].
  pose proof (ii_wf _ _ _ _ I) as W. pose proof W as [G Sh Tm Nt Nd].
  pose proof Hyj as (tm & Hy0 & Hspy).
  destruct (PE_src_nt Sh0 p y Hpy) as [ntp Hp0].
  assert (Hp : nodes t !! p = Some (NT ntp)) by (by apply (ii_old _ _ _ _ I)).
  assert (Hpchild : forall c tc, nodes t0 !! c = Some (T tc) -> PE (edges t) p c <-> PE (edges t0) p c).
  { intros c tc Hc. split.
    - intros Hpc. destruct (live_parent Sh0 c) as [q Hq]; [eauto| |].
      { intros ->. rewrite <- (ii_root _ _ _ _ I) in Hpc. by apply (sh_root_top _ _ _ Sh p). }
      destruct (decide (q ∈ P)) as [HqP|HqP].
      + destruct (ii_done _ _ _ _ I q c tc HqP Hq Hc) as (m & Hm & Hmc & _).
        rewrite (PE_parent_unique Sh p m c Hpc Hmc) in Hp0. congruence.
      + apply (ii_rest _ _ _ _ I p c); [eauto| |done]. intros [_ (q' & Hq' & Hq'c)].
        rewrite (PE_parent_unique Sh0 q' q c Hq'c Hq) in Hq'. done.
    - intros Hpc. apply (ii_rest _ _ _ _ I p c); [eauto| |done]. intros [_ (q' & Hq' & Hq'c)].
      rewrite (PE_parent_unique Sh0 q' p c Hq'c Hpc) in Hq'. done. }
  unfold insert_intermediate_step. rewrite bool_decide_false by done.
  destruct (proj1 (parent_PE t y p Sh) (proj2 (Hpchild y tm Hy0) Hpy)) as [e He]. rewrite He.
  assert (Efp : f t p = f t0 p) by (apply Hf; congruence). rewrite Efp.
  destruct (f t0 p) as [label|] eqn:Ef.
  2:{ exists t, ({[y]} ∪ vis), P. split_and!; try done. set_solver. }
  destruct (sorted_term_children t p W) as [Hin Hsort].
  set (chs := sort_by (span_order t) (filter (fun ce => node_is_term t ce.1 = true) (children t p))) in *.
  assert (Hyin : (y, e) ∈ chs) by (apply Hin; split; [done|]; exists j; by apply (IInv_term_pos _ _ _ _ _ _ I)).
  clearbody chs. destruct chs as [|[y0 e0] rest]; [set_solver|].
  apply StronglySorted_inv in Hsort as [Hsort Hall]. rewrite Forall_forall in Hall.
  destruct (proj1 (Hin y0 e0) ltac:(set_solver)) as (He0 & j0 & Hyjt).
  pose proof Hyjt as (tm0 & Hy & Hspy0).
  clear Hyin.
  destruct (above_step t p y0 tm0 e0 label W He0 Hy)
    as (t2 & m & -> & W2 & Rt & Kt & Hm & HN & HP & Hpp).
  cbn [mbind outcome_bind].
  assert (R2 : RunInv t p label [y0] t2).
  { apply (RunInv_add t p label [] t t2 y0 j0 m); try done.
    - by apply RunInv_init.
    - set_solver.
    - set_solver.
    - intros n w Hn. rewrite HN, lookup_insert_ne by (intros ->; congruence). done.
    - intros n w Hn Hw. rewrite HN in Hw. apply lookup_insert_Some in Hw as [[<- <-]|[Hne Hw]]; [|congruence].
      split; [by eexists|]. apply HP. right. by left.
    - intros a b Hb. rewrite HP. split; [|tauto]. intros [?|[[_ ->]|?]]; [tauto| |tauto].
      destruct Hb as [? Hb]. congruence.
    - set_solver. }
  assert (Hy2 : nodes t2 !! y0 = Some (T tm0)) by (by apply (ru_old _ _ _ _ _ R2)).
  rewrite (node_at_Some _ _ _ Hy2). cbn [unwrap mbind outcome_bind node_span]. rewrite Hspy0.
  destruct (insert_runs_ok t p ntp label rest [y0] t2 ({[y]} ∪ vis) m j0)
    as (t' & vis' & D & HR & R & Hv & HD); try done.
  { exists y0. split_and!; [set_solver|done|]. apply HP. tauto. }
  { intros x ->%elem_of_list_singleton. exists j0. split; [done|lia]. }
  { intros c e0' Hc. destruct (proj1 (Hin c e0') ltac:(set_solver)) as (Hpar & i & Hi).
    pose proof (Hall (c, e0') Hc j0 i Hyjt Hi) as Hlt. split; [|by exists i].
    apply Hpp; [|done]. intros ->. pose proof (term_pos_fun _ _ _ _ Hi Hyjt). lia. }
  change (sp_start (span_of j0)) with j0. rewrite HR.
  assert (HDin : forall x, x ∈ D <-> PE (edges t0) p x /\ exists i, term_pos (nodes t0) x i).
  { intros x. rewrite HD. split.
    - intros Hx. assert (exists e0', (x, e0') ∈ (y0, e0) :: rest) as [e0' Hx'].
      { destruct Hx as [->%elem_of_list_singleton|([x' e0'] & -> & Hx)%elem_of_list_fmap]; [exists e0|exists e0']; set_solver. }
      apply Hin in Hx' as (Hpar & i & Hi). apply (IInv_term_pos _ _ _ _ _ _ I) in Hi. pose proof Hi as (tx & Hx0 & _).
      split; [|eauto]. apply (Hpchild x tx Hx0). apply parent_PE; eauto.
    - intros (Hpx & i & Hi). pose proof Hi as (tx & Hx0 & _).
      destruct (proj1 (parent_PE t x p Sh) (proj2 (Hpchild x tx Hx0) Hpx)) as [e0' He'].
      assert ((x, e0') ∈ (y0, e0) :: rest) as Hx.
      { apply Hin. split; [done|]. exists i. by apply (IInv_term_pos _ _ _ _ _ _ I). }
      apply elem_of_cons in Hx as [[= -> ->]|Hx]; [set_solver|]. right. by apply (elem_of_list_fmap_1 fst _ _ Hx). }
  assert (HDT : forall x, x ∈ D -> exists tx, nodes t0 !! x = Some (T tx)).
  { intros x (_ & i & tx & Hx & _)%HDin. eauto. }
  exists t', vis', (p :: P). split_and!; try done.
  2:{ intros x. rewrite Hv. rewrite <- HDin, HD. set_solver. }
  assert (HDlive : forall b, b ∈ D -> is_Some (nodes t !! b)).
  { intros b [tx Hb]%HDT. exists (T tx). by apply (ii_old _ _ _ _ I). }
  assert (HDP : forall q b, q ∈ P -> PE (edges t0) q b -> b ∉ D).
  { intros q b Hq Hqb [Hpb _]%HDin. apply HpP. by rewrite (PE_parent_unique Sh0 p q b Hpb Hqb). }
  constructor.
  - apply R.
  - rewrite (ru_root _ _ _ _ _ R). apply I.
  - rewrite (ru_nterm _ _ _ _ _ R). apply I.
  - intros n w Hn. by apply (ru_old _ _ _ _ _ R), (ii_old _ _ _ _ I).
  - intros n w Hn Hw. destruct (nodes t !! n) as [w'|] eqn:E.
    + pose proof (ru_old _ _ _ _ _ R n w' E) as E'. rewrite Hw in E'. injection E' as <-.
      destruct (ii_new _ _ _ _ I n w Hn E) as (q & l & sp & Hq & Hl & -> & HPq).
      exists q, l, sp. split_and!; try done; [set_solver|]. apply (ru_rest _ _ _ _ _ R); [eauto| |done].
      intros [tx Hx]%HDT. congruence.
    + destruct (ru_new _ _ _ _ _ R n w E Hw) as [[sp ->] HPn]. exists p, label, sp. split_and!; try done. set_solver.
  - intros a b Hb Hnot. rewrite (ru_rest _ _ _ _ _ R).
    + apply (ii_rest _ _ _ _ I); [done|]. intros [Ht (q & Hq & Hqb)]. apply Hnot. split; [done|]. exists q. set_solver.
    + destruct Hb as [w Hb]. exists w. by apply (ii_old _ _ _ _ I).
    + intros HbD. pose proof (HDT b HbD) as Ht. apply HDin in HbD as [Hpb _]. apply Hnot. split; [done|]. exists p. set_solver.
  - intros q b tb Hq Hqb Hb. apply elem_of_cons in Hq as [->|Hq].
    + assert (HbD : b ∈ D).
      { apply HDin. split; [done|]. destruct (to_pos _ _ Tm0 b tb Hb) as (i & Hi & _). exists i. by exists tb. }
      destruct (ru_done _ _ _ _ _ R b HbD) as (m' & Hm' & HPm'). exists m'.
      assert (Hm0 : nodes t0 !! m' = None).
      { destruct (nodes t0 !! m') as [w|] eqn:E; [|done]. apply (ii_old _ _ _ _ I) in E. congruence. }
      split_and!; try done. pose proof (ru_wf _ _ _ _ _ R) as [_ Sh' _ _ _].
      destruct (sh_live _ _ _ Sh' m' b HPm') as [[w Hw] _].
      by apply (ru_new _ _ _ _ _ R m' w).
    + destruct (ii_done _ _ _ _ I q b tb Hq Hqb Hb) as (m' & Hm' & H1 & H2). exists m'. split_and!; [done| |].
      * apply (ru_rest _ _ _ _ _ R); [exists (T tb); by apply (ii_old _ _ _ _ I)|by eapply HDP|done].
      * apply (ru_rest _ _ _ _ _ R); [by apply (sh_live _ _ _ Sh q m')| |done].
        intros [tx Hx]%HDT. congruence.
  - intros q x z i k Hq Hqx Hqz Hx Hz Hik. apply elem_of_cons in Hq as [->|Hq].
    + rewrite (ru_group _ _ _ _ _ R x z i k).
      * split; intros H l Hl; destruct (H l Hl) as (u & Hu1 & Hu2); exists u.
        -- apply HDin in Hu1 as [? _]. split; [done|]. by apply (IInv_term_pos _ _ _ _ _ _ I).
        -- split; [apply HDin; eauto|by apply (IInv_term_pos _ _ _ _ _ _ I)].
      * apply HDin; eauto.
      * apply HDin; eauto.
      * by apply (IInv_term_pos _ _ _ _ _ _ I).
      * by apply (IInv_term_pos _ _ _ _ _ _ I).
      * done.
    + rewrite <- (ii_group _ _ _ _ I q x z i k Hq Hqx Hqz Hx Hz Hik).
      assert (HPl : forall b i a, term_pos (nodes t0) b i -> PE (edges t0) q b -> PE (edges t') a b <-> PE (edges t) a b).
      { intros b i' a (tb & Hb & _) Hqb. apply (ru_rest _ _ _ _ _ R); [|by eapply HDP].
        exists (T tb). by apply (ii_old _ _ _ _ I). }
      split; intros (m' & H1 & H2); exists m'; split; eapply HPl; eauto.
Qed.


(** The loop when [f] does not match the nodes it inserts. *)
Lemma IInv_loop_fresh t0 f l : forall P t vis,
  WF t0 -> (forall t1 t2 n, nodes t1 !! n = nodes t2 !! n -> f t1 n = f t2 n) ->
  (forall t1 n p l sp, f t0 p = Some l -> nodes t1 !! n = Some (NT (mk_nt l None sp)) -> f t1 n = None) ->
  (exists nt, nodes t0 !! tr_root t0 = Some (NT nt)) ->
  IInv t0 f P t -> NoDup l ->
  (forall x, x ∈ l -> exists tm, nodes t0 !! x = Some (T tm)) ->
  (forall x p, x ∈ l -> PE (edges t0) p x -> x ∈ vis -> p ∈ P) ->
  exists t' vis' P', foldR (insert_intermediate_step f) l (t, vis) = Ret ((t', vis'), Ok ()) /\
    IInv t0 f P' t' /\
    forall p, p ∈ P' <-> p ∈ P \/ (f t0 p <> None /\ exists x, x ∈ l /\ PE (edges t0) p x).
Proof.
  induction l as [|y l IH]; intros P t vis W0 Hf Hnew Hroot I Hs HT HB.
  { exists t, vis, P. split_and!; try done. set_solver. }
  pose proof W0 as [G0 Sh0 Tm0 Nt0 Nd0]. apply NoDup_cons in Hs as [Hyl Hs].
  destruct (HT y ltac:(set_solver)) as [tm Hy].
  destruct (to_pos _ _ Tm0 y tm Hy) as (j & Hj & _).
  assert (Hyj : term_pos (nodes t0) y j) by (by exists tm).
  destruct (live_parent Sh0 y) as [p Hp]; [eauto| |].
  { intros ->. destruct Hroot as [nt Hr]. congruence. }
  cbn [foldR]. destruct (decide (p ∈ P)) as [HpP|HpP].
  - assert (exists v, insert_intermediate_step f (t, vis) y = Ret ((t, v), Ok ()) /\ forall x, x ∈ v -> x = y \/ x ∈ vis) as (v & -> & Hv).
    { unfold insert_intermediate_step. destruct (decide (y ∈ vis)) as [Hvis|Hvis].
      - rewrite bool_decide_true by done. exists vis. split; [done|tauto].
      - rewrite bool_decide_false by done. exists ({[y]} ∪ vis). split; [|set_solver].
        destruct (ii_done _ _ _ _ I p y tm HpP Hp Hy) as (m & Hm & Hmy & _).
        pose proof (wf_shape _ (ii_wf _ _ _ _ I)) as Sh.
        destruct (proj1 (parent_PE t y m Sh) Hmy) as [e ->].
        destruct (sh_live _ _ _ Sh m y Hmy) as [[w Hw] _].
        destruct (ii_new _ _ _ _ I m w Hm Hw) as (q & lq & sp & _ & Hq & -> & _).
        by rewrite (Hnew t m q lq sp Hq Hw). }
    cbn [mbind outcome_bind].
    destruct (IH P t v) as (t' & vis' & P' & HR & I' & HP'); try done.
    + set_solver.
    + intros x q Hx Hq [->|Hxv]%Hv; [done|]. apply (HB x q); [set_solver|done|done].
    + exists t', vis', P'. split_and!; try done. intros q. rewrite HP'. split.
      * intros [?|(H1 & x & Hx & H2)]; [by left|]. right. split; [done|]. exists x. set_solver.
      * intros [?|(H1 & x & [->|Hx]%elem_of_cons & H2)]; [by left| |].
        -- left. by rewrite (PE_parent_unique Sh0 q p y H2 Hp).
        -- right. split; [done|]. by exists x.
  - assert (Hvis : y ∉ vis) by (intros H; apply HpP, (HB y p); [set_solver|done|done]).
    destruct (IInv_step_any t0 f P t vis y j p W0 Hf I Hyj Hp Hvis HpP) as (t1 & vis1 & P1 & -> & I1 & HPv).
    cbn [mbind outcome_bind].
    destruct (IH P1 t1 vis1) as (t' & vis' & P' & HR & I' & HP'); try done.
    + set_solver.
    + intros x q Hx Hq Hxv. assert (Hxy : x <> y) by (intros ->; done).
      pose proof (HB x q ltac:(set_solver) Hq) as HBx.
      destruct (f t0 p) as [lb|] eqn:Ef; destruct HPv as [-> Hv]; apply Hv in Hxv.
      * destruct Hxv as [?|[?|[Hpx _]]]; [done|set_solver|]. rewrite (PE_parent_unique Sh0 q p x Hq Hpx). set_solver.
      * destruct Hxv as [?|?]; [done|]. by apply HBx.
    + exists t', vis', P'. split_and!; try done. intros q. rewrite HP'.
      assert (HP1 : q ∈ P1 <-> q ∈ P \/ (q = p /\ f t0 p <> None)).
      { destruct (f t0 p) as [lb|] eqn:Ef; destruct HPv as [-> Hv]; [|tauto].
        rewrite elem_of_cons. split; [intros [->|?]; [right; done|by left]|tauto]. }
      rewrite HP1. split.
      * intros [[?|[-> ?]]|(H1 & x & Hx & H2)]; [by left| |]; right; (split; [done|]); [exists y|exists x]; set_solver.
      * intros [?|(H1 & x & [->|Hx]%elem_of_cons & H2)]; [tauto| |].
        -- left. right. rewrite <- (PE_parent_unique Sh0 q p y H2 Hp). done.
        -- right. split; [done|]. by exists x.
Qed.

(** Siblings may be numbered in any order if the requested label never makes [f] match the new node.
    Missing for the full statement: functions that match their own nodes ([C26_one_node_refuted]). *)
Theorem C26_fresh_partial t f :
  WF t -> (forall t1 t2 n, nodes t1 !! n = nodes t2 !! n -> f t1 n = f t2 n) ->
  (forall t1 n p l sp, f t p = Some l -> nodes t1 !! n = Some (NT (mk_nt l None sp)) -> f t1 n = None) ->
  ((exists x tm, nodes t !! x = Some (T tm) /\ forall p, ~ PE (edges t) p x) ->
     insert_intermediate t f = Ret (t, Err)) /\
  ((forall x tm, nodes t !! x = Some (T tm) -> exists p, PE (edges t) p x) ->
     exists t', insert_intermediate t f = Ret (t', Ok ()) /\ grouped t t' f).
Proof.
  intros W Hf Hnew. pose proof W as [G Sh Tm Nt Nd]. unfold insert_intermediate. split.
  - intros (x & tm & Hx & Hnp). assert (x = tr_root t) as ->.
    { destruct (decide (x = tr_root t)) as [|Hxr]; [done|].
      destruct (live_parent Sh x ltac:(eauto) Hxr) as [p Hp]. by apply Hnp in Hp. }
    assert (Hall : forall n, is_Some (nodes t !! n) -> n = tr_root t).
    { intros n Hn. by apply (term_Dom Sh (tr_root t) tm), (sh_reach _ _ _ Sh). }
    destruct (terminals_index_order t G) as [Hin Hs].
    assert (E : terminals t = [tr_root t]).
    { assert (Hrt : tr_root t ∈ terminals t) by (apply Hin; eauto).
      pose proof (terminals_nodup t) as Hnd.
      assert (Hsub : forall y, y ∈ terminals t -> y = tr_root t) by (intros y [ty Hy]%Hin; apply Hall; eauto).
      destruct (terminals t) as [|a [|b l]]; [set_solver|by rewrite (Hsub a) by set_solver|].
      rewrite (Hsub a), (Hsub b) in Hnd by set_solver. apply NoDup_cons in Hnd as [H _]. set_solver. }
    rewrite E. cbn [foldR]. unfold insert_intermediate_step. rewrite bool_decide_false by set_solver.
    rewrite (proj2 (parent_None t (tr_root t) Sh)); [done|]. intros p. apply (sh_root_top _ _ _ Sh).
  - intros Hall. destruct (terminals_index_order t G) as [Hin Hs].
    destruct (IInv_loop_fresh t f (terminals t) [] t ∅) as (t' & vis' & P & -> & I & HP); try done.
    + destruct (sh_root _ _ _ Sh) as [[nt|tm] Hr]; [eauto|]. destruct (Hall _ _ Hr) as [p Hp].
      by apply (sh_root_top _ _ _ Sh) in Hp.
    + by apply IInv_init.
    + apply terminals_nodup.
    + intros x Hx. by apply Hin.
    + clear Hnew. cbn [mbind outcome_bind]. exists t'. split; [done|].
      assert (HP' : forall p b tm, PE (edges t) p b -> nodes t !! b = Some (T tm) -> f t p <> None -> p ∈ P).
      { intros p b tm Hb Ht Hfp. apply HP. right. split; [done|]. exists b. split; [apply Hin; eauto|done]. }
      pose proof (ii_wf _ _ _ _ I) as W'. pose proof W' as [G' Sh' Tm' Nt' Nd'].
      split_and!; try apply I.
      * intros m w Hm Hw. destruct (ii_new _ _ _ _ I m w Hm Hw) as (p & l & sp & Hp & Hl & -> & Hpm).
        exists p, l, sp. split_and!; try done. intros b Hmb.
        assert (Hbl : is_Some (nodes t !! b)).
        { destruct (nodes t !! b) as [wb|] eqn:E; [eauto|]. exfalso.
          destruct (sh_live _ _ _ Sh' m b Hmb) as [_ [wb Hwb]].
          destruct (ii_new _ _ _ _ I b wb E Hwb) as (q & lq & sq & Hq & _ & _ & Hqb).
          rewrite (PE_parent_unique Sh' m q b Hmb Hqb) in Hm.
          apply HP in Hq as [Hq|(_ & x & _ & Hqx)]; [set_solver|].
          destruct (sh_live _ _ _ Sh q x Hqx) as [[? ?] _]. congruence. }
        assert (Hm' : ~ PE (edges t) m b).
        { intros H. destruct (sh_live _ _ _ Sh m b H) as [[? ?] _]. congruence. }
        destruct Hbl as [wb Hb].
        assert (Hbt : (exists tm, nodes t !! b = Some (T tm)) /\ exists q, q ∈ P /\ PE (edges t) q b).
        { destruct wb as [ntb|tb].
          - exfalso. apply Hm'. apply (ii_rest _ _ _ _ I); [eauto| |done]. intros [[? ?] _]. congruence.
          - split; [eauto|]. destruct (Hall b tb Hb) as [q Hq]. exists q. split; [|done].
            destruct (decide (q ∈ P)) as [|HqP]; [done|]. exfalso. apply Hm'.
            apply (ii_rest _ _ _ _ I); [eauto| |done]. intros [_ (q' & Hq' & Hq'b)].
            rewrite (PE_parent_unique Sh q' q b Hq'b Hq) in Hq'. done. }
        destruct Hbt as [[tb Htb] (q & Hq & Hqb)]. split; [eauto|].
        destruct (ii_done _ _ _ _ I q b tb Hq Hqb Htb) as (m2 & _ & Hm2b & Hqm2).
        rewrite (PE_parent_unique Sh' m2 m b Hm2b Hmb) in Hqm2.
        by rewrite (PE_parent_unique Sh' p q m Hpm Hqm2).
      * intros p b tm Hpb Hb Hfp. apply (ii_done _ _ _ _ I p b tm); try done. by apply (HP' p b tm).
      * intros p x y i j Hfp Hx Hy Hxi Hyj Hij. apply (ii_group _ _ _ _ I p x y i j); try done.
        destruct Hxi as (tx & Hxt & _). by apply (HP' p x tx).
      * intros a b w Hb Hno. apply (ii_rest _ _ _ _ I); [eauto|]. intros [[tm Ht] (p & Hp & Hpb)].
        apply Hno. rewrite Hb in Ht. injection Ht as ->. split; [done|]. exists p. split; [|done].
        apply HP in Hp as [Hp|[Hfp _]]; [set_solver|done].
Qed.
Print Assumptions C26_fresh_partial.

(** "NP" gets nodes labelled "X": each word one, although the words are not numbered in order. *)
Definition ex_fresh : tree -> nat -> option str := fun t n =>
  match nodes t !! n with
  | Some (NT nt) => if str_eqb (nt_label nt) (lit "NP") then Some (lit "X") else None
  | _ => None
  end.
Example C26_fresh_ex :
  WF ex_disc /\ (forall t1 t2 n, nodes t1 !! n = nodes t2 !! n -> ex_fresh t1 n = ex_fresh t2 n) /\
  (forall t1 n p l sp, ex_fresh ex_disc p = Some l -> nodes t1 !! n = Some (NT (mk_nt l None sp)) -> ex_fresh t1 n = None) /\
  exists t', insert_intermediate ex_disc ex_fresh = Ret (t', Ok ()) /\
    map (fun n => map fst (children t' n)) [1; 7; 8] = [[8; 7]; [2]; [0]].
Proof.
  split; [apply ex_disc_WF|]. split; [intros t1 t2 n H; unfold ex_fresh; by rewrite H|].
  split; [|eexists; vm_compute; split; reflexivity].
  intros t1 n p l sp Hp Hn. assert (l = lit "X") as ->.
  { unfold ex_fresh in Hp. destruct (nodes ex_disc !! p) as [[nt|]|]; [|discriminate Hp|discriminate Hp].
    destruct (str_eqb _ _); [by injection Hp as <-|discriminate Hp]. }
  unfold ex_fresh. rewrite Hn. reflexivity.
Qed.
