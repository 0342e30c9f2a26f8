(** Property C25: [reattach_terminals]. *)
From Coq Require Import Lia.
From Verif Require Import ModModel TreeSpec BaseProofs ShapeProofs GraphProofs DfsProofs ResetProofs
  ShapeOps TreeOps SortProofs EditProofs UnaryProofs RemoveProofs ReattachProofs Api PropsTree FilterProofs PropsMod ReattTermProofs InterProofs.

(** [y] is the matched terminal with the smallest node index. *)
Definition first_match (t : tree) (f : tree -> nat -> bool) (y : nat) : Prop :=
  (exists tm, nodes t !! y = Some (T tm)) /\ f t y = true /\
  forall x tm, nodes t !! x = Some (T tm) -> f t x = true -> y <= x.

Lemma first_match_split t f y :
  graph_ok (tr_graph t) -> first_match t f y ->
  exists l1 l2, terminals t = l1 ++ y :: l2 /\ forall x, x ∈ l1 -> f t x = false.
Proof.
  intros G (Hy & Hf & Hmin). destruct (terminals_index_order t G) as [Hin Hs].
  assert (Hyt : y ∈ terminals t) by (by apply Hin).
  apply elem_of_list_split in Hyt as (l1 & l2 & E). exists l1, l2. split; [done|].
  intros x Hx. destruct (f t x) eqn:Ex; [|done]. exfalso.
  assert (x ∈ terminals t) as [tm Hxt]%Hin by (rewrite E; set_solver).
  pose proof (Hmin x tm Hxt Ex) as Hle.
  rewrite E in Hs. clear E. induction l1 as [|z l1 IH]; [set_solver|].
  apply StronglySorted_inv in Hs as [Hs Hall]. apply elem_of_cons in Hx as [->|Hx]; [|by apply IH].
  rewrite Forall_forall in Hall. specialize (Hall y ltac:(set_solver)). lia.
Qed.
Lemma first_match_em t f :
  graph_ok (tr_graph t) ->
  (exists y, first_match t f y) \/ (forall x tm, nodes t !! x = Some (T tm) -> f t x = false).
Proof.
  intros G. destruct (terminals_index_order t G) as [Hin Hs].
  assert (H : (exists y, y ∈ terminals t /\ f t y = true /\ forall x, x ∈ terminals t -> f t x = true -> y <= x) \/
              (forall x, x ∈ terminals t -> f t x = false)).
  { clear Hin. induction (terminals t) as [|z l IH]; [right; set_solver|].
    apply StronglySorted_inv in Hs as [Hs Hall]. rewrite Forall_forall in Hall.
    destruct (f t z) eqn:E.
    - left. exists z. split_and!; [set_solver|done|]. intros x [->|Hx]%elem_of_cons _; [done|].
      specialize (Hall x Hx). lia.
    - destruct (IH Hs) as [(y & Hy & Ey & Hm)|H].
      + left. exists y. split_and!; [set_solver|done|]. intros x [->|Hx]%elem_of_cons Ex; [congruence|by apply Hm].
      + right. intros x [->|Hx]%elem_of_cons; [done|by apply H]. }
  destruct H as [(y & Hy & Ey & Hm)|H].
  - left. exists y. split_and!; [by apply Hin|done|]. intros x tm Hx. apply Hm, Hin. eauto.
  - right. intros x tm Hx. apply H, Hin. eauto.
Qed.

(** The result of [reattach_terminals t a f], described without the code. *)
Definition reattached (t t' : tree) (a : nat) (f : tree -> nat -> bool) : Prop :=
  WF t' /\ tr_root t' = tr_root t /\ tr_nterm t' = tr_nterm t /\
  (* terminals are untouched, in particular they keep their positions *)
  (forall n tm, nodes t' !! n = Some (T tm) <-> nodes t !! n = Some (T tm)) /\
  (* matched terminals are children of the attachment point *)
  (forall x tm, nodes t !! x = Some (T tm) -> f t x = true -> PE (edges t') a x) /\
  (* nonterminals keep label and features *)
  (forall n nt', nodes t' !! n = Some (NT nt') ->
     exists nt, nodes t !! n = Some (NT nt) /\ nt_label nt' = nt_label nt /\ nt_feats nt' = nt_feats nt) /\
  (* a nonterminal survives iff it dominates the attachment point or an unmatched terminal *)
  (forall n nt, nodes t !! n = Some (NT nt) ->
     is_Some (nodes t' !! n) <->
     Dom (edges t) n a \/ exists y tm, nodes t !! y = Some (T tm) /\ f t y = false /\ Dom (edges t) n y) /\
  (* dominance among everything else is unchanged *)
  (forall u v, is_Some (nodes t' !! u) -> is_Some (nodes t' !! v) ->
     ~ (exists tm, nodes t !! v = Some (T tm) /\ f t v = true) ->
     Dom (edges t') u v <-> Dom (edges t) u v).

Lemma RInv_reattached t a nta f M t1 :
  WF t -> nodes t !! a = Some (NT nta) -> RInv t a M t1 ->
  (forall x, x ∈ M <-> (exists tm, nodes t !! x = Some (T tm)) /\ f t x = true) ->
  exists t', reset_nt_spans t1 = Ret t' /\ reattached t t' a f.
Proof.
  intros W Ha R HM. destruct (ri_ws _ _ _ _ R) as (Y & [G Sh Tm Nt Nd] & _ & _).
  destruct (reset_nt_spans_spec t1 (tr_nterm t1) Sh Tm) as (N' & -> & E & Nt').
  eexists. split; [reflexivity|].
  set (t' := mk_tree _ _ _ _).
  assert (Hterm : forall n tm, nodes t' !! n = Some (T tm) <-> nodes t1 !! n = Some (T tm)).
  { intros n tm. by apply eq_strip_nt_T. }
  assert (Hlive : forall n, is_Some (nodes t' !! n) <-> is_Some (nodes t1 !! n)).
  { intros n. change (nodes t') with N'. rewrite <- !elem_of_dom. by rewrite (fmap_eq_dom strip_nt _ _ E). }
  assert (Hterm0 : forall n tm, nodes t' !! n = Some (T tm) <-> nodes t !! n = Some (T tm)).
  { intros n tm. rewrite Hterm. by apply (RInv_term _ _ _ _ _ _ R). }
  assert (Ha' : is_Some (nodes t1 !! a)).
  { apply (ri_kept _ _ _ _ R). split; [eauto|]. right. by left. }
  assert (HaM : a ∉ M) by (intros [tm H]%(ri_M _ _ _ _ R); congruence).
  split_and!; try done.
  - constructor; simpl.
    + apply set_nodes_ok; [done|]. by apply (fmap_eq_dom strip_nt).
    + eapply shape_ok_strip; [|exact Sh]. symmetry. by apply strip_of_strip_nt.
    + eapply terms_ok_strip_nt; [|exact Tm]. by symmetry.
    + done.
    + done.
  - apply R.
  - apply R.
  - intros x tm Hx Hf. assert (HxM : x ∈ M) by (apply HM; eauto).
    assert (Hxl : nodes t1 !! x = Some (T tm)) by (by apply (RInv_term _ _ _ _ _ _ R)).
    assert (Hax : Dom (edges t1) a x).
    { apply (ri_dom _ _ _ _ R); [done|eauto|]. right. split; [done|]. by right. }
    assert (Hxr : x <> tr_root t1).
    { intros ->. pose proof (sh_reach _ _ _ Sh a Ha') as H. assert (a = tr_root t1) by (by eapply (term_Dom Sh)).
      congruence. }
    destruct (live_parent Sh x ltac:(eauto) Hxr) as [p Hp]. change (PE (edges t1) a x).
    destruct (Dom_step_r Sh a p x Hax Hp) as [->|Hap]; [congruence|].
    assert (Hpx : p <> x) by (intros ->; by apply (PE_irrefl Sh) in Hp).
    destruct (sh_live _ _ _ Sh p x Hp) as [Hpl _].
    pose proof (proj1 (ri_dom _ _ _ _ R p x Hpl ltac:(eauto)) ltac:(by apply rtc_once)) as [[? _]|[_ [?|Hpa]]]; [done|done|].
    assert (Hpa1 : Dom (edges t1) p a) by (apply (ri_dom _ _ _ _ R); [done|done|by left]).
    by rewrite (Dom_antisym Sh a p Hap Hpa1).
  - intros n nt' Hn. destruct (fmap_eq_lookup strip_nt _ _ _ _ E Hn) as (w1 & Hw1 & Es1).
    destruct (ri_sub _ _ _ _ R n w1 Hw1) as (w0 & Hw0 & Es0). rewrite Es0 in Es1.
    destruct w0 as [nt|]; [|done]. exists nt. split; [done|]. destruct nt, nt'. by injection Es1 as -> -> .
  - intros n nt Hn. rewrite Hlive, (ri_kept _ _ _ _ R). split.
    + intros [_ [[tm Hk]|[Hk|(y & tm & Hy & HyM & HD)]]]; [congruence|by left|].
      right. exists y, tm. split_and!; try done. destruct (f t y) eqn:Ef; [|done].
      exfalso. apply HyM, HM. eauto.
    + intros Hk. split; [eauto|]. right. destruct Hk as [?|(y & tm & Hy & Hf & HD)]; [by left|right].
      exists y, tm. split_and!; try done. rewrite HM. intros [_ ?]. congruence.
  - intros u v Hu%Hlive Hv%Hlive Hnm. change (edges t') with (edges t1).
    assert (HvM : v ∉ M).
    { rewrite HM. intros [[tm ?] ?]. apply Hnm. eauto. }
    rewrite (ri_dom _ _ _ _ R) by done. tauto.
Qed.

(** The full claim holds unless the first matched terminal is the only terminal below the attachment
    point.  Missing for the full statement: that case, in which the code never terminates
    ([C25_diverges], [C25_terminates_refuted]). *)
Theorem C25_reattach_terminals_partial t a nta f :
  WF t -> nodes t !! a = Some (NT nta) ->
  (forall t1 t2 n, nodes t1 !! n = nodes t2 !! n -> f t1 n = f t2 n) ->
  (forall y, first_match t f y -> exists z tz, nodes t !! z = Some (T tz) /\ z <> y /\ Dom (edges t) a z) ->
  exists t', reattach_terminals t a f = Ret t' /\ reattached t t' a f.
Proof.
  intros W Ha Hf Hz. pose proof W as [G Sh Tm Nt Nd]. unfold reattach_terminals.
  assert (Hnb : node_based f) by (intros t1 t2 n H; by apply Hf).
  destruct (first_match_em t f G) as [[y Hy]|Hno].
  - destruct (first_match_split t f y G Hy) as (l1 & l2 & El & Hl1).
    destruct (Hz y Hy) as (z & tz & Hzt & Hzy & HDz). destruct Hy as ([tm Hy] & Hfy & _).
    rewrite El. rewrite foldM_app, reattach_terminals_skip by done. cbn [mbind outcome_bind foldM].
    destruct (RInv_step t a nta [] f t y tm z tz) as (t1 & -> & R1 & HP & HD); try done.
    { by apply RInv_init. } { set_solver. }
    cbn [mbind outcome_bind].
    pose proof (terminals_nodup t) as Hnd. rewrite El in Hnd. apply NoDup_app in Hnd as (_ & _ & Hnd).
    apply NoDup_cons in Hnd as [Hyl Hnd].
    destruct (RInv_loop t a nta f l2 [y] t1 y z tm tz) as (t2 & M & -> & R2 & HM); try done.
    { set_solver. }
    { intros x Hx. apply (elem_of_terminals t x G). rewrite El. set_solver. }
    { by apply rtc_once. }
    { apply HD; [done|eauto|]. exists (T tz). by apply (RInv_term _ _ _ _ _ _ R1). }
    cbn [mbind outcome_bind]. apply (RInv_reattached t a nta f M); try done.
    intros x. rewrite HM, elem_of_list_singleton, <- (elem_of_terminals t x G), El, elem_of_app, elem_of_cons.
    split.
    + intros [->|[Hx Hfx]]; (split; [tauto|done]).
    + intros [[Hx|[->|Hx]] Hfx]; [|tauto|tauto]. rewrite (Hl1 x Hx) in Hfx. done.
  - rewrite reattach_terminals_skip.
    2:{ intros x [tm Hx]%(elem_of_terminals t x G). by eapply Hno. }
    cbn [mbind outcome_bind]. apply (RInv_reattached t a nta f []); try done; [by apply RInv_init|].
    intros x. split; [set_solver|]. intros [[tm Hx] Hfx]. rewrite (Hno x tm Hx) in Hfx. done.
Qed.
Print Assumptions C25_reattach_terminals_partial.

(** In the remaining case the [while] loop runs forever: whatever number of iterations one allows. *)
Theorem C25_diverges t a nta f y :
  WF t -> nodes t !! a = Some (NT nta) -> first_match t f y ->
  Dom (edges t) a y -> (forall z tz, nodes t !! z = Some (T tz) -> Dom (edges t) a z -> z = y) ->
  reattach_terminals t a f = Diverge /\
  forall fuel, dissolve_chain fuel t a y (climber_new y t) = Diverge.
Proof.
  intros W Ha Hy HD Honly. pose proof W as [G Sh Tm Nt Nd].
  destruct (first_match_split t f y G Hy) as (l1 & l2 & El & Hl1). destruct Hy as ([tm Hy] & Hfy & _).
  assert (Hall : forall fuel, dissolve_chain fuel t a y (climber_new y t) = Diverge).
  { intros fuel. eapply (dissolve_chain_diverges fuel t _ a nta y tm); [by apply WF_WS|done|done| |].
    - split_and!; [intros ->; congruence|done|done].
    - intros q e E. unfold climber_new in E. assert (Hq : PE (edges t) q y) by (apply parent_PE; eauto).
      split; [by apply rtc_once|]. by apply (PE_src_nt Sh q y). }
  split; [|done]. unfold reattach_terminals.
  rewrite El, foldM_app, reattach_terminals_skip by done. cbn [mbind outcome_bind foldM].
  unfold reattach_terminals_step at 2. rewrite Hfy, Hall. done.
Qed.
Print Assumptions C25_diverges.

Definition ex_is_v : tree -> nat -> bool := fun t n =>
  match nodes t !! n with Some w => str_eqb (node_label w) (lit "V") | None => false end.
Theorem C25_terminates_refuted : exists t a nta f, WF t /\ nodes t !! a = Some (NT nta) /\
  (forall t1 t2 n, nodes t1 !! n = nodes t2 !! n -> f t1 n = f t2 n) /\
  reattach_terminals t a f = Diverge.
Proof.
  exists ex_proj, 6. eexists _, ex_is_v. split_and!; [apply ex_proj_WF|vm_compute; reflexivity| |vm_compute; reflexivity].
  intros t1 t2 n H. unfold ex_is_v. by rewrite H.
Qed.
Print Assumptions C25_terminates_refuted.

(** "barks" and "loudly" go below the noun phrase; the verb phrase disappears. *)
Definition ex_last : tree -> nat -> bool := fun t n =>
  match nodes t !! n with Some (T tm) => Nat.leb 2 (sp_start (t_span tm)) | _ => false end.
Example C25_ex :
  WF ex_proj /\ (exists nta, nodes ex_proj !! 1 = Some (NT nta)) /\
  (forall t1 t2 n, nodes t1 !! n = nodes t2 !! n -> ex_last t1 n = ex_last t2 n) /\
  (forall y, first_match ex_proj ex_last y ->
     exists z tz, nodes ex_proj !! z = Some (T tz) /\ z <> y /\ Dom (edges ex_proj) 1 z) /\
  exists t', reattach_terminals ex_proj 1 ex_last = Ret t' /\
    map (fun n => map fst (children t' n)) [1; 3; 6] = [[5; 4; 2; 0]; [1]; []].
Proof.
  split_and!; [apply ex_proj_WF|eexists; vm_compute; reflexivity| | |eexists; vm_compute; split; reflexivity].
  - intros t1 t2 n H. unfold ex_last. by rewrite H.
  - intros y (_ & Hy & _). exists 0. eexists. split_and!; [vm_compute; reflexivity| |].
    + intros <-. vm_compute in Hy. discriminate Hy.
    + apply rtc_once. apply PE_of_children. vm_compute. reflexivity.
Qed.

(** ** C26: [insert_intermediate] *)

(** Below every matched parent each maximal run of adjacent terminal children has got one new node;
    nothing else has changed (edge labels aside, see [C26_edge_labels_refuted]). *)
Definition grouped (t t' : tree) (f : tree -> nat -> option str) : Prop :=
  WF t' /\ tr_root t' = tr_root t /\ tr_nterm t' = tr_nterm t /\
  (forall n w, nodes t !! n = Some w -> nodes t' !! n = Some w) /\
  (* a new node has the requested label, hangs below the matched parent and groups only its terminals *)
  (forall m w, nodes t !! m = None -> nodes t' !! m = Some w ->
     exists p l sp, f t p = Some l /\ w = NT (mk_nt l None sp) /\ PE (edges t') p m /\
       forall b, PE (edges t') m b -> (exists tm, nodes t !! b = Some (T tm)) /\ PE (edges t) p b) /\
  (* terminals below a matched parent: one new node in between *)
  (forall p b tm, PE (edges t) p b -> nodes t !! b = Some (T tm) -> f t p <> None ->
     exists m, nodes t !! m = None /\ PE (edges t') m b /\ PE (edges t') p m) /\
  (* two of them share it iff all positions in between belong to terminal children of the same parent *)
  (forall p x y i j, f t p <> None -> PE (edges t) p x -> PE (edges t) p y ->
     term_pos (nodes t) x i -> term_pos (nodes t) y j -> i <= j ->
     (exists m, PE (edges t') m x /\ PE (edges t') m y) <->
     (forall k, i <= k <= j -> exists z, PE (edges t) p z /\ term_pos (nodes t) z k)) /\
  (* all other nodes keep their parent *)
  (forall a b w, nodes t !! b = Some w ->
     ~ (is_terminal w = true /\ exists p, f t p <> None /\ PE (edges t) p b) ->
     PE (edges t') a b <-> PE (edges t) a b).

(** Missing for the full statement: trees in which siblings are numbered in another order than they
    occur in the sentence.  There a run can get two nodes ([C26_one_node_refuted]). *)
Theorem C26_insert_intermediate_partial t f :
  WF t -> (forall t1 t2 n, nodes t1 !! n = nodes t2 !! n -> f t1 n = f t2 n) ->
  (forall p x y i j, PE (edges t) p x -> PE (edges t) p y -> term_pos (nodes t) x i ->
     term_pos (nodes t) y j -> x < y -> i < j) ->
  ((exists x tm, nodes t !! x = Some (T tm) /\ forall p, ~ PE (edges t) p x) ->
     insert_intermediate t f = Ret (t, Err)) /\
  ((forall x tm, nodes t !! x = Some (T tm) -> exists p, PE (edges t) p x) ->
     exists t', insert_intermediate t f = Ret (t', Ok ()) /\ grouped t t' f).
Proof.
  intros W Hf Hord. pose proof W as [G Sh Tm Nt Nd]. unfold insert_intermediate. split.
  - intros (x & tm & Hx & Hnp). assert (x = tr_root t) as ->.
    { destruct (decide (x = tr_root t)) as [|Hxr]; [done|].
      destruct (live_parent Sh x ltac:(eauto) Hxr) as [p Hp]. by apply Hnp in Hp. }
    assert (Hall : forall n, is_Some (nodes t !! n) -> n = tr_root t).
    { intros n Hn. by apply (term_Dom Sh (tr_root t) tm), (sh_reach _ _ _ Sh). }
    destruct (terminals_index_order t G) as [Hin Hs].
    assert (E : terminals t = [tr_root t]).
    { assert (Hrt : tr_root t ∈ terminals t) by (apply Hin; eauto).
      pose proof (terminals_nodup t) as Hnd.
      assert (Hsub : forall y, y ∈ terminals t -> y = tr_root t) by (intros y [ty Hy]%Hin; apply Hall; eauto).
      destruct (terminals t) as [|a [|b l]]; [set_solver|by rewrite (Hsub a) by set_solver|].
      rewrite (Hsub a), (Hsub b) in Hnd by set_solver. apply NoDup_cons in Hnd as [H _]. set_solver. }
    rewrite E. cbn [foldR]. unfold insert_intermediate_step. rewrite bool_decide_false by set_solver.
    rewrite (proj2 (parent_None t (tr_root t) Sh)); [done|]. intros p. apply (sh_root_top _ _ _ Sh).
  - intros Hall. destruct (terminals_index_order t G) as [Hin Hs].
    destruct (IInv_loop t f (terminals t) [] t ∅) as (t' & vis' & P & -> & I & HP); try done.
    + destruct (sh_root _ _ _ Sh) as [[nt|tm] Hr]; [eauto|]. destruct (Hall _ _ Hr) as [p Hp].
      by apply (sh_root_top _ _ _ Sh) in Hp.
    + by apply IInv_init.
    + intros x Hx. by apply Hin.
    + set_solver.
    + intros x tm p Hx Hxl. exfalso. apply Hxl, Hin. eauto.
    + cbn [mbind outcome_bind]. exists t'. split; [done|].
      assert (HP' : forall p b tm, PE (edges t) p b -> nodes t !! b = Some (T tm) -> f t p <> None -> p ∈ P).
      { intros p b tm Hb Ht Hfp. apply HP. right. split; [done|]. exists b. split; [apply Hin; eauto|done]. }
      pose proof (ii_wf _ _ _ _ I) as W'. pose proof W' as [G' Sh' Tm' Nt' Nd'].
      split_and!; try apply I.
      * intros m w Hm Hw. destruct (ii_new _ _ _ _ I m w Hm Hw) as (p & l & sp & Hp & Hl & -> & Hpm).
        exists p, l, sp. split_and!; try done. intros b Hmb.
        assert (Hbl : is_Some (nodes t !! b)).
        { destruct (nodes t !! b) as [wb|] eqn:E; [eauto|]. exfalso.
          destruct (sh_live _ _ _ Sh' m b Hmb) as [_ [wb Hwb]].
          destruct (ii_new _ _ _ _ I b wb E Hwb) as (q & lq & sq & Hq & _ & _ & Hqb).
          rewrite (PE_parent_unique Sh' m q b Hmb Hqb) in Hm.
          apply HP in Hq as [Hq|(_ & x & _ & Hqx)]; [set_solver|].
          destruct (sh_live _ _ _ Sh q x Hqx) as [[? ?] _]. congruence. }
        assert (Hm' : ~ PE (edges t) m b).
        { intros H. destruct (sh_live _ _ _ Sh m b H) as [[? ?] _]. congruence. }
        destruct Hbl as [wb Hb].
        assert (Hbt : (exists tm, nodes t !! b = Some (T tm)) /\ exists q, q ∈ P /\ PE (edges t) q b).
        { destruct wb as [ntb|tb].
          - exfalso. apply Hm'. apply (ii_rest _ _ _ _ I); [eauto| |done]. intros [[? ?] _]. congruence.
          - split; [eauto|]. destruct (Hall b tb Hb) as [q Hq]. exists q. split; [|done].
            destruct (decide (q ∈ P)) as [|HqP]; [done|]. exfalso. apply Hm'.
            apply (ii_rest _ _ _ _ I); [eauto| |done]. intros [_ (q' & Hq' & Hq'b)].
            rewrite (PE_parent_unique Sh q' q b Hq'b Hq) in Hq'. done. }
        destruct Hbt as [[tb Htb] (q & Hq & Hqb)]. split; [eauto|].
        destruct (ii_done _ _ _ _ I q b tb Hq Hqb Htb) as (m2 & _ & Hm2b & Hqm2).
        rewrite (PE_parent_unique Sh' m2 m b Hm2b Hmb) in Hqm2.
        by rewrite (PE_parent_unique Sh' p q m Hpm Hqm2).
      * intros p b tm Hpb Hb Hfp. apply (ii_done _ _ _ _ I p b tm); try done. by apply (HP' p b tm).
      * intros p x y i j Hfp Hx Hy Hxi Hyj Hij. apply (ii_group _ _ _ _ I p x y i j); try done.
        destruct Hxi as (tx & Hxt & _). by apply (HP' p x tx).
      * intros a b w Hb Hno. apply (ii_rest _ _ _ _ I); [eauto|]. intros [[tm Ht] (p & Hp & Hpb)].
        apply Hno. rewrite Hb in Ht. injection Ht as ->. split; [done|]. exists p. split; [|done].
        apply HP in Hp as [Hp|[Hfp _]]; [set_solver|done].
Qed.
Print Assumptions C26_insert_intermediate_partial.

Definition ex_group : tree -> nat -> option str := fun t n =>
  match nodes t !! n with
  | Some (NT nt) => if str_eqb (nt_label nt) (lit "NP") then Some (lit "NP") else None
  | _ => None
  end.
Lemma ex_group_node t1 t2 n : nodes t1 !! n = nodes t2 !! n -> ex_group t1 n = ex_group t2 n.
Proof. intros H. unfold ex_group. by rewrite H. Qed.

(** "dog" precedes "the" in the sentence but not in the node numbering: it gets two nodes. *)
Theorem C26_one_node_refuted : exists t f t' m1 m2, WF t /\
  (forall t1 t2 n, nodes t1 !! n = nodes t2 !! n -> f t1 n = f t2 n) /\
  insert_intermediate t f = Ret (t', Ok ()) /\
  nodes t !! m1 = None /\ nodes t !! m2 = None /\ PE (edges t') m1 m2.
Proof.
  exists ex_disc, ex_group. eexists. exists 7, 9.
  split_and!; [apply ex_disc_WF|apply ex_group_node|vm_compute; reflexivity|vm_compute; reflexivity|vm_compute; reflexivity|].
  apply PE_of_children. vm_compute. reflexivity.
Qed.
Print Assumptions C26_one_node_refuted.

(** All terminals of a run but the first lose their edge label. *)
Definition ex_lab : tree := build (lit "the") (lit "D")
  [OAbove 0 (lit "NP"); OPush (lit "dog") (lit "N"); OAbove 1 (lit "S"); OEditEdge 1 (Some (lit "HD"))].
Lemma ex_lab_WF : WF ex_lab.
Proof. apply build_WF. Qed.
Theorem C26_edge_labels_refuted : exists t f t' x l, WF t /\
  (forall t1 t2 n, nodes t1 !! n = nodes t2 !! n -> f t1 n = f t2 n) /\
  insert_intermediate t f = Ret (t', Ok ()) /\
  (exists r, r ∈ edges t /\ e_tgt r = x /\ e_w r = Primary (Some l)) /\
  (forall r, r ∈ edges t' -> e_tgt r = x -> e_w r = Primary None).
Proof.
  exists ex_lab, ex_group. eexists. exists 2, (lit "HD").
  split_and!; [apply ex_lab_WF|apply ex_group_node|vm_compute; reflexivity| |].
  - exists (mk_e 1 1 2 (Primary (Some (lit "HD")))). split; [|done]. apply elem_of_list_In. vm_compute. tauto.
  - intros r Hr%elem_of_list_In. vm_compute in Hr. intros E.
    repeat (destruct Hr as [<-|Hr]; [first [discriminate E|reflexivity]|]). destruct Hr.
Qed.
Print Assumptions C26_edge_labels_refuted.

Example C26_ex :
  WF ex_proj /\ (forall t1 t2 n, nodes t1 !! n = nodes t2 !! n -> ex_group t1 n = ex_group t2 n) /\
  (forall p x y i j, PE (edges ex_proj) p x -> PE (edges ex_proj) p y -> term_pos (nodes ex_proj) x i ->
     term_pos (nodes ex_proj) y j -> x < y -> i < j) /\
  exists t', insert_intermediate ex_proj ex_group = Ret (t', Ok ()) /\
    map (fun n => map fst (children t' n)) [1; 7] = [[7]; [2; 0]].
Proof.
  split_and!; [apply ex_proj_WF|apply ex_group_node| |eexists; vm_compute; split; reflexivity].
  intros p x y i j Hx Hy Hi Hj Hxy.
  assert (Hx' : x < 7).
  { pose proof (go_nbound _ (wf_graph _ ex_proj_WF) x) as H.
    destruct Hi as (tm & Hi & _). apply H. eauto. }
  assert (Hy' : y < 7).
  { pose proof (go_nbound _ (wf_graph _ ex_proj_WF) y) as H.
    destruct Hj as (tm & Hj & _). apply H. eauto. }
  destruct Hi as (tx & Hx1 & Hx2), Hj as (ty & Hy1 & Hy2).
  assert (Hpos : forall x tx i, x < 7 -> nodes ex_proj !! x = Some (T tx) -> t_span tx = span_of i ->
    (x = 0 /\ i = 0) \/ (x = 2 /\ i = 1) \/ (x = 4 /\ i = 2) \/ (x = 5 /\ i = 3)).
  { clear. intros x tx i Hx H E.
    do 7 (destruct x as [|x]; [vm_compute in H; first [discriminate H|injection H as <-; vm_compute in E; injection E as <-; lia]|]).
    lia. }
  pose proof (Hpos _ _ _ Hx' Hx1 Hx2). pose proof (Hpos _ _ _ Hy' Hy1 Hy2). lia.
Qed.
