(** Editing the tree while climbing it: [map_climber_path] with a closure that removes nodes. *)
From Coq Require Import Lia.
From Verif Require Import TreeModel NegraModel TreeSpec BaseProofs ShapeProofs GraphProofs TreeOps Ordered EditProofs UnaryProofs AnnotProofs Api PropsTree.
Local Arguments lit : simpl never.

(** tree.rs:457-477, the closure of the documented use of [map_climber_path], with any two tests on labels
    and any feature name: nodes passing [A] are removed, the climb stops at a node passing [B] after noting its
    label on the terminal. *)
Definition climb_edit (A B : str -> bool) (k : str) (ts : tree * ()) (p n : nat) : outcome (tree * () * bool) :=
  w ← node_at ts.1 p;
  if A (node_label w) then
    '(t', r) ← remove_node ts.1 p;
    _ ← unwrap_ok r;
    Ret (t', tt, false)
  else if B (node_label w) then
    wn ← node_at ts.1 n;
    Ret (put_node ts.1 n (node_insert_feat wn k (Some (node_label w))), tt, true)
  else Ret (ts, false).

(** *** Specification *)
Section climb.
  Context (A B : str -> bool) (k : str).
  Definition chosen (t : tree) (n : nat) : Prop := exists nt, nodes t !! n = Some (NT nt) /\ A (nt_label nt) = true.
  Definition stopper (t : tree) (n : nat) : Prop :=
    exists nt, nodes t !! n = Some (NT nt) /\ A (nt_label nt) = false /\ B (nt_label nt) = true.
  (** [a] is above [x] and no stopper is between them. *)
  Definition reached (t : tree) (a x : nat) : Prop :=
    tc (PE (edges t)) a x /\ forall b, stopper t b -> tc (PE (edges t)) b x -> ~ tc (PE (edges t)) a b.
  Definition doomed (t : tree) (a : nat) : Prop :=
    chosen t a /\ exists x tm, nodes t !! x = Some (T tm) /\ reached t a x.
  (** What a terminal [tm] becomes when the climb starts at [x]. *)
  Definition noted (t : tree) (x : nat) (tm tm' : terminal) : Prop :=
    (forall p nt, closest t (stopper t) x p -> nodes t !! p = Some (NT nt) -> tm' = featured tm k (nt_label nt)) /\
    (no_match t (stopper t) x -> tm' = tm).

  (** *** Proofs *)
  Record spl (t t' : tree) (R : nat -> Prop) (L : nat -> terminal -> terminal -> Prop) : Prop := {
    sp_wf : WF t';
    sp_nterm : tr_nterm t' = tr_nterm t;
    sp_nt : forall n nt, nodes t' !! n = Some (NT nt) <-> nodes t !! n = Some (NT nt) /\ ~ R n;
    sp_t : forall n tm, nodes t !! n = Some (T tm) -> exists tm', nodes t' !! n = Some (T tm') /\ L n tm tm';
    sp_back : forall n tm', nodes t' !! n = Some (T tm') -> exists tm, nodes t !! n = Some (T tm);
    sp_dom : forall a b, is_Some (nodes t' !! a) -> is_Some (nodes t' !! b) -> Dom (edges t') a b <-> Dom (edges t) a b }.

  Lemma spl_live t t' R L n : spl t t' R L -> is_Some (nodes t' !! n) -> is_Some (nodes t !! n).
  Proof.
    intros S [[nt|tm] H]; [apply (sp_nt _ _ _ _ S) in H as [H _]; eauto|]. destruct (sp_back _ _ _ _ S _ _ H) as [? ?]. eauto.
  Qed.
  Lemma spl_refl t : WF t -> spl t t (fun _ => False) (fun _ tm tm' => tm' = tm).
  Proof. intros W. split; try done; [naive_solver|naive_solver|naive_solver]. Qed.
  Lemma spl_ext t t' R1 L1 (R : nat -> Prop) (L : nat -> terminal -> terminal -> Prop) : spl t t' R1 L1 -> (forall n nt, nodes t !! n = Some (NT nt) -> R n <-> R1 n) ->
    (forall n tm tm', nodes t !! n = Some (T tm) -> L1 n tm tm' -> L n tm tm') -> spl t t' R L.
  Proof.
    intros [S1 S3 S4 S5 S6 S7] HR HL. split; try done.
    - intros n nt. rewrite S4. split; intros [H1 H2]; (split; [done|]); intros H3; by apply H2, (HR _ _ H1).
    - intros n tm H. destruct (S5 n tm H) as (tm' & H1 & H2). eauto.
  Qed.
  Lemma spl_trans t t1 t2 R1 L1 R2 L2 (R : nat -> Prop) (L : nat -> terminal -> terminal -> Prop) : spl t t1 R1 L1 -> spl t1 t2 R2 L2 ->
    (forall n nt, nodes t !! n = Some (NT nt) -> ~ R n <-> ~ R1 n /\ ~ R2 n) ->
    (forall n tm tm1 tm2, nodes t !! n = Some (T tm) -> nodes t1 !! n = Some (T tm1) -> L1 n tm tm1 -> L2 n tm1 tm2 -> L n tm tm2) ->
    spl t t2 R L.
  Proof.
    intros S S' HR HL. pose proof S as [S1 S3 S4 S5 S6 S7]. pose proof S' as [T1 T3 T4 T5 T6 T7]. split.
    - done.
    - congruence.
    - intros n nt. rewrite T4, S4. split.
      + intros ((H1 & H2) & H3). split; [done|]. by apply (HR _ _ H1).
      + intros (H1 & H2). apply (HR _ _ H1) in H2. tauto.
    - intros n tm H. destruct (S5 n tm H) as (tm1 & H1 & H2). destruct (T5 n tm1 H1) as (tm2 & H3 & H4). eauto.
    - intros n tm' (tm1 & H)%T6. eauto.
    - intros a b Ha Hb. rewrite T7 by done. apply S7; by eapply spl_live.
  Qed.

  Lemma tc_iff t a b : WF t -> tc (PE (edges t)) a b <-> Dom (edges t) a b /\ a <> b.
  Proof.
    intros W. pose proof (wf_shape _ W) as Sh. split.
    - intros H. split; [by apply tc_rtc|]. intros ->. by apply (acyclic Sh b).
    - intros [[->|H]%rtc_tc Hne]; done.
  Qed.
  Lemma tc_parent t p c a : WF t -> PE (edges t) p c -> tc (PE (edges t)) a c <-> a = p \/ tc (PE (edges t)) a p.
  Proof.
    intros W Hp. pose proof (wf_shape _ W) as Sh. split.
    - intros (b & Hb & Hbc)%tc_inv_r. rewrite (PE_parent_unique Sh b p c Hbc Hp) in Hb. by apply rtc_tc in Hb.
    - intros [->|H]; [by apply tc_once|]. by eapply tc_r.
  Qed.
  Lemma tc_ends t a b : WF t -> tc (PE (edges t)) a b -> is_Some (nodes t !! a) /\ is_Some (nodes t !! b).
  Proof. intros W [H1 H2]%tc_iff; [|done]. by apply (Dom_live (wf_shape _ W)). Qed.

  (** The specification reads the same in the edited tree. *)
  Section same.
    Context (t t1 : tree) (R : nat -> Prop) (L : nat -> terminal -> terminal -> Prop).
    Context (W : WF t) (S : spl t t1 R L) (HR : forall a, R a -> chosen t a).
    Lemma same_chosen a : chosen t1 a <-> chosen t a /\ ~ R a.
    Proof.
      split.
      - intros (nt & H & HA). apply (sp_nt _ _ _ _ S) in H as [H1 H2]. split; [by exists nt|done].
      - intros [(nt & H & HA) Hr]. exists nt. split; [|done]. by apply (sp_nt _ _ _ _ S).
    Qed.
    Lemma same_stopper a : stopper t1 a <-> stopper t a.
    Proof.
      split.
      - intros (nt & H & HA). apply (sp_nt _ _ _ _ S) in H as [H1 H2]. by exists nt.
      - intros (nt & H & HA & HB). exists nt. split; [|done]. apply (sp_nt _ _ _ _ S). split; [done|].
        intros (nt' & H' & HA')%HR. congruence.
    Qed.
    Lemma stopper_live a : stopper t a -> is_Some (nodes t1 !! a).
    Proof. intros (nt & H & _)%same_stopper. eauto. Qed.
    Lemma same_tc a b : is_Some (nodes t1 !! a) -> is_Some (nodes t1 !! b) -> tc (PE (edges t1)) a b <-> tc (PE (edges t)) a b.
    Proof. intros Ha Hb. rewrite !tc_iff by (done || apply S). by rewrite (sp_dom _ _ _ _ S). Qed.
    Lemma same_reached a x : is_Some (nodes t1 !! a) -> is_Some (nodes t1 !! x) -> reached t1 a x <-> reached t a x.
    Proof.
      intros Ha Hx. unfold reached. rewrite same_tc by done. split; intros [H1 H2]; (split; [done|]); intros b Hb H3 H4.
      - apply (H2 b); [by apply same_stopper| |]; apply same_tc; auto using stopper_live.
      - apply same_stopper in Hb. apply (H2 b); [done| |]; apply same_tc; auto using stopper_live.
    Qed.
    Lemma same_closest x p : is_Some (nodes t1 !! x) -> closest t1 (stopper t1) x p <-> closest t (stopper t) x p.
    Proof.
      intros Hx. unfold closest. split.
      - intros (H1 & H2%same_stopper & H3). pose proof (stopper_live _ H2) as Hl. split; [by apply same_tc|]. split; [done|].
        intros q Hq Sq. pose proof (stopper_live _ Sq). apply (sp_dom _ _ _ _ S); [done|done|]. apply H3; [by apply same_tc|by apply same_stopper].
      - intros (H1 & H2 & H3). pose proof (stopper_live _ H2) as Hl. split; [by apply same_tc|]. split; [by apply same_stopper|].
        intros q Hq Sq%same_stopper. pose proof (stopper_live _ Sq). apply (sp_dom _ _ _ _ S); [done|done|]. apply H3; [by apply same_tc|done].
    Qed.
    Lemma same_no_match x : is_Some (nodes t1 !! x) -> no_match t1 (stopper t1) x <-> no_match t (stopper t) x.
    Proof.
      intros Hx. unfold no_match. split; intros H q Hq Sq.
      - apply (H q); [|by apply same_stopper]. apply same_tc; auto using stopper_live.
      - apply same_stopper in Sq. apply (H q); [|done]. apply same_tc; auto using stopper_live.
    Qed.
    Lemma same_noted x tm tm' : is_Some (nodes t1 !! x) -> noted t1 x tm tm' -> noted t x tm tm'.
    Proof.
      intros Hx [H1 H2]. split.
      - intros p nt Hc Hp. apply (H1 p nt); [by apply same_closest|]. apply (sp_nt _ _ _ _ S). split; [done|].
        destruct Hc as (_ & (nt' & Hp' & HA & _) & _). intros (nt2 & H' & HA')%HR. congruence.
      - intros Hn. by apply H2, same_no_match.
    Qed.
  End same.

  Lemma upath_spliced es es' p q m l :
    (forall a b, PE es' a b <-> a = q /\ PE es p b \/ a <> p /\ b <> p /\ PE es a b) ->
    upath es m l -> p ∉ m :: l -> upath es' m l.
  Proof.
    intros HPE H. induction H as [m Hm|m r l Hr _ IH]; intros Hnin.
    - constructor. intros x Hx. apply HPE in Hx as [[-> Hx]|(_ & _ & Hx)]; by apply Hm in Hx.
    - rewrite !not_elem_of_cons in Hnin. constructor; [|apply IH; rewrite not_elem_of_cons; tauto]. apply HPE. right. naive_solver.
  Qed.
  Lemma climb_edit_at t p n nt : nodes t !! p = Some (NT nt) -> climb_edit A B k (t, tt) p n =
    if A (nt_label nt) then '(t', r) ← remove_node t p; _ ← unwrap_ok r; Ret (t', tt, false)
    else if B (nt_label nt) then wn ← node_at t n; Ret (put_node t n (node_insert_feat wn k (Some (nt_label nt))), tt, true)
    else Ret (t, tt, false).
  Proof. intros H. unfold climb_edit. cbn [fst]. by rewrite (node_at_Some _ _ _ H). Qed.
  Lemma climb_ok l : forall fuel t cur (c : climber) n,
    WF t -> is_Some (nodes t !! cur) -> fst <$> c = fst <$> parent t cur -> upath (edges t) cur l -> length l <= fuel ->
    (exists tm, nodes t !! n = Some (T tm)) -> ~ (chosen t (tr_root t) /\ reached t (tr_root t) cur) ->
    exists t', climb_map fuel (climb_edit A B k) (t, tt) n c = Ret (t', tt) /\ tr_root t' = tr_root t /\
      spl t t' (fun a => chosen t a /\ reached t a cur) (fun m tm tm' => (m = n -> noted t cur tm tm') /\ (m <> n -> tm' = tm)).
  Proof.
    induction l as [|p l IH]; intros fuel t cur c n W Hcur Hc Hl Hf [tm Htm] Hroot; pose proof (wf_shape _ W) as Sh;
      inversion Hl as [? Htop|? p' l' Hp Hl']; subst.
    - rewrite (proj2 (parent_None t cur Sh) Htop) in Hc. destruct c as [[]|]; [discriminate Hc|].
      exists t. split; [by destruct fuel|]. split; [done|]. assert (HT : forall a, ~ tc (PE (edges t)) a cur) by (intros a (b & _ & Hb)%tc_inv_r; by apply Htop in Hb).
      eapply spl_ext; [by apply spl_refl| |].
      + intros a nt _. split; [|done]. intros [_ [H _]]. by apply HT in H.
      + intros m tm1 tm' _ ->. split; [|done]. intros ->. split; [|done]. intros p nt [H _]. by apply HT in H.
    - destruct (proj1 (parent_PE t cur p Sh) Hp) as [e He]. rewrite He in Hc. destruct c as [[p2 e2]|]; [|discriminate Hc].
      simpl in Hc. injection Hc as ->. destruct fuel as [|fuel]; [simpl in Hf; lia|]. simpl in Hf.
      destruct (PE_src_nt Sh p cur Hp) as [nt Hnt]. cbn [climb_map climber_next fst]. rewrite (climb_edit_at _ _ _ _ Hnt).
      destruct (A (nt_label nt)) eqn:EA; [|destruct (B (nt_label nt)) eqn:EB].
      + assert (Hch : chosen t p) by (by exists nt).
        assert (Hrp : reached t p cur).
        { split; [by apply tc_once|]. intros b Hb Hbc Hpb. apply (tc_parent t p cur b W Hp) in Hbc as [->|Hbp].
          - by apply (acyclic Sh p). - apply (acyclic Sh p). by etrans. }
        assert (Hne : p <> tr_root t) by (intros ->; by apply Hroot).
        destruct (live_parent Sh p ltac:(eauto) Hne) as [q Hq].
        destruct (C14_remove_inner t p nt q W Hnt Hq) as (t1 & H1 & W1 & HN & Hr1 & HPE).
        pose proof (C14_dominance t p nt q t1 W Hnt Hq H1) as HD.
        rewrite H1. cbn [mbind outcome_bind unwrap_ok].
        assert (S1 : spl t t1 (fun a => a = p) (fun _ tm tm' => tm' = tm)).
        { split; try done.
          - unfold remove_node in H1. rewrite (node_at_Some _ _ _ Hnt) in H1. cbn [mbind outcome_bind is_terminal] in H1.
            destruct (remove_nonterminal_ok t p nt q W Hnt Hq) as (t1' & H1' & _ & _ & Hk & _). congruence.
          - intros m nt'. rewrite HN, lookup_delete_Some. naive_solver.
          - intros m tm' Hm. rewrite HN. exists tm'. split; [|done]. apply lookup_delete_Some. split; [congruence|done].
          - intros m tm'. rewrite HN, lookup_delete_Some. naive_solver.
          - intros a b Ha Hb. apply HD; intros ->; rewrite HN, lookup_delete in *; by eapply is_Some_None. }
        assert (HC : forall a, a = p -> chosen t a) by (by intros a ->).
        assert (Hpc : p <> cur) by (intros ->; by apply (PE_irrefl Sh) in Hp).
        assert (Hcur1 : is_Some (nodes t1 !! cur)). { destruct Hcur as [w Hw]. exists w. rewrite HN. apply lookup_delete_Some. done. }
        pose proof (wf_shape _ W1) as Sh1.
        assert (Hup : upath (edges t1) cur l).
        { inversion Hl' as [? Hno|? q' l2 Hq' Hl2]; subst; [by apply Hno in Hq|].
          rewrite (PE_parent_unique Sh q' q p Hq' Hq) in *. constructor.
          - apply HPE. by left.
          - assert (Hnin : p ∉ q :: l2). { pose proof (upath_nodup Sh _ _ Hl') as Hnd. by apply NoDup_cons in Hnd as [? _]. }
            by apply (upath_spliced (edges t) (edges t1) p q). }
        assert (Htm1 : nodes t1 !! n = Some (T tm)). { rewrite HN. apply lookup_delete_Some. split; [congruence|done]. }
        assert (Hrt : is_Some (nodes t1 !! tr_root t)). { rewrite <- Hr1. apply (sh_root _ _ _ Sh1). }
        destruct (IH fuel t1 cur (parent t p) n) as (t2 & H2 & Hr2 & S2); try done.
        * assert (exists eq, parent t p = Some (q, eq)) as [eq ->] by (by apply (parent_PE t p q Sh)).
          assert (exists eq', parent t1 cur = Some (q, eq')) as [eq' ->]; [|done]. apply (parent_PE t1 cur q Sh1). apply HPE. by left.
        * lia.
        * eauto.
        * rewrite Hr1. intros [Hx1 Hx2]. apply Hroot. split; [by apply (same_chosen t t1 _ _ S1) in Hx1 as [? _]|].
          by apply (same_reached t t1 _ _ W S1 HC).
        * exists t2. split; [exact H2|]. split; [congruence|]. eapply (spl_trans t t1 t2); [exact S1|exact S2| |].
          -- intros a nt' Ha. assert (HL : a <> p -> is_Some (nodes t1 !! a)) by (intros ?; exists (NT nt'); rewrite HN; by apply lookup_delete_Some).
             split.
             ++ intros Hn. assert (Hap : a <> p) by (by intros ->; apply Hn). split; [done|]. intros [Ha1 Ha2]. apply Hn.
                apply (same_chosen t t1 _ _ S1) in Ha1 as [Ha1 _]. split; [done|]. apply (same_reached t t1 _ _ W S1 HC); auto.
             ++ intros [Hap Hn] [Ha1 Ha2]. apply Hn. split; [by apply (same_chosen t t1 _ _ S1)|]. apply (same_reached t t1 _ _ W S1 HC); auto.
          -- intros m tma tmb tmc _ _ -> [Hb1 Hb2]. split; [|done]. intros Hm. by apply (same_noted t t1 _ _ W S1 HC), Hb1.
      + rewrite (node_at_Some _ _ _ Htm). cbn [mbind outcome_bind]. eexists. split; [reflexivity|]. split; [done|]. rewrite node_insert_feat_T.
        assert (Hst : stopper t p) by (by exists nt).
        assert (HNo : forall a, ~ (chosen t a /\ reached t a cur)).
        { intros a [(nt' & Ha & HA') [H1 H2]]. apply (tc_parent t p cur a W Hp) in H1 as [->|H1]; [congruence|].
          by apply (H2 p Hst (tc_once _ _ _ Hp)). }
        split; cbn [set_node set_nodes set_graph put_node tr_root tr_nterm tr_graph g_nodes g_edges].
        * by apply (put_node_WF t n (T tm)).
        * done.
        * intros m nt'. rewrite lookup_insert_Some. split; [|intros [Hm _]; right; split; [congruence|done]].
          intros [[? ?]|[? ?]]; [done|]. split; [done|apply HNo].
        * intros m tm' Hm. destruct (decide (m = n)) as [->|Hne].
          -- exists (featured tm k (nt_label nt)). rewrite lookup_insert. split; [done|]. split; [|done]. intros _.
             rewrite Htm in Hm. injection Hm as <-. split.
             ++ intros p' nt' Hc Hp'. assert (p' = p) as ->; [|congruence]. eapply (closest_unique t); [done|exact Hc|].
                split; [by apply tc_once|]. split; [done|]. intros q Hq _. apply (tc_parent t p cur q W Hp) in Hq as [->|Hq]; [done|by apply tc_rtc].
             ++ intros Hno. by destruct (Hno p (tc_once _ _ _ Hp)).
          -- exists tm'. rewrite lookup_insert_ne by done. split; [done|]. by split.
        * intros m tm'. rewrite lookup_insert_Some. intros [[<- _]|[_ Hm]]; eauto.
        * done.
      + assert (Hns : ~ stopper t p) by (intros (nt' & Hp' & _ & HB); congruence).
        assert (Hnc : ~ chosen t p) by (intros (nt' & Hp' & HA'); congruence).
        assert (HE : forall a, a <> p -> reached t a p <-> reached t a cur).
        { intros a Hap. split.
          - intros [H1 H2]. split; [apply (tc_parent t p cur a W Hp); by right|]. intros b Hb Hbc. apply H2; [done|].
            apply (tc_parent t p cur b W Hp) in Hbc as [->|]; done.
          - intros [H1 H2]. apply (tc_parent t p cur a W Hp) in H1 as [->|H1]; [done|]. split; [done|]. intros b Hb Hbp. apply H2; [done|].
            apply (tc_parent t p cur b W Hp). by right. }
        destruct (IH fuel t p (parent t p) n) as (t2 & H2 & Hr2 & S2); try done.
        * lia.
        * eauto.
        * intros [Hx1 Hx2]. apply Hroot. split; [done|]. apply HE; [|done]. by intros <-.
        * exists t2. split; [exact H2|]. split; [done|]. eapply spl_ext; [exact S2| |].
          -- intros a nt' Ha. split; intros [Hx1 Hx2]; (split; [done|]); apply HE; try done; by intros ->.
          -- intros m tm1 tm' _ [Hb1 Hb2]. split; [|done]. intros Hm. destruct (Hb1 Hm) as [Hn1 Hn2]. split.
             ++ intros p' nt' (Hc1 & Hc2 & Hc3) Hp'. apply (Hn1 p' nt'); [|done]. split; [|split; [done|]].
                ** apply (tc_parent t p cur p' W Hp) in Hc1 as [->|]; done.
                ** intros q Hq. apply Hc3, (tc_parent t p cur q W Hp). by right.
             ++ intros Hno. apply Hn2. intros q Hq. apply Hno, (tc_parent t p cur q W Hp). by right.
  Qed.
  Lemma fold_ok xs : forall t, WF t -> NoDup xs -> (forall x, x ∈ xs -> exists tm, nodes t !! x = Some (T tm)) ->
    (forall x, x ∈ xs -> ~ (chosen t (tr_root t) /\ reached t (tr_root t) x)) ->
    exists t', foldM (fun ts n => climb_map (climb_fuel ts.1) (climb_edit A B k) ts n (climber_new n ts.1)) xs (t, tt) = Ret (t', tt) /\ tr_root t' = tr_root t /\
      spl t t' (fun a => chosen t a /\ exists x, x ∈ xs /\ reached t a x)
        (fun m tm tm' => (m ∈ xs -> noted t m tm tm') /\ (m ∉ xs -> tm' = tm)).
  Proof.
    induction xs as [|x xs IH]; intros t W Hnd Hx Hr.
    - exists t. split; [done|]. split; [done|]. eapply spl_ext; [by apply spl_refl|set_solver|set_solver].
    - pose proof (wf_shape _ W) as Sh. apply NoDup_cons in Hnd as [Hnin Hnd]. destruct (Hx x) as [tm Htm]; [set_solver|].
      destruct (upath_exists Sh x ltac:(eauto)) as [l Hl]. pose proof (climb_fuel_ok t x l Sh ltac:(eauto) Hl) as Hf.
      destruct (climb_ok l (climb_fuel t) t x (climber_new x t) x) as (t1 & H1 & Hr1 & S1); [done|eauto|done|done|done|eauto|apply Hr; set_solver|].
      cbn [foldM fst]. rewrite H1. cbn [mbind outcome_bind].
      set (R1 := fun a => chosen t a /\ reached t a x) in *.
      assert (HC : forall a, R1 a -> chosen t a) by (by intros a [? _]).
      assert (W1 : WF t1) by apply S1.
      assert (HT : forall y, (exists tm, nodes t !! y = Some (T tm)) -> exists tm, nodes t1 !! y = Some (T tm)).
      { intros y [tmy Hy]. destruct (sp_t _ _ _ _ S1 y tmy Hy) as (? & ? & _). eauto. }
      assert (Hrt : is_Some (nodes t1 !! tr_root t)). { rewrite <- Hr1. apply (sh_root _ _ _ (wf_shape _ W1)). }
      assert (HS : forall a y, is_Some (nodes t1 !! a) -> y ∈ xs -> reached t1 a y <-> reached t a y).
      { intros a y Ha Hy. apply (same_reached t t1 _ _ W S1 HC); [done|]. destruct (HT y) as [? ?]; [apply Hx; set_solver|]. eauto. }
      destruct (IH t1 W1 Hnd) as (t2 & H2 & Hr2 & S2).
      { intros y Hy. apply HT, Hx. set_solver. }
      { intros y Hy. rewrite Hr1. intros [Hc1 Hc2]. apply (Hr y); [set_solver|].
        apply (same_chosen t t1 _ _ S1) in Hc1 as [Hc1 _]. split; [done|]. by apply HS. }
      exists t2. split; [exact H2|]. split; [congruence|]. eapply (spl_trans t t1 t2); [exact S1|exact S2| |].
      + intros a nt Ha. assert (HL : ~ R1 a -> is_Some (nodes t1 !! a)) by (intros ?; exists (NT nt); by apply (sp_nt _ _ _ _ S1)).
        split.
        * intros Hn. assert (H1n : ~ R1 a). { intros [? ?]. apply Hn. split; [done|]. exists x. set_solver. }
          split; [done|]. intros [Ha1 (y & Hy & Hy2)]. apply (same_chosen t t1 _ _ S1) in Ha1 as [Ha1 _]. apply Hn. split; [done|].
          exists y. split; [set_solver|]. apply HS; auto.
        * intros [H1n Hn] [Ha1 (y & Hy & Hy2)]. apply elem_of_cons in Hy as [->|Hy]; [by apply H1n|]. apply Hn.
          split; [by apply (same_chosen t t1 _ _ S1)|]. exists y. split; [done|]. apply HS; auto.
      + intros m tma tmb tmc Hm Hm1 [Ha1 Ha2] [Hb1 Hb2]. split.
        * intros Hin. apply elem_of_cons in Hin as [->|Hin].
          -- rewrite (Hb2 Hnin). by apply Ha1.
          -- rewrite <- Ha2 by (intros ->; done). apply (same_noted t t1 _ _ W S1 HC); [eauto|]. by apply Hb1.
        * intros Hin. rewrite Hb2 by set_solver. apply Ha2. set_solver.
  Qed.

  (** C67: nodes may be removed during the climb.  Exactly the chosen nodes that some terminal reaches before
      a stopper are removed; every terminal notes its closest stopper; the rest of the tree stays. *)
  Theorem C67_climb_partial t : WF t -> ~ doomed t (tr_root t) ->
    exists t', map_climber_path (climb_edit A B k) (t, tt) = Ret (t', tt) /\ WF t' /\ tr_root t' = tr_root t /\ tr_nterm t' = tr_nterm t /\
      (forall n nt, nodes t' !! n = Some (NT nt) <-> nodes t !! n = Some (NT nt) /\ ~ doomed t n) /\
      (forall n tm, nodes t !! n = Some (T tm) -> exists tm', nodes t' !! n = Some (T tm') /\ noted t n tm tm') /\
      (forall n tm', nodes t' !! n = Some (T tm') -> exists tm, nodes t !! n = Some (T tm)) /\
      (forall a b, is_Some (nodes t' !! a) -> is_Some (nodes t' !! b) -> Dom (edges t') a b <-> Dom (edges t) a b).
  Proof.
    intros W Hd. pose proof (wf_graph _ W) as G.
    assert (HT : forall x, x ∈ terminals t <-> exists tm, nodes t !! x = Some (T tm)) by (intros x; by apply elem_of_terminals).
    destruct (fold_ok (terminals t) t W (terminals_nodup t)) as (t' & H & Hr & S).
    - intros x. apply HT.
    - intros x [tm Hx]%HT [H1 H2]. apply Hd. split; [done|]. by exists x, tm.
    - exists t'. split; [exact H|]. destruct S as [S1 S3 S4 S5 S6 S7]. split_and!; try done.
      + intros n nt. rewrite S4. split; intros [H1 H2]; (split; [done|]); intros [H3 H4]; apply H2; (split; [done|]).
        * destruct H4 as (x & tm & H4 & H5). exists x. split; [apply HT; eauto|done].
        * destruct H4 as (x & [tm H4]%HT & H5). by exists x, tm.
      + intros n tm Hn. destruct (S5 n tm Hn) as (tm' & H1 & H2 & _). exists tm'. split; [done|]. apply H2, HT. eauto.
  Qed.
End climb.
Print Assumptions C67_climb_partial.

(** The documented tests: labels starting with "A" and with "B". *)
Definition doc_edit := climb_edit (starts_with (lit "A")) (starts_with (lit "B")) (lit "b_ancestor").
Definition ex_climb : tree := build (lit "a") (lit "X")
  [OAbove 0 (lit "A1"); OPush (lit "b") (lit "X"); OAbove 1 (lit "B"); OAbove 3 (lit "A2"); OAbove 4 (lit "S");
   OPush (lit "c") (lit "X"); OAbove 6 (lit "A3")].
Lemma ex_climb_WF : WF ex_climb.
Proof. apply build_WF. Qed.
(** S(A2(B(A1(a b))) A3(c)): "A1" and "A3" are removed, "A2" is behind the stopper. *)
Example C67_ex : WF ex_climb /\ ~ doomed (starts_with (lit "A")) (starts_with (lit "B")) ex_climb (tr_root ex_climb) /\
  match map_climber_path doc_edit (ex_climb, tt) with
  | Ret (t', _) => map (fun n => node_label <$> nodes t' !! n) (seq 0 8) =
      [Some (lit "X"); None; Some (lit "X"); Some (lit "B"); Some (lit "A2"); Some (lit "S"); Some (lit "X"); None] /\
      map (fun n => map fst (children t' n)) [3; 4; 5] = [[0; 2]; [3]; [6; 4]]
  | _ => False
  end.
Proof.
  split; [apply ex_climb_WF|]. split.
  - intros [(nt & H & HA) _]. assert (E : node_label <$> nodes ex_climb !! tr_root ex_climb = Some (lit "S")) by (by vm_compute).
    rewrite H in E. injection E as E. rewrite E in HA. by vm_compute in HA.
  - vm_compute. split; reflexivity.
Qed.
(** Finding: the documented use panics when it reaches a chosen root with two children. *)
Definition ex_climb_root : tree := build (lit "a") (lit "X") [OAbove 0 (lit "A"); OPush (lit "b") (lit "X")].
Theorem C67_root_refuted : exists t, WF t /\ map_climber_path doc_edit (t, tt) = Panic.
Proof. exists ex_climb_root. split; [apply build_WF|]. by vm_compute. Qed.
Print Assumptions C67_root_refuted.
