(** C67: the climbs that reach a chosen root. *)
From Coq Require Import Lia.
From Verif Require Import TreeModel NegraModel TreeSpec BaseProofs ShapeProofs GraphProofs TreeOps Ordered EditProofs UnaryProofs AnnotProofs Api PropsTree PropsClimb.
Local Arguments lit : simpl never.

Section root.
  Context (A B : str -> bool) (k : str).
  Notation chosen := (chosen A). Notation stopper := (stopper A B). Notation reached := (reached A B). Notation doomed := (doomed A B).

  (** No node below the root that escapes the removal is above, or is, every word. *)
  Definition bare (t : tree) : Prop :=
    forall p, is_Some (nodes t !! p) -> p <> tr_root t -> ~ chosen t p ->
      exists y tm, nodes t !! y = Some (T tm) /\ ~ Dom (edges t) p y.

  Lemma reached_up t p cur a : WF t -> PE (edges t) p cur -> ~ stopper t p -> a <> p -> reached t a p <-> reached t a cur.
  Proof.
    intros W Hp Hns Hap. split.
    - intros [H1 H2]. split; [apply (tc_parent t p cur a W Hp); by right|]. intros b Hb Hbc. apply H2; [done|].
      apply (tc_parent t p cur b W Hp) in Hbc as [->|]; done.
    - intros [H1 H2]. apply (tc_parent t p cur a W Hp) in H1 as [->|H1]; [done|]. split; [done|]. intros b Hb Hbp. apply H2; [done|].
      apply (tc_parent t p cur b W Hp). by right.
  Qed.
  Lemma reached_parent t p cur : WF t -> PE (edges t) p cur -> reached t p cur.
  Proof.
    intros W Hp. pose proof (wf_shape _ W) as Sh. split; [by apply tc_once|]. intros b Hb Hbc Hpb.
    apply (tc_parent t p cur b W Hp) in Hbc as [->|Hbp]; [by apply (acyclic Sh p)|]. apply (acyclic Sh p). by etrans.
  Qed.
  Lemma reached_dec t a l : forall cur, WF t -> upath (edges t) cur l -> reached t a cur \/ ~ reached t a cur.
  Proof.
    induction l as [|p l IH]; intros cur W Hl; inversion Hl as [? Htop|? p' l' Hp Hl']; subst.
    - right. intros [(b & _ & Hb)%tc_inv_r _]. by apply Htop in Hb.
    - destruct (decide (a = p)) as [->|Hap]; [left; by apply reached_parent|].
      destruct (PE_src_nt (wf_shape _ W) p cur Hp) as [nt Hnt].
      destruct (A (nt_label nt)) eqn:EA; [|destruct (B (nt_label nt)) eqn:EB].
      2: { right. intros [H1 H2]. apply (tc_parent t p cur a W Hp) in H1 as [->|H1]; [done|].
           apply (H2 p); [by exists nt|by apply tc_once|done]. }
      all: destruct (IH p W Hl') as [H|H]; [left|right]; try (intros H'; apply H; revert H');
        apply (reached_up t p cur a W Hp); try done; intros (nt' & E & E1 & E2); congruence.
  Qed.

  (** Some node below the root that escapes the removal is above, or is, every word. *)
  Definition covered (t : tree) : Prop :=
    exists p, is_Some (nodes t !! p) /\ p <> tr_root t /\ ~ chosen t p /\
      forall y tm, nodes t !! y = Some (T tm) -> Dom (edges t) p y.

  Section back.
    Context (t t1 : tree) (R : nat -> Prop) (L : nat -> terminal -> terminal -> Prop).
    Context (S : spl t t1 R L) (HR : forall a, R a -> chosen t a) (Hr : tr_root t1 = tr_root t).
    Lemma bare_back : bare t1 -> bare t.
    Proof using All.
      intros HB p Hp Hne Hc.
      assert (Hp1 : is_Some (nodes t1 !! p)).
      { destruct Hp as [[nt|tm] Hp]; [exists (NT nt); apply (sp_nt _ _ _ _ S); auto|].
        destruct (sp_t _ _ _ _ S _ _ Hp) as (? & ? & _). eauto. }
      destruct (HB p Hp1) as (y & tm & Hy & Hd).
      { by rewrite Hr. }
      { intros H%(same_chosen A t t1 _ _ S). naive_solver. }
      destruct (sp_back _ _ _ _ S _ _ Hy) as [tm0 Hy0]. exists y, tm0. split; [done|].
      intros H. apply Hd. apply (sp_dom _ _ _ _ S); [done|eauto|done].
    Qed.
    Lemma covered_back : covered t1 -> covered t.
    Proof using All.
      intros (p & Hp & Hne & Hc & HD). exists p. rewrite Hr in Hne.
      split; [by eapply spl_live|]. split; [done|]. split.
      - intros Hc0. apply Hc. apply (same_chosen A t t1 _ _ S). split; [done|]. intros Hrp.
        destruct Hc0 as (nt & E & _). destruct Hp as [[nt1|tm1] Hp].
        + by apply (sp_nt _ _ _ _ S) in Hp as [_ Hp].
        + destruct (sp_back _ _ _ _ S _ _ Hp) as [? ?]. congruence.
      - intros y tm Hy. destruct (sp_t _ _ _ _ S y tm Hy) as (tm' & Hy' & _).
        apply (sp_dom _ _ _ _ S); [done|eauto|by eapply HD].
    Qed.
  End back.

  Lemma sibling_dom t c c' y : WF t -> PE (edges t) (tr_root t) c -> PE (edges t) (tr_root t) c' -> Dom (edges t) c y -> Dom (edges t) c' y -> c = c'.
  Proof.
    intros W Hc Hc' H H'. pose proof (wf_shape _ W) as Sh.
    assert (G : forall a b, PE (edges t) (tr_root t) a -> PE (edges t) (tr_root t) b -> Dom (edges t) a b -> a = b).
    { intros a b Ha Hb Hab. apply rtc_inv_r in Hab as [->|(z & Hz & Hzb)]; [done|]. exfalso.
      rewrite (PE_parent_unique Sh z (tr_root t) b Hzb Hb) in Hz. apply (acyclic Sh a). eapply tc_rtc_l; [exact Hz|by apply tc_once]. }
    destruct (Dom_comparable Sh c c' y H H') as [?|?]; [by apply G|symmetry; by apply G].
  Qed.
  (** The root is removed if it has one child; otherwise no node below it covers the sentence. *)
  Lemma root_step t cur nt : WF t -> nodes t !! tr_root t = Some (NT nt) -> PE (edges t) (tr_root t) cur -> ~ chosen t cur ->
    (bare t /\ remove_node t (tr_root t) = Ret (t, Err)) \/
    (covered t /\ exists t1, remove_node t (tr_root t) = Ret (t1, Ok (NT nt)) /\ tr_root t1 = cur /\
       spl t t1 (fun a => a = tr_root t) (fun _ tm tm' => tm' = tm)).
  Proof.
    intros W Hn Hc Hnc. pose proof (wf_shape _ W) as Sh.
    assert (Hcr : cur <> tr_root t) by (intros ->; by apply (sh_root_top _ _ _ Sh) in Hc).
    assert (Hup : forall p, is_Some (nodes t !! p) -> p <> tr_root t -> exists c, PE (edges t) (tr_root t) c /\ Dom (edges t) c p).
    { intros p Hp Hne. pose proof (sh_reach _ _ _ Sh p Hp) as [E|(c & H1 & H2)]%rtc_inv; [by rewrite E in Hne|]. by exists c. }
    destruct (C14_remove_root t nt W Hn) as [[[c Hu] _]|[(c1 & c2 & Hne & H1 & H2) He]].
    - right. assert (c = cur) as -> by (symmetry; by apply Hu). split.
      { exists cur. split; [by apply (sh_live _ _ _ Sh _ _ Hc)|]. split; [done|]. split; [done|]. intros y tm Hy.
        destruct (Hup y) as (c & H1%Hu & H2); [eauto|congruence|]. by subst. }
      destruct (remove_nonterminal_root_ok t nt cur W Hn Hc) as (t1 & H1 & W1 & HN & Hk & Hr & HE); [intros x Hx; by apply Hu|].
      exists t1. split; [unfold remove_node; rewrite (node_at_Some _ _ _ Hn); exact H1|]. split; [done|].
      assert (HPE : forall a b, PE (edges t1) a b <-> PE (edges t) a b /\ a <> tr_root t).
      { intros a b. unfold PE. split.
        + intros (r & Hr0 & P & <- & <-). apply HE in Hr0 as (Hr0 & Hs & Ht). split; [by exists r|done].
        + intros [(r & Hr0 & P & <- & <-) Ha]. exists r. split_and!; try done. apply HE. split_and!; try done.
          intros E. apply (sh_root_top _ _ _ Sh (e_src r)). rewrite <- E. by exists r. }
      split; [done|done| | | |].
      + intros n nt'. rewrite HN, lookup_delete_Some. naive_solver.
      + intros n tm Hm. exists tm. split; [|done]. rewrite HN. apply lookup_delete_Some. split; [congruence|done].
      + intros n tm. rewrite HN, lookup_delete_Some. naive_solver.
      + intros a b Ha _. assert (Har : a <> tr_root t) by (intros ->; rewrite HN, lookup_delete in Ha; by destruct Ha).
        clear Ha. split.
        * intros H. induction H as [|x y z Hx _ IH]; [constructor|]. apply HPE in Hx as [Hx _]. eapply rtc_l; [exact Hx|].
          apply IH. intros ->. by apply (sh_root_top _ _ _ Sh) in Hx.
        * intros H. induction H as [|x y z Hx _ IH]; [constructor|]. eapply rtc_l; [by apply HPE|].
          apply IH. intros ->. by apply (sh_root_top _ _ _ Sh) in Hx.
    - left. split; [|done]. intros p Hp Hpr _. destruct (Hup p Hp Hpr) as (c & Hc1 & Hcp).
      assert (exists c', PE (edges t) (tr_root t) c' /\ c' <> c) as (c' & Hc' & Hne').
      { destruct (decide (c1 = c)) as [->|?]; [exists c2|exists c1]; done. }
      destruct (dominates_terminal Sh c') as (y & tm & Hy & Htm); [by apply (sh_live _ _ _ Sh _ _ Hc')|].
      exists y, tm. split; [done|]. intros HD. apply Hne'. apply (sibling_dom t c' c y W); [done|done|done|by etrans].
  Qed.

  Lemma climb_root l : forall fuel t cur (c : climber) n,
    WF t -> is_Some (nodes t !! cur) -> ~ chosen t cur -> fst <$> c = fst <$> parent t cur -> upath (edges t) cur l -> length l <= fuel ->
    (exists tm, nodes t !! n = Some (T tm)) -> chosen t (tr_root t) -> reached t (tr_root t) cur ->
    (bare t /\ climb_map fuel (climb_edit A B k) (t, tt) n c = Panic) \/
    (covered t /\ exists t', climb_map fuel (climb_edit A B k) (t, tt) n c = Ret (t', tt) /\ ~ chosen t' (tr_root t') /\
      spl t t' (fun a => chosen t a /\ reached t a cur) (fun m tm tm' => (m = n -> noted A B k t cur tm tm') /\ (m <> n -> tm' = tm))).
  Proof using All.
    induction l as [|p l IH]; intros fuel t cur c n W Hcur Hnc Hc Hl Hf [tm Htm] Hroot Hre; pose proof (wf_shape _ W) as Sh;
      inversion Hl as [? Htop|? p' l' Hp Hl']; subst.
    - destruct Hre as [(b & _ & Hb)%tc_inv_r _]. by apply Htop in Hb.
    - destruct (proj1 (parent_PE t cur p Sh) Hp) as [e He]. rewrite He in Hc. destruct c as [[p2 e2]|]; [|discriminate Hc].
      simpl in Hc. injection Hc as ->. destruct fuel as [|fuel]; [simpl in Hf; lia|]. simpl in Hf.
      destruct (PE_src_nt Sh p cur Hp) as [nt Hnt]. cbn [climb_map climber_next fst]. rewrite (climb_edit_at _ _ _ _ _ _ _ Hnt).
      destruct (decide (p = tr_root t)) as [->|Hne].
      { pose proof Hroot as (nt' & E & HA). rewrite Hnt in E. injection E as <-. rewrite HA.
        destruct (root_step t cur nt W Hnt Hp Hnc) as [[HB E]|(HC & t1 & E & Hr1 & S1)]; [left|right]; (split; [done|]); rewrite E; [done|].
        exists t1. cbn [mbind outcome_bind unwrap_ok].
        rewrite (proj2 (parent_None t (tr_root t) Sh) (sh_root_top _ _ _ Sh)). split; [by destruct fuel|]. split.
        - rewrite Hr1. intros H. by apply (same_chosen A t t1 _ _ S1) in H as [H _].
        - assert (HT : forall a, tc (PE (edges t)) a cur <-> a = tr_root t).
          { intros a. rewrite (tc_parent t (tr_root t) cur a W Hp). split; [|by left]. intros [->|(b & _ & Hb)%tc_inv_r]; [done|].
            by apply (sh_root_top _ _ _ Sh) in Hb. }
          assert (Hns : ~ stopper t (tr_root t)) by (intros (nt' & Hp' & HA' & _); congruence).
          eapply spl_ext; [exact S1| |].
          + intros a nta Ha. split; [by intros [_ [?%HT _]]|]. intros ->. split; [done|]. by apply reached_parent.
          + intros m tm1 tm' _ ->. split; [|done]. intros ->. split; [|done]. intros p nt' [->%HT [? _]]. done. }
      destruct (A (nt_label nt)) eqn:EA; [|destruct (B (nt_label nt)) eqn:EB].
      + assert (Hch : chosen t p) by (by exists nt). pose proof (reached_parent t p cur W Hp) as Hrp.
        destruct (live_parent Sh p ltac:(eauto) Hne) as [q Hq].
        destruct (C14_remove_inner t p nt q W Hnt Hq) as (t1 & H1 & W1 & HN & Hr1 & HPE).
        pose proof (C14_dominance t p nt q t1 W Hnt Hq H1) as HD.
        rewrite H1. cbn [mbind outcome_bind unwrap_ok].
        assert (S1 : spl t t1 (fun a => a = p) (fun _ tm tm' => tm' = tm)).
        { split; try done.
          - unfold remove_node in H1. rewrite (node_at_Some _ _ _ Hnt) in H1. cbn [mbind outcome_bind is_terminal] in H1.
            destruct (remove_nonterminal_ok t p nt q W Hnt Hq) as (t1' & H1' & _ & _ & Hk & _). congruence.
          - intros m nt'. rewrite HN, lookup_delete_Some. naive_solver.
          - intros m tm' Hm. rewrite HN. exists tm'. split; [|done]. apply lookup_delete_Some. split; [congruence|done].
          - intros m tm'. rewrite HN, lookup_delete_Some. naive_solver.
          - intros a b Ha Hb. apply HD; intros ->; rewrite HN, lookup_delete in *; by eapply is_Some_None. }
        assert (HC : forall a, a = p -> chosen t a) by (by intros a ->).
        assert (Hpc : p <> cur) by (intros ->; by apply (PE_irrefl Sh) in Hp).
        assert (Hcur1 : is_Some (nodes t1 !! cur)). { destruct Hcur as [w Hw]. exists w. rewrite HN. apply lookup_delete_Some. done. }
        pose proof (wf_shape _ W1) as Sh1.
        assert (Hup : upath (edges t1) cur l).
        { inversion Hl' as [? Hno|? q' l2 Hq' Hl2]; subst; [by apply Hno in Hq|].
          rewrite (PE_parent_unique Sh q' q p Hq' Hq) in *. constructor.
          - apply HPE. by left.
          - assert (Hnin : p ∉ q :: l2). { pose proof (upath_nodup Sh _ _ Hl') as Hnd. by apply NoDup_cons in Hnd as [? _]. }
            by apply (upath_spliced A B k (edges t) (edges t1) p q). }
        assert (Htm1 : nodes t1 !! n = Some (T tm)). { rewrite HN. apply lookup_delete_Some. split; [congruence|done]. }
        assert (Hrt : is_Some (nodes t1 !! tr_root t)). { rewrite <- Hr1. apply (sh_root _ _ _ Sh1). }
        destruct (IH fuel t1 cur (parent t p) n) as [[HB H2]|(HV & t2 & H2 & Hr2 & S2)]; try done.
        * intros Hc1. by apply (same_chosen A t t1 _ _ S1) in Hc1 as [Hc1 _].
        * assert (exists eq, parent t p = Some (q, eq)) as [eq ->] by (by apply (parent_PE t p q Sh)).
          assert (exists eq', parent t1 cur = Some (q, eq')) as [eq' ->]; [|done]. apply (parent_PE t1 cur q Sh1). apply HPE. by left.
        * lia.
        * eauto.
        * rewrite Hr1. apply (same_chosen A t t1 _ _ S1). split; [done|]. intros Heq. by apply Hne.
        * rewrite Hr1. by apply (same_reached A B t t1 _ _ W S1 HC).
        * left. split; [by eapply bare_back|done].
        * right. split; [by eapply covered_back|]. exists t2. split; [exact H2|]. split; [done|].
          eapply (spl_trans A B k t t1 t2); [exact S1|exact S2| |].
          -- intros a nt' Ha. assert (HL : a <> p -> is_Some (nodes t1 !! a)) by (intros ?; exists (NT nt'); rewrite HN; by apply lookup_delete_Some).
             split.
             ++ intros Hn. assert (Hap : a <> p) by (by intros ->; apply Hn). split; [done|]. intros [Ha1 Ha2]. apply Hn.
                apply (same_chosen A t t1 _ _ S1) in Ha1 as [Ha1 _]. split; [done|]. apply (same_reached A B t t1 _ _ W S1 HC); auto.
             ++ intros [Hap Hn] [Ha1 Ha2]. apply Hn. split; [by apply (same_chosen A t t1 _ _ S1)|]. apply (same_reached A B t t1 _ _ W S1 HC); auto.
          -- intros m tma tmb tmc _ _ -> [Hb1 Hb2]. split; [|done]. intros Hm. by apply (same_noted A B k t t1 _ _ W S1 HC), Hb1.
      + exfalso. destruct Hre as [H1 H2]. apply (tc_parent t p cur _ W Hp) in H1 as [H1|H1]; [by rewrite H1 in Hne|].
        apply (H2 p); [by exists nt|by apply tc_once|done].
      + assert (Hns : ~ stopper t p) by (intros (nt' & Hp' & _ & HB'); congruence).
        assert (Hnp : ~ chosen t p) by (intros (nt' & Hp' & HA'); congruence).
        assert (HE : forall a, a <> p -> reached t a p <-> reached t a cur) by (intros a; by apply reached_up).
        destruct (IH fuel t p (parent t p) n) as [[HB H2]|(HV & t2 & H2 & Hr2 & S2)]; try done.
        * lia.
        * eauto.
        * by apply HE.
        * by left.
        * right. split; [done|]. exists t2. split; [exact H2|]. split; [done|]. eapply spl_ext; [exact S2| |].
          -- intros a nt' Ha. split; intros [Hx1 Hx2]; (split; [done|]); apply HE; try done; by intros ->.
          -- intros m tm1 tm' _ [Hb1 Hb2]. split; [|done]. intros Hm. destruct (Hb1 Hm) as [Hn1 Hn2]. split.
             ++ intros p' nt' (Hc1 & Hc2 & Hc3) Hp'. apply (Hn1 p' nt'); [|done]. split; [|split; [done|]].
                ** apply (tc_parent t p cur p' W Hp) in Hc1 as [->|]; done.
                ** intros q Hq. apply Hc3, (tc_parent t p cur q W Hp). by right.
             ++ intros Hno. apply Hn2. intros q Hq. apply Hno, (tc_parent t p cur q W Hp). by right.
  Qed.

  (** One climb, then the others. *)
  Lemma spl_cons t t1 t2 x xs : WF t -> x ∉ xs -> (forall y, y ∈ x :: xs -> exists tm, nodes t !! y = Some (T tm)) ->
    spl t t1 (fun a => chosen t a /\ reached t a x) (fun m tm tm' => (m = x -> noted A B k t x tm tm') /\ (m <> x -> tm' = tm)) ->
    spl t1 t2 (fun a => chosen t1 a /\ exists y, y ∈ xs /\ reached t1 a y) (fun m tm tm' => (m ∈ xs -> noted A B k t1 m tm tm') /\ (m ∉ xs -> tm' = tm)) ->
    spl t t2 (fun a => chosen t a /\ exists y, y ∈ x :: xs /\ reached t a y) (fun m tm tm' => (m ∈ x :: xs -> noted A B k t m tm tm') /\ (m ∉ x :: xs -> tm' = tm)).
  Proof.
    intros W Hnin Hx S1 S2.
    set (R1 := fun a => chosen t a /\ reached t a x) in *.
    assert (HC : forall a, R1 a -> chosen t a) by (by intros a [? _]).
    assert (HS : forall a y, is_Some (nodes t1 !! a) -> y ∈ xs -> reached t1 a y <-> reached t a y).
    { intros a y Ha Hy. apply (same_reached A B t t1 _ _ W S1 HC); [done|]. destruct (Hx y) as [tm Htm]; [set_solver|].
      destruct (sp_t _ _ _ _ S1 y tm Htm) as (? & ? & _). eauto. }
    eapply (spl_trans A B k t t1 t2); [exact S1|exact S2| |].
    - intros a nt Ha. assert (HL : ~ R1 a -> is_Some (nodes t1 !! a)) by (intros ?; exists (NT nt); by apply (sp_nt _ _ _ _ S1)).
      split.
      + intros Hn. assert (H1n : ~ R1 a). { intros [? ?]. apply Hn. split; [done|]. exists x. set_solver. }
        split; [done|]. intros [Ha1 (y & Hy & Hy2)]. apply (same_chosen A t t1 _ _ S1) in Ha1 as [Ha1 _]. apply Hn. split; [done|].
        exists y. split; [set_solver|]. apply HS; auto.
      + intros [H1n Hn] [Ha1 (y & Hy & Hy2)]. apply elem_of_cons in Hy as [->|Hy]; [by apply H1n|]. apply Hn.
        split; [by apply (same_chosen A t t1 _ _ S1)|]. exists y. split; [done|]. apply HS; auto.
    - intros m tma tmb tmc Hm Hm1 [Ha1 Ha2] [Hb1 Hb2]. split.
      + intros Hin. apply elem_of_cons in Hin as [->|Hin].
        * rewrite (Hb2 Hnin). by apply Ha1.
        * rewrite <- Ha2 by (intros ->; done). apply (same_noted A B k t t1 _ _ W S1 HC); [eauto|]. by apply Hb1.
      + intros Hin. rewrite Hb2 by set_solver. apply Ha2. set_solver.
  Qed.

  Lemma fold_root xs : forall t, WF t -> NoDup xs -> (forall x, x ∈ xs -> exists tm, nodes t !! x = Some (T tm)) ->
    chosen t (tr_root t) -> (exists x, x ∈ xs /\ reached t (tr_root t) x) ->
    let res := foldM (fun ts n => climb_map (climb_fuel ts.1) (climb_edit A B k) ts n (climber_new n ts.1)) xs (t, tt) in
    (bare t /\ res = Panic) \/
    (covered t /\ exists t', res = Ret (t', tt) /\
      spl t t' (fun a => chosen t a /\ exists x, x ∈ xs /\ reached t a x)
        (fun m tm tm' => (m ∈ xs -> noted A B k t m tm tm') /\ (m ∉ xs -> tm' = tm))).
  Proof using All.
    induction xs as [|x xs IH]; intros t W Hnd Hx Hr (x0 & Hx0 & Hre); [by apply elem_of_nil in Hx0|].
    pose proof (wf_shape _ W) as Sh. apply NoDup_cons in Hnd as [Hnin Hnd]. destruct (Hx x) as [tm Htm]; [set_solver|].
    destruct (upath_exists Sh x ltac:(eauto)) as [l Hl]. pose proof (climb_fuel_ok t x l Sh ltac:(eauto) Hl) as Hf.
    cbn [foldM fst]. cbv zeta. destruct (reached_dec t (tr_root t) l x W Hl) as [Hy|Hy].
    - assert (Hxc : ~ chosen t x) by (intros (nt & E & _); congruence).
      destruct (climb_root l (climb_fuel t) t x (climber_new x t) x) as [[HB H1]|(HV & t1 & H1 & Hr1 & S1)];
        [done|eauto|done|done|done|done|eauto|done|done| |]; rewrite H1; [by left|right]. split; [done|].
      cbn [mbind outcome_bind]. destruct (fold_ok A B k xs t1) as (t2 & H2 & _ & S2); [apply S1|done| |naive_solver|].
      { intros y Hy'. destruct (Hx y) as [tmy Hty]; [set_solver|]. destruct (sp_t _ _ _ _ S1 y tmy Hty) as (? & ? & _). eauto. }
      exists t2. split; [exact H2|]. by apply (spl_cons t t1 t2).
    - destruct (climb_ok A B k l (climb_fuel t) t x (climber_new x t) x) as (t1 & H1 & Hr1 & S1); [done|eauto|done|done|done|eauto|naive_solver|].
      rewrite H1. cbn [mbind outcome_bind].
      assert (HC : forall a, chosen t a /\ reached t a x -> chosen t a) by (by intros a [? _]).
      assert (W1 : WF t1) by apply S1.
      assert (HT : forall y, (exists tm, nodes t !! y = Some (T tm)) -> exists tm, nodes t1 !! y = Some (T tm)).
      { intros y [tmy Hy']. destruct (sp_t _ _ _ _ S1 y tmy Hy') as (? & ? & _). eauto. }
      assert (Hrt : is_Some (nodes t1 !! tr_root t)). { rewrite <- Hr1. apply (sh_root _ _ _ (wf_shape _ W1)). }
      apply elem_of_cons in Hx0 as [->|Hx0]; [done|].
      destruct (IH t1) as [[HB H2]|(HV & t2 & H2 & S2)]; [done|done| | | | |].
      + intros y Hy'. apply HT, Hx. set_solver.
      + rewrite Hr1. apply (same_chosen A t t1 _ _ S1). split; [done|]. by intros [_ ?].
      + exists x0. split; [done|]. rewrite Hr1. apply (same_reached A B t t1 _ _ W S1 HC); [done| |done].
        destruct (HT x0) as [? ?]; [apply Hx; set_solver|]. eauto.
      + left. split; [by eapply bare_back|done].
      + right. split; [by eapply covered_back|]. exists t2. split; [exact H2|]. by apply (spl_cons t t1 t2).
  Qed.

  (** C67 at a root that some climb would remove.  The documented use panics exactly if no other node that
      escapes the removal covers the whole sentence; if one does, the effect is the same as in
      [C67_climb_partial], and the root is removed too. *)
  Theorem C67_root t : WF t -> doomed t (tr_root t) ->
    (bare t /\ map_climber_path (climb_edit A B k) (t, tt) = Panic) \/
    (covered t /\ exists t', map_climber_path (climb_edit A B k) (t, tt) = Ret (t', tt) /\ WF t' /\ tr_nterm t' = tr_nterm t /\
      (forall n nt, nodes t' !! n = Some (NT nt) <-> nodes t !! n = Some (NT nt) /\ ~ doomed t n) /\
      (forall n tm, nodes t !! n = Some (T tm) -> exists tm', nodes t' !! n = Some (T tm') /\ noted A B k t n tm tm') /\
      (forall n tm', nodes t' !! n = Some (T tm') -> exists tm, nodes t !! n = Some (T tm)) /\
      (forall a b, is_Some (nodes t' !! a) -> is_Some (nodes t' !! b) -> Dom (edges t') a b <-> Dom (edges t) a b)).
  Proof using All.
    intros W (Hc & x & tm & Hx & Hr). pose proof (wf_graph _ W) as G.
    assert (HT : forall x, x ∈ terminals t <-> exists tm, nodes t !! x = Some (T tm)) by (intros y; by apply elem_of_terminals).
    destruct (fold_root (terminals t) t W (terminals_nodup t)) as [[HB H]|(HV & t' & H & S)].
    - intros y. apply HT.
    - done.
    - exists x. split; [apply HT; eauto|done].
    - left. split; [done|exact H].
    - right. split; [done|]. exists t'. split; [exact H|]. destruct S as [S1 S3 S4 S5 S6 S7]. split_and!; try done.
      + intros n nt. rewrite S4. split; intros [H1 H2]; (split; [done|]); intros [H3 H4]; apply H2; (split; [done|]).
        * destruct H4 as (y & tmy & H4 & H5). exists y. split; [apply HT; eauto|done].
        * destruct H4 as (y & [tmy H4]%HT & H5). by exists y, tmy.
      + intros n tmn Hn. destruct (S5 n tmn Hn) as (tm' & H1 & H2 & _). exists tm'. split; [done|]. apply H2, HT. eauto.
  Qed.
  Theorem C67_root_panics t : WF t -> doomed t (tr_root t) -> map_climber_path (climb_edit A B k) (t, tt) = Panic <-> bare t.
  Proof using All.
    intros W Hd. destruct (C67_root t W Hd) as [[HB H]|((p & H1 & H2 & H3 & H4) & t' & H & _)]; [done|]. rewrite H. split; [done|].
    intros HB. destruct (HB p H1 H2 H3) as (y & tm & Hy & Hn). destruct Hn. by eapply H4.
  Qed.
  Lemma doomed_dec t : WF t -> doomed t (tr_root t) \/ ~ doomed t (tr_root t).
  Proof.
    intros W. pose proof (wf_graph _ W) as G. pose proof (wf_shape _ W) as Sh.
    assert (HC : chosen t (tr_root t) \/ ~ chosen t (tr_root t)).
    { destruct (nodes t !! tr_root t) as [[nt|tm]|] eqn:E; [destruct (A (nt_label nt)) eqn:EA; [left; by exists nt|]| |];
        right; intros (nt' & E' & EA'); congruence. }
    destruct HC as [HC|HC]; [|right; by intros [? _]].
    assert (HX : forall xs : list nat, (forall x, x ∈ xs -> is_Some (nodes t !! x)) ->
      (exists x, x ∈ xs /\ reached t (tr_root t) x) \/ ~ exists x, x ∈ xs /\ reached t (tr_root t) x).
    { induction xs as [|x xs IH]; intros Hl; [right; set_solver|].
      destruct (upath_exists Sh x) as [l Hu]; [apply Hl; set_solver|]. destruct (reached_dec t (tr_root t) l x W Hu) as [H|H]; [left; exists x; set_solver|].
      destruct IH as [(y & Hy & Hy2)|IH]; [set_solver|left; exists y; set_solver|]. right. intros (y & [->|Hy]%elem_of_cons & Hy2); [done|]. apply IH. eauto. }
    assert (HL : forall x, x ∈ terminals t -> is_Some (nodes t !! x)).
    { intros x Hx. apply elem_of_terminals in Hx as [tm Hx]; [eauto|done]. }
    destruct (HX (terminals t) HL) as [(x & Hx & Hr)|Hn].
    - apply elem_of_terminals in Hx as [tm Hx]; [|done]. left. split; [done|]. by exists x, tm.
    - right. intros (_ & x & tm & Hx & Hr). apply Hn. exists x. split; [|done]. apply elem_of_terminals; eauto.
  Qed.
  (** The complete behaviour: a panic, or the full effect. *)
  Theorem C67_climb t : WF t ->
    (doomed t (tr_root t) /\ bare t /\ map_climber_path (climb_edit A B k) (t, tt) = Panic) \/
    ((doomed t (tr_root t) -> covered t) /\ exists t', map_climber_path (climb_edit A B k) (t, tt) = Ret (t', tt) /\ WF t' /\ tr_nterm t' = tr_nterm t /\
      (forall n nt, nodes t' !! n = Some (NT nt) <-> nodes t !! n = Some (NT nt) /\ ~ doomed t n) /\
      (forall n tm, nodes t !! n = Some (T tm) -> exists tm', nodes t' !! n = Some (T tm') /\ noted A B k t n tm tm') /\
      (forall n tm', nodes t' !! n = Some (T tm') -> exists tm, nodes t !! n = Some (T tm)) /\
      (forall a b, is_Some (nodes t' !! a) -> is_Some (nodes t' !! b) -> Dom (edges t') a b <-> Dom (edges t) a b)).
  Proof using All.
    intros W. destruct (doomed_dec t W) as [Hd|Hd].
    - destruct (C67_root t W Hd) as [[HB H]|[HV H]]; [left|right]; done.
    - right. split; [done|]. destruct (C67_climb_partial A B k t W Hd) as (t' & H1 & H2 & _ & H3). by exists t'.
  Qed.
End root.
Print Assumptions C67_climb.
Print Assumptions C67_root.
Print Assumptions C67_root_panics.
(** A(a b): the tree of [C67_root_refuted]. *)
Example C67_root_ex : WF ex_climb_root /\ doomed (starts_with (lit "A")) (starts_with (lit "B")) ex_climb_root (tr_root ex_climb_root) /\
  bare (starts_with (lit "A")) ex_climb_root.
Proof.
  assert (W : WF ex_climb_root) by apply build_WF.
  assert (HT : forall n, n = 0 \/ n = 2 -> exists tm, nodes ex_climb_root !! n = Some (T tm)).
  { intros n [->| ->]; eexists; vm_compute; reflexivity. }
  assert (HL : forall a b, a = 0 \/ a = 2 -> a <> b -> ~ Dom (edges ex_climb_root) a b).
  { intros a b [tm Ha]%HT Hne [E|(x & Hx & _)]%rtc_inv; [exact (Hne E)|]. exact (sh_leaf _ _ _ (wf_shape _ W) _ _ _ Ha Hx). }
  assert (HR : tr_root ex_climb_root = 1) by (vm_compute; reflexivity).
  assert (HA : chosen (starts_with (lit "A")) ex_climb_root 1).
  { eexists. split; [vm_compute; reflexivity|vm_compute; reflexivity]. }
  assert (HN : forall p, is_Some (nodes ex_climb_root !! p) -> p = 0 \/ p = 1 \/ p = 2).
  { intros p [w Hw]. apply elem_of_map_to_list in Hw. apply (elem_of_list_fmap_1 fst) in Hw. simpl in Hw.
    assert (E : forallb (fun x => bool_decide (x ∈ [0; 1; 2])) (map fst (map_to_list (nodes ex_climb_root))) = true) by (vm_compute; reflexivity).
    rewrite forallb_forall in E. apply elem_of_list_In, E in Hw. apply bool_decide_eq_true in Hw. set_solver. }
  split; [exact W|]. split.
  - rewrite HR. split; [exact HA|]. destruct (HT 0) as [tm H0]; [by left|]. exists 0, tm. split; [exact H0|].
    apply reached_parent; [exact W|]. apply PE_of_children. vm_compute. reflexivity.
  - intros p Hp Hne _. rewrite HR in Hne. destruct (HN p Hp) as [->|[->| ->]].
    + destruct (HT 2) as [tm H]; [by right|]. exists 2, tm. split; [exact H|]. apply HL; [by left|lia].
    + destruct (Hne eq_refl).
    + destruct (HT 0) as [tm H]; [by left|]. exists 0, tm. split; [exact H|]. apply HL; [by right|lia].
Qed.

(** A(S(a b)): the root is removed and "S" becomes the root. *)
Definition ex_climb_top : tree := build (lit "a") (lit "X") [OAbove 0 (lit "S"); OPush (lit "b") (lit "X"); OAbove 1 (lit "A")].
Example C67_top_ex : WF ex_climb_top /\ doomed (starts_with (lit "A")) (starts_with (lit "B")) ex_climb_top (tr_root ex_climb_top) /\
  match map_climber_path doc_edit (ex_climb_top, tt) with
  | Ret (t', _) => map (fun n => node_label <$> nodes t' !! n) (seq 0 4) = [Some (lit "X"); Some (lit "S"); Some (lit "X"); None] /\ tr_root t' = 1
  | _ => False
  end.
Proof.
  assert (W : WF ex_climb_top) by apply build_WF. split; [exact W|]. split; [|vm_compute; split; reflexivity].
  assert (HR : tr_root ex_climb_top = 3) by (vm_compute; reflexivity). rewrite HR. split.
  - eexists. split; [vm_compute; reflexivity|vm_compute; reflexivity].
  - exists 0. eexists. split; [vm_compute; reflexivity|]. apply (reached_up _ _ ex_climb_top 1 0 3 W).
    + apply PE_of_children. vm_compute. reflexivity.
    + intros (nt & E & _ & HB). assert (L : node_label <$> nodes ex_climb_top !! 1 = Some (lit "S")) by (vm_compute; reflexivity).
      rewrite E in L. injection L as L. rewrite L in HB. vm_compute in HB. discriminate HB.
    + lia.
    + apply reached_parent; [exact W|]. apply PE_of_children. vm_compute. reflexivity.
Qed.
