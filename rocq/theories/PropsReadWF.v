(** C39: exactly which sentences give well-formed trees. *)
From Coq Require Import Lia.
From Verif Require Import NegraModel TreeSpec BaseProofs SpanProofs ShapeProofs GraphProofs SortProofs TreeOps PtbSpec PtbBuild NegraSpec NegraStep NegraRead NegraAccept NegraWF PropsNegra PropsRead.
Local Arguments lit : simpl never.

(** ** Every line leaves an edge of its own *)
Definition line_edge_of (b : builder) (a : nline) (r : erec) : Prop :=
  match a with NLine id _ _ _ _ _ => b_idx b !! id = Some (e_tgt r) | TLine _ _ _ _ => True end.
Lemma stepped_idx b a b' : B0 b -> stepped b a b' -> forall i m, b_idx b !! i = Some m -> b_idx b' !! i = Some m.
Proof.
  intros B (_ & _ & Hst). destruct a as [tm edge pid sec|id label ann edge pid sec].
  - destruct Hst as (_ & _ & _ & _ & _ & _ & n & p & e & Hn & Hgr & _).
    refine (proj1 (proj2 (proj2 (proj2 (grown_live b _ pid p _ _ _ Hgr))))).
    intros i m Hi. destruct (b0_idx _ B _ _ Hi) as [nt Hm]. exists nt. rewrite lookup_insert_ne; [done|congruence].
  - destruct Hst as (_ & _ & _ & _ & n & nt & p & e & sp & N' & Hid & Hn & Hgr & _).
    refine (proj1 (proj2 (proj2 (proj2 (grown_live b _ pid p _ _ _ Hgr))))).
    intros i m Hi. destruct (decide (m = n)) as [->|Hne]; [rewrite lookup_insert; eauto|].
    rewrite lookup_insert_ne by done. by eapply b0_idx.
Qed.
Lemma steps_edges id meta b0 body als b : fresh id meta b0 -> steps b0 body als b ->
  B0 b /\ Forall2 (line_edge_of b) als (reverse (bedges b)).
Proof.
  intros F Hs. induction Hs as [b|b body b1 als l a b2 Hs IH Hp Hst].
  - split; [by eapply fresh_B0|]. destruct F as [_ _ -> _ _]. constructor.
  - destruct (IH F) as [B H]. split; [by eapply stepped_B0|]. pose proof (stepped_idx _ _ _ B Hst) as Hi.
    assert (H' : Forall2 (line_edge_of b2) als (reverse (bedges b1))).
    { eapply Forall2_impl; [exact H|]. intros [tm e p s|k lab ann e p s] r; simpl; [done|apply Hi]. }
    destruct Hst as (_ & _ & Hst). destruct a as [tm edge pid sec|k label ann edge pid sec].
    + destruct Hst as (_ & _ & _ & _ & _ & _ & n & p & e & Hn & Hgr & HE & _).
      rewrite HE, reverse_cons. apply Forall2_app; [done|]. by repeat constructor.
    + destruct Hst as (_ & _ & _ & _ & n & nt & p & e & sp & N' & Hid & Hn & Hgr & HE & _).
      rewrite HE, reverse_cons. apply Forall2_app; [done|]. constructor; [|constructor]. simpl. by apply Hi.
Qed.
Lemma WF_own_ok b als t : B0 b -> Forall2 (line_edge_of b) als (reverse (bedges b)) -> finished b t -> WF t -> own_ok als.
Proof.
  intros B HF (nt & new & Hd & Hk & H0 & _ & Hr & Hnt & _ & HN & HE & Hnew & Hall) W.
  assert (Hin : forall i r, reverse (bedges b) !! i = Some r -> r ∈ edges t /\ is_primary (e_w r) = true).
  { intros i r Hi. apply elem_of_list_lookup_2 in Hi. apply elem_of_reverse in Hi. rewrite reverse_involutive in Hi. split; [rewrite HE; apply elem_of_app; by right|].
    by apply (b0_leaf _ B r Hi). }
  split.
  - intros i j a a' k Hi Hj Ha Ha'.
    destruct (Forall2_lookup_l _ _ _ _ _ HF Hi) as (r & Hri & Er). destruct (Forall2_lookup_l _ _ _ _ _ HF Hj) as (r' & Hrj & Er').
    destruct a as [|k1 lab1 ann1 e1 p1 s1]; [done|]. destruct a' as [|k2 lab2 ann2 e2 p2 s2]; [done|].
    injection Ha as ->. injection Ha' as ->. simpl in Er, Er'.
    destruct (Hin _ _ Hri) as [I1 P1]. destruct (Hin _ _ Hrj) as [I2 P2].
    assert (r = r') as <-. { apply (sh_uniq _ _ _ (wf_shape _ W)); try done. congruence. }
    assert (ND : NoDup (reverse (bedges b))) by (rewrite reverse_Permutation; apply edges_nodup, B).
    eapply NoDup_lookup; [exact ND|exact Hri|exact Hrj].
  - intros a Ha Ho. apply elem_of_list_lookup in Ha as [i Hi]. destruct (Forall2_lookup_l _ _ _ _ _ HF Hi) as (r & Hri & Er).
    destruct a as [|k1 lab1 ann1 e1 p1 s1]; [done|]. injection Ho as ->. simpl in Er. rewrite (b0_root _ B) in Er. injection Er as Er.
    destruct (Hin _ _ Hri) as [I1 P1]. apply (sh_root_top _ _ _ (wf_shape _ W) (e_src r)). exists r. rewrite Hr. split_and!; congruence.
Qed.

(** ** The span of a nonterminal is made from the children whose lines come before its own *)
Definition SI (b : builder) (als : list nline) (ns : list nat) : Prop :=
  forall i id label ann e p s n, als !! i = Some (NLine id label ann e p s) -> ns !! i = Some n ->
    p = id \/ exists nt, bnodes b !! n = Some (NT nt) /\
      forall x, covers (nt_span nt) x -> exists k a c w, k < i /\ als !! k = Some a /\ line_pid a = id /\
        ns !! k = Some c /\ bnodes b !! c = Some w /\ covers (node_span w) x.
Lemma old_nodes r0 b als ns a b' n : CI r0 b als ns -> own_ok (als ++ [a]) -> stepped b a b' -> CI r0 b' (als ++ [a]) (ns ++ [n]) ->
  forall k m w, ns !! k = Some m -> bnodes b !! m = Some w -> bnodes b' !! m = Some w.
Proof.
  intros I O Hst I'. apply own_ok_snoc in O as (O & Onew & Ozero). pose proof (ci_B0 _ _ _ _ I) as B.
  destruct Hst as (_ & _ & Hst). destruct a as [tm edge pid sec|id label ann edge pid sec].
  - destruct Hst as (_ & _ & _ & _ & _ & _ & n0 & p & e & Hn & Hgr & _). intros k m w _ Hm.
    refine (proj1 (grown_live b _ pid p _ _ _ Hgr) m w _); [|rewrite lookup_insert_ne; [done|congruence]].
    intros i m' Hi. destruct (b0_idx _ B _ _ Hi) as [nt Hm']. exists nt. rewrite lookup_insert_ne; [done|congruence].
  - destruct Hst as (_ & _ & _ & _ & n0 & nt & p & e & sp & N' & Hid & Hn & Hgr & _ & _ & _ & _ & HN & _).
    intros k m w Hk Hm. assert (Hne : m <> n0).
    { intros ->. assert (is_Some (als !! k)) as [a Ha]. { apply lookup_lt_is_Some_2. rewrite <- (ci_len _ _ _ _ I). by eapply lookup_lt_Some. }
      destruct a as [tm e' p' s'|id' lab' ann' e' p' s'].
      - destruct (ci_T _ _ _ _ I _ _ _ _ _ _ Ha Hk) as [Hx _]. congruence.
      - destruct (ci_N _ _ _ _ I _ _ _ _ _ _ _ _ Ha Hk) as [Hx _]. assert (id' = id) as -> by (by eapply (ci_inj _ _ _ _ I)).
        apply (Onew (NLine id lab' ann' e' p' s') id); [by eapply elem_of_list_lookup_2|done|done]. }
    rewrite HN, lookup_insert_ne by done.
    refine (proj1 (grown_live b _ pid p _ _ _ Hgr) m w _); [|by rewrite lookup_insert_ne].
    intros i m' Hi. destruct (decide (m' = n0)) as [->|Hx]; [rewrite lookup_insert; eauto|].
    rewrite lookup_insert_ne by done. by eapply b0_idx.
Qed.
Lemma SI_step r0 b als ns a b' n : CI r0 b als ns -> own_ok (als ++ [a]) -> stepped b a b' -> CI r0 b' (als ++ [a]) (ns ++ [n]) ->
  SI b als ns -> SI b' (als ++ [a]) (ns ++ [n]).
Proof.
  intros I O Hst I' HS. pose proof (old_nodes _ _ _ _ _ _ _ I O Hst I') as Hold.
  pose proof (ci_len _ _ _ _ I) as HL. intros i id label ann e p s m Hi Hm. apply lookup_snoc_Some in Hi as [[Hlt Hi]|[-> ->]].
  - rewrite lookup_app_l in Hm by lia. destruct (HS _ _ _ _ _ _ _ _ Hi Hm) as [->|(nt & Hnt & Hc)]; [by left|right].
    exists nt. split; [by eapply Hold|]. intros x (k & a' & c & w & Hk & Ha & Hpid & Hc' & Hw & Hx)%Hc. exists k, a', c, w.
    split_and!; [done|by apply lookup_app_l_Some|done|by apply lookup_app_l_Some|by eapply Hold|done].
  - rewrite lookup_app_r, HL, Nat.sub_diag in Hm by lia. injection Hm as ->.
    destruct (decide (p = id)) as [->|Hself]; [by left|right].
    assert (Hl : (als ++ [NLine id label ann e p s]) !! length als = Some (NLine id label ann e p s)) by (by apply list_lookup_middle).
    assert (Hln : (ns ++ [m]) !! length als = Some m) by (apply list_lookup_middle; lia).
    destruct (ci_N _ _ _ _ I' _ _ _ _ _ _ _ _ Hl Hln) as (Hidx & _).
    pose proof (stepped_idx _ _ _ (ci_B0 _ _ _ _ I) Hst) as Hmono.
    destruct Hst as (_ & _ & _ & _ & _ & _ & n0 & nt & q & e0 & sp & N' & Hid & Hn & Hgr & HE & _ & _ & Hcov & HN & _).
    assert (n0 = m) as -> by (apply Hmono in Hid; congruence).
    exists (nt_set_span (named nt label ann) sp). split; [by rewrite HN, lookup_insert|].
    intros x (c & w & (r & Hr & Hpr & Hs & Ht) & Hw & Hx)%Hcov.
    destruct (proj1 (ci_edges _ _ _ _ I' m c (e_w r))) as (k & a & Ha & Hc & _ & Hp); [exists r; done|].
    assert (line_pid a = id) as Hpid by (by eapply (ci_inj _ _ _ _ I')).
    pose proof Ha as Ha0. apply lookup_snoc_Some in Ha as [[Hlt Ha]|[-> <-]]; [|done].
    exists k, a, c, w. split_and!; [done|done|done|done| |done].
    rewrite HN, lookup_insert_ne; [done|]. intros <-. assert (k = length als); [|lia].
    pose proof Hc as Hc0. destruct a as [tm e1 p1 s1|id1 lab1 ann1 e1 p1 s1].
    + destruct (ci_T _ _ _ _ I' _ _ _ _ _ _ Ha0 Hc0) as [Hy _]. rewrite HN, lookup_insert in Hy. done.
    + destruct (ci_N _ _ _ _ I' _ _ _ _ _ _ _ _ Ha0 Hc0) as [Hy _]. assert (id1 = id) as -> by (by eapply (ci_inj _ _ _ _ I')).
      eapply (proj1 O); [exact Ha0|exact Hl|done|done].
Qed.
Lemma steps_SI id meta b0 body als b : fresh id meta b0 -> steps b0 body als b -> own_ok als ->
  exists ns, CI (root_nt id meta) b als ns /\ SI b als ns.
Proof.
  intros F Hs. induction Hs as [b|b body b1 als l a b2 Hs IH Hp Hst]; intros O.
  - exists []. split; [by apply CI_fresh|]. intros i id' label ann e p s n Hi. done.
  - pose proof (proj1 (own_ok_snoc _ _ O)) as O'. destruct (IH F O') as (ns & I & HS).
    destruct (CI_step _ _ _ _ _ _ I O Hst) as [n I']. exists (ns ++ [n]). split; [done|]. by eapply SI_step.
Qed.

(** ** A well-formed tree comes from a bottom-up sentence *)
Lemma WF_order b als ns r0 t : CI r0 b als ns -> own_ok als -> SI b als ns -> finished b t -> WF t ->
  forall i j a a' id, als !! i = Some a -> als !! j = Some a' -> line_own a = Some id -> line_pid a' = id -> j < i.
Proof.
  intros I O HS (nt0 & new & Hd & Hk & H0 & _ & Hr & Hnt & _ & HN & HE & Hnew & Hall) W i j a a' id Hi Hj Ho Hp.
  pose proof (wf_shape _ W) as Sh. destruct a as [|id0 label ann e p s]; [done|]. injection Ho as ->.
  assert (Hns : forall i a, als !! i = Some a -> exists n, ns !! i = Some n).
  { intros i0 a0 H. apply lookup_lt_is_Some_2. rewrite (ci_len _ _ _ _ I). by eapply lookup_lt_Some. }
  destruct (Hns _ _ Hi) as [n Hn]. destruct (Hns _ _ Hj) as [c Hc].
  assert (Hz : forall k, ns !! k <> Some 0).
  { intros k Hz. assert (is_Some (als !! k)) as [x Hx]. { apply lookup_lt_is_Some_2. rewrite <- (ci_len _ _ _ _ I). by eapply lookup_lt_Some. }
    destruct x as [tm e' p' s'|id' lab' ann' e' p' s'].
    - destruct (ci_T _ _ _ _ I _ _ _ _ _ _ Hx Hz) as [Hy _]. rewrite (ci_root _ _ _ _ I) in Hy. done.
    - destruct (ci_N _ _ _ _ I _ _ _ _ _ _ _ _ Hx Hz) as [Hy _].
      assert (id' = 0) as -> by (eapply (ci_inj _ _ _ _ I); [exact Hy|apply (ci_B0 _ _ _ _ I)]).
      eapply (proj2 O); [by eapply elem_of_list_lookup_2|done]. }
  assert (Hlk : forall k m, ns !! k = Some m -> nodes t !! m = bnodes b !! m).
  { intros k m Hm. rewrite HN, lookup_insert_ne; [done|]. intros <-. by apply Hz in Hm. }
  destruct (ci_N _ _ _ _ I _ _ _ _ _ _ _ _ Hi Hn) as (Hidx & _).
  assert (Hedge : forall k x m, als !! k = Some x -> ns !! k = Some m -> line_pid x = id -> PE (edges t) n m).
  { intros k x m Hx Hm Hpx. destruct (proj2 (ci_edges _ _ _ _ I n m (Primary (line_edge x)))) as (r & Hin & E1 & E2 & E3).
    { exists k, x. split_and!; [done|done|done|congruence]. }
    exists r. split; [rewrite HE; apply elem_of_app; by right|]. rewrite E3. done. }
  destruct (decide (j < i)) as [|Hge]; [done|exfalso].
  destruct (HS _ _ _ _ _ _ _ _ Hi Hn) as [->|(nt & Hnt' & Hcov)].
  { by apply (PE_irrefl Sh n), (Hedge i (NLine id label ann e id s)). }
  pose proof (Hedge _ _ _ Hj Hc Hp) as Hpc.
  destruct (dominates_terminal Sh c) as (m & tm & Hcm & Hm); [by apply (sh_live _ _ _ Sh n c)|].
  destruct (to_pos _ _ (wf_terms _ W) m tm Hm) as (x & Hx & _).
  assert (Hy : yields (nodes t) (edges t) n x).
  { exists m. split; [by eapply rtc_l|]. by exists tm. }
  assert (Hnt2 : nodes t !! n = Some (NT nt)) by (by rewrite (Hlk _ _ Hn)).
  apply (proj2 (wf_nts _ W n nt Hnt2) x) in Hy. destruct (Hcov x Hy) as (k & a2 & c2 & w & Hki & Ha2 & Hp2 & Hc2 & Hw & Hx2).
  pose proof (Hedge _ _ _ Ha2 Hc2 Hp2) as Hpc2. rewrite <- (Hlk _ _ Hc2) in Hw.
  assert (Dom (edges t) c2 m).
  { destruct w as [nt2|tm2].
    - apply (proj2 (wf_nts _ W c2 nt2 Hw) x) in Hx2 as (m2 & Hd2 & Ht2).
      rewrite (to_inj _ _ (wf_terms _ W) m m2 x); [done| |done]. by exists tm.
    - destruct (to_pos _ _ (wf_terms _ W) c2 tm2 Hw) as (x2 & Hx3 & _). simpl in Hx2. rewrite Hx3 in Hx2. apply covers_singleton in Hx2 as ->.
      rewrite (to_inj _ _ (wf_terms _ W) m c2 x2); [done| |]; [by exists tm|by exists tm2]. }
  assert (c2 = c) as -> by (by apply (sibling_disjoint Sh n c2 c m)).
  assert (ND : k = j); [|lia]. destruct (sh_live _ _ _ Sh n c Hpc) as [_ [wc Hwc]]. rewrite (Hlk _ _ Hc) in Hwc.
  destruct a' as [tmj ej pj sj|idj labj annj ej pj sj], a2 as [tmk ek pk sk|idk labk annk ek pk sk].
  - destruct (ci_T _ _ _ _ I _ _ _ _ _ _ Hj Hc) as [E1 E2]. destruct (ci_T _ _ _ _ I _ _ _ _ _ _ Ha2 Hc2) as [E3 E4].
    rewrite E1 in E3. injection E3 as <-. rewrite E2 in E4. by injection E4.
  - destruct (ci_T _ _ _ _ I _ _ _ _ _ _ Hj Hc) as [E1 E2]. destruct (ci_N _ _ _ _ I _ _ _ _ _ _ _ _ Ha2 Hc2) as (_ & ? & E3 & _). congruence.
  - destruct (ci_N _ _ _ _ I _ _ _ _ _ _ _ _ Hj Hc) as (_ & ? & E3 & _). destruct (ci_T _ _ _ _ I _ _ _ _ _ _ Ha2 Hc2) as [E1 E2]. congruence.
  - destruct (ci_N _ _ _ _ I _ _ _ _ _ _ _ _ Hj Hc) as (E1 & _). destruct (ci_N _ _ _ _ I _ _ _ _ _ _ _ _ Ha2 Hc2) as (E2 & _).
    assert (idj = idk) as -> by (by eapply (ci_inj _ _ _ _ I)). eapply (proj1 O); done.
Qed.
(** A delivered tree is well-formed exactly when the nonterminals of its sentence have one line each,
    after the lines of their children, and the root has none. *)
Theorem C39_wf_exact ls rs t : negra_read ls = Ret rs -> Ok t ∈ rs ->
  exists bos body eos, block_in ls bos body eos /\ negra_read (Some bos :: map Some body ++ [Some eos]) = Ret [Ok t] /\
    (WF t <-> bottom_up body).
Proof.
  rewrite negra_read_run. intros H Hin.
  destruct (run_Ok ls rs t H Hin) as (bos & body & eos & als & b & Hb & Hs & Ht & Hrun).
  exists bos, body, eos. split; [done|]. rewrite negra_read_run. split; [done|]. split; cycle 1.
  - intros Hbu. assert (O : ordered als).
    { destruct Hs as (_ & _ & ? & ? & ? & _ & _ & Hs). by eapply bottom_up_ordered; [eapply steps_lines|]. }
    destruct (started_BI _ _ _ _ Hs O) as (id & meta & L & _ & _ & HI).
    destruct (try_into_tree_spec b (trim eos) (bi_B0 _ _ _ _ HI)) as [_ Hfin]; [apply starts_eos; apply Hb|].
    destruct (Hfin t Ht) as [_ Hf]. by eapply BI_finished.
  - intros W. destruct Hs as (_ & _ & k & meta & b0 & Hh & Hf & Hs).
    destruct (steps_edges _ _ _ _ _ _ Hf Hs) as [B HE].
    destruct (try_into_tree_spec b (trim eos) B) as [_ Hfin]; [apply starts_eos; apply Hb|].
    destruct (Hfin t Ht) as [_ Hfi]. pose proof (WF_own_ok _ _ _ B HE Hfi W) as O.
    destruct (steps_SI _ _ _ _ _ _ Hf Hs O) as (ns & I & HS).
    pose proof (WF_order _ _ _ _ _ I O HS Hfi W) as HO. pose proof (steps_parsed _ _ _ _ Hs) as HF.
    assert (Hals : forall i l, body !! i = Some l -> exists a, als !! i = Some a /\ parsed l a).
    { intros i a Hi. destruct (Forall2_lookup_l _ _ _ _ _ HF Hi) as (l & Hl & Hp). eauto. }
    split_and!.
    + intros i j l l' id Hi Hj Hl Hl'. destruct (Hals _ _ Hi) as (a & Ha & Hp). destruct (Hals _ _ Hj) as (a' & Ha' & Hp').
      rewrite (parsed_own _ _ Hp) in Hl. rewrite (parsed_own _ _ Hp') in Hl'. eapply (proj1 O); done.
    + intros l Hl. apply elem_of_list_lookup in Hl as [i Hi]. destruct (Hals _ _ Hi) as (a & Ha & Hp). rewrite (parsed_own _ _ Hp).
      apply (proj2 O). by eapply elem_of_list_lookup_2.
    + intros i j l l' id Hi Hj Hl Hl'. destruct (Hals _ _ Hi) as (a & Ha & Hp). destruct (Hals _ _ Hj) as (a' & Ha' & Hp').
      rewrite (parsed_own _ _ Hp) in Hl. rewrite (parsed_pid _ _ Hp') in Hl'. injection Hl' as Hl'. eapply HO; done.
Qed.
(** Both sides occur: a bottom-up sentence and one in which a parent comes first. *)
Example C39_exact_ex :
  (bottom_up ex_body /\ one_tree (ex_bos :: ex_body ++ [ex_eos]) = true) /\
  (exists t, negra_read (map Some [lit "#BOS 1"; lit "a -- A -- -- 500"; lit "b -- B -- -- 501"; lit "#501 -- Y -- -- 0"; lit "#500 -- X -- -- 501"; lit "#EOS 1"]) = Ret [Ok t]) /\
  ~ bottom_up [lit "a -- A -- -- 500"; lit "b -- B -- -- 501"; lit "#501 -- Y -- -- 0"; lit "#500 -- X -- -- 501"].
Proof.
  split; [split; [exact (proj2 ex_body_ok)|by vm_compute]|]. split; [eexists; vm_compute; reflexivity|].
  intros (_ & _ & H). assert (3 < 2); [|lia].
  apply (H 2 3 (lit "#501 -- Y -- -- 0") (lit "#500 -- X -- -- 501") 501); by vm_compute.
Qed.
