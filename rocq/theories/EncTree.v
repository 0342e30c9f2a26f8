(** The encodings of a projective tree, on the graph and on its reading. *)
From Coq Require Import Lia ZArith.
From Verif Require Import EncModel TreeSpec BaseProofs ShapeProofs GraphProofs SortProofs RoseSpec RoseProofs
  TreeOps AnnotProofs PtbPrint EncSpec EncConv PropsTree.

Lemma common_label_full nt : common_label nt = full_label nt.
Proof. done. Qed.
Lemma chain_of_in w : chain_of w = chain_in (node_feats w).
Proof. done. Qed.

(** *** The climb *)
Lemma common_climb_found fuel t i n l s k :
  WF t -> is_projective t = true -> is_Some (nodes t !! n) -> upath (edges t) n l -> length l <= fuel ->
  common_climb fuel t i (parent t n) (Some s) k = Ret (Ok (Some (s, k + length l))).
Proof.
  intros W Hp Hn Hl. pose proof (wf_shape _ W) as Sh. revert fuel k.
  induction Hl as [n Ht|n p l Hpn Hl IH]; intros fuel k Hf.
  - rewrite (proj2 (parent_None t n Sh) Ht). destruct fuel; simpl; by rewrite Nat.add_0_r.
  - destruct (proj1 (parent_PE t n p Sh) Hpn) as [e ->]. destruct fuel as [|fuel]; [simpl in Hf; lia|].
    destruct (PE_src_nt Sh _ _ Hpn) as [nt Hnt].
    cbn [common_climb climber_next]. rewrite (node_at_Some _ _ _ Hnt). cbn [mbind outcome_bind].
    rewrite (proj_no_gap t p _ W Hp Hnt).
    rewrite bool_decide_eq_false_2 by done. rewrite Bool.andb_false_r.
    rewrite IH; [|eauto|simpl in Hf; lia]. simpl. do 4 f_equal. lia.
Qed.

Lemma common_climb_spec fuel t i n l :
  WF t -> is_projective t = true -> is_Some (nodes t !! n) -> upath (edges t) n l -> length l <= fuel ->
  (common_climb fuel t i (parent t n) None 0 = Ret (Ok None) /\
   forall q, q ∈ l -> ~ yields (nodes t) (edges t) q (S i)) \/
  exists l1 p l2 nt, l = l1 ++ p :: l2 /\ nodes t !! p = Some (NT nt) /\ upath (edges t) p l2 /\
    yields (nodes t) (edges t) p (S i) /\ (forall q, q ∈ l1 -> ~ yields (nodes t) (edges t) q (S i)) /\
    common_climb fuel t i (parent t n) None 0 = Ret (Ok (Some (full_label nt, S (length l2)))).
Proof.
  intros W Hp Hn Hl. pose proof W as [G Sh Tm Nt Nd]. revert fuel.
  induction Hl as [n Ht|n p l Hpn Hl IH]; intros fuel Hf.
  - left. rewrite (proj2 (parent_None t n Sh) Ht). split; [by destruct fuel|set_solver].
  - destruct (proj1 (parent_PE t n p Sh) Hpn) as [e ->]. destruct fuel as [|fuel]; [simpl in Hf; lia|].
    destruct (PE_src_nt Sh _ _ Hpn) as [nt Hnt].
    destruct (node_span_ok _ _ _ _ _ _ Sh Tm Nt Hnt) as [_ HC].
    cbn [common_climb climber_next]. rewrite (node_at_Some _ _ _ Hnt). cbn [mbind outcome_bind].
    rewrite (proj_no_gap t p _ W Hp Hnt). rewrite Nat.add_1_r.
    rewrite bool_decide_eq_true_2 by done. rewrite Bool.andb_true_r. cbn [node_nonterminal].
    destruct (span_contains (node_span (NT nt)) (S i)) eqn:E.
    + right. exists [], p, l, nt. split_and!; [done|done|done|by apply HC|set_solver|].
      rewrite (common_climb_found fuel t i p l (common_label nt) 1 W Hp ltac:(eauto) Hl ltac:(simpl in Hf; lia)). done.
    + assert (Hny : ~ yields (nodes t) (edges t) p (S i)).
      { intros Hy. apply HC in Hy. unfold covers in Hy. congruence. }
      destruct (IH ltac:(eauto) fuel ltac:(simpl in Hf; lia)) as [[H1 H2]|(l1 & q & l2 & nt' & H1 & H2 & H3 & H4 & H5 & H6)].
      * left. split; [done|]. intros q [->|Hq]%elem_of_cons; [done|by apply H2].
      * right. exists (p :: l1), q, l2, nt'. split_and!; [by rewrite H1|done..| |done].
        intros q' [->|Hq]%elem_of_cons; [done|by apply H5].
Qed.

(** *** The common ancestor *)
Lemma get_common_spec t n i :
  WF t -> is_projective t = true -> term_pos (nodes t) n i ->
  (S i < tr_nterm t -> exists p nt k, lca (nodes t) (edges t) p i (S i) /\ level (edges t) p k /\
     nodes t !! p = Some (NT nt) /\ get_common t n = Ret (Ok (Some (full_label nt, k)))) /\
  (~ S i < tr_nterm t -> get_common t n = Ret (Ok None)).
Proof.
  intros W Hp Hpos. pose proof W as [G Sh Tm Nt Nd]. destruct Hpos as (tm & Htm & Hs).
  assert (Hpos : term_pos (nodes t) n i) by (by exists tm).
  destruct (upath_exists Sh n ltac:(eauto)) as [l Hl].
  assert (Hg : get_common t n = common_climb (climb_fuel t) t i (parent t n) None 0).
  { unfold get_common. rewrite (node_at_Some _ _ _ Htm). cbn [mbind outcome_bind node_span]. by rewrite Hs. }
  rewrite Hg. clear Hg.
  assert (Hni : yields (nodes t) (edges t) n i) by (exists n; by split).
  assert (Hnn : ~ yields (nodes t) (edges t) n (S i)).
  { intros Hy. apply (yields_term Sh n tm _ Htm) in Hy. rewrite Hs in Hy. injection Hy. lia. }
  destruct (common_climb_spec (climb_fuel t) t i n l W Hp ltac:(eauto) Hl (climb_fuel_ok t n l Sh ltac:(eauto) Hl))
    as [[H1 H2]|(l1 & p & l2 & nt & H1 & H2 & H3 & H4 & H5 & H6)].
  - split; [|done]. intros Hlt. exfalso.
    destruct (to_surj _ _ Tm (S i) Hlt) as [m Hm].
    assert (Hr : yields (nodes t) (edges t) (tr_root t) (S i)).
    { exists m. split; [|done]. apply (sh_reach _ _ _ Sh). destruct Hm as (tm' & Hm & _). eauto. }
    destruct (decide (n = tr_root t)) as [E|Hne]; [by rewrite <- E in Hr|].
    apply (H2 (tr_root t)); [|done].
    pose proof (upath_root Sh n l ltac:(eauto) Hl Hne) as Hlast. by apply last_Some_elem_of in Hlast.
  - split.
    + intros _. exists p, nt, (S (length l2)).
      assert (Hpn : tc (PE (edges t)) p n). { apply (upath_elem Sh n l p Hl). rewrite H1. set_solver. }
      split_and!; [|by exists l2|done|done]. split_and!.
      * eapply yields_Dom; [by apply tc_rtc|done].
      * done.
      * intros q Hqi Hqj.
        assert (Hqn : Dom (edges t) q n).
        { destruct Hqi as (m & Hm & Hmi). by rewrite (to_inj _ _ Tm m n i Hmi Hpos) in Hm. }
        destruct (Dom_comparable Sh q p n Hqn (tc_rtc _ _ Hpn)) as [?|Hpq]; [done|].
        assert (q ≠ n) by (intros ->; done).
        apply rtc_tc in Hqn as [->|Hqn]; [done|]. apply (upath_elem Sh n l q Hl) in Hqn.
        rewrite H1 in Hqn. apply elem_of_app in Hqn as [Hq|[->|Hq]%elem_of_cons]; [by apply H5 in Hq|done|].
        by apply tc_rtc, (upath_elem Sh p l2 q H3).
    + intros Hnlt. exfalso. destruct H4 as (m & _ & Hm). destruct Hm as (tm' & Hm & Hs').
      destruct (to_pos _ _ Tm m tm' Hm) as (j & Hj & Hlt). rewrite Hs' in Hj. injection Hj. lia.
Qed.

(** What entry [i] says. *)
Definition entry_at (t : tree) (i : nat) (o : option (str * nat)) : Prop :=
  (S i < tr_nterm t /\ exists p nt k, lca (nodes t) (edges t) p i (S i) /\ level (edges t) p k /\
     nodes t !! p = Some (NT nt) /\ o = Some (full_label nt, k)) \/
  (~ S i < tr_nterm t /\ o = None).
Lemma get_common_entry t n i :
  WF t -> is_projective t = true -> term_pos (nodes t) n i ->
  exists o, get_common t n = Ret (Ok o) /\ entry_at t i o.
Proof.
  intros W Hp Hpos. destruct (get_common_spec t n i W Hp Hpos) as [H1 H2].
  destruct (decide (S i < tr_nterm t)) as [Hlt|Hge].
  - destruct (H1 Hlt) as (p & nt & k & ? & ? & ? & ?). eexists. split; [done|]. left. split; [done|]. by exists p, nt, k.
  - exists None. split; [by apply H2|]. by right.
Qed.
Lemma lca_unique t p q i j : shape_ok (nodes t) (edges t) (tr_root t) ->
  lca (nodes t) (edges t) p i j -> lca (nodes t) (edges t) q i j -> p = q.
Proof. intros Sh (H1 & H2 & H3) (G1 & G2 & G3). apply (Dom_antisym Sh); auto. Qed.
Lemma level_unique t p k1 k2 : shape_ok (nodes t) (edges t) (tr_root t) ->
  level (edges t) p k1 -> level (edges t) p k2 -> k1 = k2.
Proof. intros Sh (l1 & H1 & ->) (l2 & H2 & ->). by rewrite (upath_unique Sh p l1 l2). Qed.
Lemma entry_at_fun t i o1 o2 : shape_ok (nodes t) (edges t) (tr_root t) ->
  entry_at t i o1 -> entry_at t i o2 -> o1 = o2.
Proof.
  intros Sh [(L1 & p & nt & k & H1 & H2 & H3 & ->)|[L1 ->]] [(L2 & p' & nt' & k' & H1' & H2' & H3' & ->)|[L2 ->]]; try done.
  assert (p' = p) as -> by (eapply lca_unique; eauto). rewrite H3 in H3'. injection H3' as ->.
  by rewrite (level_unique t p k k' Sh).
Qed.

(** *** The absolute encoding *)
Lemma encode_abs_loop_spec t : WF t -> is_projective t = true -> forall l acc,
  (forall n, n ∈ l -> exists i, term_pos (nodes t) n i) ->
  exists e, encode_abs_loop t l acc = Ret (Ok (acc ++ e)) /\
    Forall2 (fun n x => exists i tm o, term_pos (nodes t) n i /\ nodes t !! n = Some (T tm) /\ entry_at t i o /\
       x = ((fun '(c, k) => mk_abs k c) <$> o, chain_in (t_feats tm))) l e.
Proof.
  intros W Hp. induction l as [|n l IH]; intros acc Hl; cbn [encode_abs_loop].
  - exists []. by rewrite app_nil_r.
  - destruct (Hl n ltac:(set_solver)) as [i Hpos]. pose proof Hpos as (tm & Htm & _).
    destruct (get_common_entry t n i W Hp Hpos) as (o & -> & Ho). cbn [mbind outcome_bind].
    rewrite (node_at_Some _ _ _ Htm). cbn [mbind outcome_bind].
    destruct (IH (acc ++ [((fun '(c, k) => mk_abs k c) <$> o, chain_of (T tm))])) as (e & He & HF).
    { intros m Hm. apply Hl. set_solver. }
    eexists (_ :: e). split; [rewrite He; by rewrite <- app_assoc|]. constructor; [|done].
    exists i, tm, o. split_and!; done.
Qed.
Lemma encode_absolute_graph t :
  WF t -> is_projective t = true ->
  exists e, encode_absolute t = Ret (Ok e) /\ length e = tr_nterm t /\
    forall i n tm, term_pos (nodes t) n i -> nodes t !! n = Some (T tm) ->
      exists o, entry_at t i o /\ e !! i = Some ((fun '(c, k) => mk_abs k c) <$> o, chain_in (t_feats tm)).
Proof.
  intros W Hp. pose proof W as [G Sh Tm Nt Nd]. unfold encode_absolute. rewrite Hp. cbn [negb].
  destruct (sentence_sorted t G Tm) as [HL HS]. set (sent := sort_indices t (terminals t)) in *. clearbody sent.
  destruct (encode_abs_loop_spec t W Hp sent []) as (e & He & HF).
  { intros n [i Hi]%elem_of_list_lookup. exists i. by apply HS. }
  exists e. split_and!; [done|by rewrite <- (Forall2_length _ _ _ HF)|].
  intros i n tm Hpos Htm. apply HS in Hpos as Hi. destruct (Forall2_lookup_l _ _ _ _ _ HF Hi) as (x & Hx & i' & tm' & o & P & Q & R & ->).
  rewrite (term_pos_inj _ _ _ _ P Hpos) in R. rewrite Htm in Q. injection Q as ->. by exists o.
Qed.
Lemma encode_absolute_err t : is_projective t = false -> encode_absolute t = Ret Err.
Proof. intros Hp. unfold encode_absolute. by rewrite Hp. Qed.

(** *** The reading *)
Definition gap_at (t : tree) (i : nat) (a : abs_anc) : Prop :=
  exists p nt k, lca (nodes t) (edges t) p i (S i) /\ level (edges t) p k /\ nodes t !! p = Some (NT nt) /\
    a = mk_abs k (full_label nt).

Lemma interleave_gaps (P : nat -> abs_anc -> Prop) (x : abs_anc) (f : rose -> list abs_anc) cs : forall lo m,
  concat (map (fun c : option str * rose => map t_idx (leaves c.2)) cs) = seq lo m ->
  Forall (fun c => leaves c.2 <> []) cs ->
  Forall (fun c => forall a k, map t_idx (leaves c.2) = seq a k -> Forall2 P (seq a (k - 1)) (f c.2)) cs ->
  (forall c1 c2 i rest pre, cs = pre ++ c1 :: c2 :: rest -> i ∈ map t_idx (leaves c1.2) -> S i ∈ map t_idx (leaves c2.2) -> P i x) ->
  Forall2 P (seq lo (m - 1)) (interleave x (map (fun c => f c.2) cs)).
Proof.
  induction cs as [|c cs IH]; intros lo m HC HN HF HB.
  - simpl in HC. destruct m; [constructor|done].
  - apply Forall_cons in HN as [Hc HN], HF as [Hf HF]. destruct cs as [|c2 cs].
    + simpl in *. rewrite app_nil_r in HC. by apply Hf.
    + set (rest := c2 :: cs) in *. cbn [map concat] in HC.
      assert (HE : map t_idx (leaves c.2) = seq lo (length (leaves c.2)) /\
                   concat (map (fun c => map t_idx (leaves c.2)) rest) = seq (lo + length (leaves c.2)) (m - length (leaves c.2))
                   /\ length (leaves c.2) < m).
      { pose proof (f_equal length HC) as El. rewrite app_length, map_length, seq_length in El.
        assert (0 < length (concat (map (fun c => map t_idx (leaves c.2)) rest))).
        { unfold rest. simpl. rewrite app_length, map_length. inversion HN; subst. destruct (leaves c2.2); [done|simpl; lia]. }
        replace m with (length (leaves c.2) + (m - length (leaves c.2))) in HC by lia.
        rewrite seq_app in HC. apply app_inj_1 in HC as [A B]; [|by rewrite map_length, seq_length].
        split_and!; [done|done|lia]. }
      destruct HE as (E1 & E2 & Hlt). set (k := length (leaves c.2)) in *.
      assert (Hk : 0 < k) by (unfold k; destruct (leaves c.2); [done|simpl; lia]).
      change (interleave x (map (fun c => f c.2) (c :: rest))) with (f c.2 ++ x :: interleave x (map (fun c => f c.2) rest)).
      replace (m - 1) with ((k - 1) + S (m - k - 1)) by lia. rewrite seq_app. apply Forall2_app; [by apply Hf|].
      cbn [seq]. replace (S (lo + (k - 1))) with (lo + k) by lia. constructor.
      * apply (HB c c2 _ cs []); [done| |].
        -- rewrite E1. apply elem_of_seq. lia.
        -- replace (S (lo + (k - 1))) with (lo + k) by lia.
           assert (Hh : head (map t_idx (leaves c2.2)) = Some (lo + k)).
           { pose proof (f_equal head E2) as Eh. unfold rest in Eh. cbn [map concat] in Eh.
             inversion HN as [|? ? Hc2]; subst. destruct (leaves c2.2) as [|z zs]; [done|].
             simpl in *. destruct (m - k) eqn:Em; [lia|]. simpl in Eh. done. }
           by apply head_Some_elem_of in Hh.
      * apply IH; [exact E2|done|done|]. intros c1 c2' i rs pre Heq. apply (HB c1 c2' i rs (c :: pre)).
        rewrite Heq. done.
Qed.

Lemma leaves_nonnil t n r : WF t -> Den (nodes t) (edges t) n r -> leaves r <> [].
Proof.
  intros W D. destruct (dominates_terminal (wf_shape _ W) n (Den_live _ _ _ _ D)) as (m & tm & H1 & H2).
  intros E. pose proof (proj2 (Den_leaves t n r W D tm) (ex_intro _ m (conj H1 H2))) as Hin. rewrite E in Hin. set_solver.
Qed.

Lemma gaps_spec t n r :
  WF t -> is_projective t = true -> Den (nodes t) (edges t) n r ->
  forall d lo k, level (edges t) n (S d) -> map t_idx (leaves r) = seq lo k -> Forall2 (gap_at t) (seq lo (k - 1)) (gaps d r).
Proof.
  intros W Hp. pose proof W as [G Sh Tm Nt Nd]. revert n r.
  apply (Den_ind' (nodes t) (edges t) (fun n r => forall d lo k, level (edges t) n (S d) -> map t_idx (leaves r) = seq lo k -> Forall2 (gap_at t) (seq lo (k - 1)) (gaps d r))).
  - intros n tm H d lo k _ E. simpl in E. destruct k as [|[|k]]; simpl in *; [done|constructor|done].
  - intros n nt l cs H1 H2 H3 H4 d lo k Hlev E.
    assert (Hch : forall j c, cs !! j = Some c -> exists r, l !! j = Some r /\ PE (edges t) n (e_tgt r) /\ Den (nodes t) (edges t) (e_tgt r) c.2 /\
        forall d lo k, level (edges t) (e_tgt r) (S d) -> map t_idx (leaves c.2) = seq lo k -> Forall2 (gap_at t) (seq lo (k - 1)) (gaps d c.2)).
    { intros j c Hc. destruct (Forall2_lookup_r _ _ _ _ _ H4 Hc) as (r & Hr & _ & D & I). exists r. split_and!; try done.
      apply elem_of_list_lookup_2, H2 in Hr as (R1 & R2 & R3). by exists r. }
    cbn [gaps]. apply (interleave_gaps (gap_at t) (mk_abs (S d) (full_label nt)) (gaps (S d))).
    + rewrite <- E. cbn [leaves]. clear. induction cs as [|c cs IH]; [done|]. simpl. by rewrite map_app, IH.
    + apply Forall_lookup_2. intros j c Hc. destruct (Hch j c Hc) as (r & _ & _ & D & _). by eapply leaves_nonnil.
    + apply Forall_lookup_2. intros j c Hc a m Ha. destruct (Hch j c Hc) as (r & _ & P & D & I). apply I; [|done].
      destruct Hlev as (up & Hup & Heq). exists (n :: up). split; [by econstructor|]. simpl. lia.
    + intros c1 c2 i rest pre -> Hi1 Hi2.
      destruct (Hch (length pre) c1) as (r1 & L1 & P1 & D1 & _); [by rewrite list_lookup_middle|].
      destruct (Hch (S (length pre)) c2) as (r2 & L2 & P2 & D2 & _).
      { rewrite lookup_app_r by lia. by replace (S (length pre) - length pre) with 1 by lia. }
      apply (Den_yields t _ _ W D1) in Hi1. apply (Den_yields t _ _ W D2) in Hi2.
      exists n, nt, (S d). split_and!; [|done|done|done]. split_and!.
      * eapply yields_Dom; [|exact Hi1]. by apply rtc_once.
      * eapply yields_Dom; [|exact Hi2]. by apply rtc_once.
      * intros q Q1 Q2.
        assert (Hc : Dom (edges t) q n \/ Dom (edges t) n q).
        { destruct Q1 as (m & Hm & Hmi), Hi1 as (m' & Hm' & Hmi'). rewrite (to_inj _ _ Tm m' m i Hmi' Hmi) in Hm'.
          apply (Dom_comparable Sh q n m Hm). eapply rtc_l; [exact P1|done]. }
        destruct Hc as [?|Hc]; [done|]. apply rtc_inv in Hc as [->|(c & Pc & Hcq)]; [done|]. exfalso.
        pose proof (yields_sibling Sh Tm n c (e_tgt r1) i Pc P1 (yields_Dom _ _ _ Hcq Q1) Hi1) as E1.
        pose proof (yields_sibling Sh Tm n c (e_tgt r2) (S i) Pc P2 (yields_Dom _ _ _ Hcq Q2) Hi2) as E2.
        pose proof (sorted_targets_inj (nodes t) l _ _ _ _ H3 L1 L2 ltac:(congruence)). lia.
Qed.
