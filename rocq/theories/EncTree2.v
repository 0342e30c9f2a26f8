(** The encodings in terms of the reading; the relative encoding; annotations. *)
From Coq Require Import Lia ZArith.
From Verif Require Import EncModel TreeSpec BaseProofs ShapeProofs GraphProofs SortProofs EditProofs RoseSpec RoseProofs
  TreeOps AnnotProofs PtbPrint EncSpec EncConv EncTree.

(** The leaves of a projective tree are in sentence order. *)
Lemma Reads_positions t r :
  WF t -> is_projective t = true -> Reads t r -> map t_idx (leaves r) = seq 0 (tr_nterm t).
Proof.
  intros W Hp D. pose proof W as [G Sh Tm Nt Nd]. destruct (Den_tight t _ r W Hp D) as [_ HS].
  apply (ssorted_eq (fun x => x)); [done|apply seq_ssorted|]. intros i.
  rewrite <- (Den_yields t _ r W D i), elem_of_seq. split.
  - intros (m & _ & tm & Hm & Hs). destruct (to_pos _ _ Tm m tm Hm) as (j & Hj & ?). rewrite Hs in Hj. injection Hj. lia.
  - intros [_ Hi]. destruct (to_surj _ _ Tm i ltac:(lia)) as [m Hm]. exists m. split; [|done].
    apply (sh_reach _ _ _ Sh). destruct Hm as (tm & Hm & _). eauto.
Qed.
Lemma root_level t : shape_ok (nodes t) (edges t) (tr_root t) -> level (edges t) (tr_root t) 1.
Proof. intros Sh. exists []. split; [|done]. constructor. apply (sh_root_top _ _ _ Sh). Qed.
Lemma nterm_pos t : WF t -> 0 < tr_nterm t.
Proof.
  intros [G Sh Tm Nt Nd]. destruct (dominates_terminal Sh _ (sh_root _ _ _ Sh)) as (m & tm & _ & H).
  destruct (to_pos _ _ Tm m tm H) as (i & _ & ?). lia.
Qed.
Lemma leaf_at t r i n tm :
  WF t -> is_projective t = true -> Reads t r -> term_pos (nodes t) n i -> nodes t !! n = Some (T tm) ->
  leaves r !! i = Some tm.
Proof.
  intros W Hp D Hpos Htm. pose proof W as [G Sh Tm Nt Nd].
  pose proof (Reads_positions t r W Hp D) as E.
  destruct Hpos as (tm' & Htm' & Hs). rewrite Htm in Htm'. injection Htm' as <-.
  assert (Hi : i < tr_nterm t). { destruct (to_pos _ _ Tm n tm Htm) as (j & Hj & ?). rewrite Hs in Hj. injection Hj. lia. }
  assert (Hex : map t_idx (leaves r) !! i = Some i). { rewrite E. by apply lookup_seq. }
  rewrite list_lookup_fmap in Hex. destruct (leaves r !! i) as [x|] eqn:Ex; [|done]. simpl in Hex. injection Hex as Hx.
  apply elem_of_list_lookup_2 in Ex as Hin. apply (Den_leaves t _ r W D) in Hin as (m & _ & Hm).
  destruct (term_pos_of _ _ _ _ Tm Hm) as (Hpm & _). fold (t_idx x) in Hpm. rewrite Hx in Hpm.
  assert (m = n) as -> by (apply (to_inj _ _ Tm m n i); [done|by exists tm]). congruence.
Qed.

Lemma gaps_length t r : WF t -> is_projective t = true -> Reads t r -> length (gaps 0 r) = tr_nterm t - 1.
Proof.
  intros W Hp D. pose proof (gaps_spec t _ r W Hp D 0 0 _ (root_level t (wf_shape _ W)) (Reads_positions t r W Hp D)) as HF.
  apply Forall2_length in HF. by rewrite seq_length in HF.
Qed.
Lemma encode_absolute_rose t r :
  WF t -> is_projective t = true -> Reads t r -> encode_absolute t = Ret (Ok (rose_enc r)).
Proof.
  intros W Hp D. pose proof W as [G Sh Tm Nt Nd]. pose proof (nterm_pos t W) as Hpos.
  destruct (encode_absolute_graph t W Hp) as (e & -> & HL & HE). do 2 f_equal.
  pose proof (Reads_positions t r W Hp D) as Hpo.
  pose proof (gaps_spec t _ r W Hp D 0 0 _ (root_level t Sh) Hpo) as HF.
  pose proof (gaps_length t r W Hp D) as Hgl.
  assert (Hll : length (leaves r) = tr_nterm t). { apply (f_equal length) in Hpo. by rewrite map_length, seq_length in Hpo. }
  apply list_eq_same_length with (n := tr_nterm t); [|done|].
  { unfold rose_enc. rewrite zip_with_length, app_length, !map_length, Hgl, Hll. simpl. lia. }
  intros i x y Hi Hx Hy.
  destruct (to_surj _ _ Tm i Hi) as [n Hn]. pose proof Hn as (tm & Htm & _).
  destruct (HE i n tm Hn Htm) as (o & Ho & Hx'). rewrite Hx in Hx'. injection Hx' as ->.
  pose proof (leaf_at t r i n tm W Hp D Hn Htm) as Hleaf.
  unfold rose_enc in Hy. apply lookup_zip_with_Some in Hy as (a & b & -> & Ha & Hb).
  rewrite list_lookup_fmap, Hleaf in Hb. simpl in Hb. injection Hb as <-. f_equal.
  destruct Ho as [(Hlt & p & nt & k & H1 & H2 & H3 & ->)|[Hge ->]]; simpl.
  - rewrite lookup_app_l in Ha by (rewrite map_length, Hgl; lia).
    rewrite list_lookup_fmap in Ha. destruct (gaps 0 r !! i) as [g|] eqn:Eg; [|done]. simpl in Ha. injection Ha as <-.
    destruct (Forall2_lookup_r _ _ _ _ _ HF Eg) as (j & Hj & p' & nt' & k' & H1' & H2' & H3' & ->).
    apply lookup_seq in Hj as [-> _]. simpl in H1'.
    assert (p' = p) as -> by (eapply lca_unique; eauto). rewrite H3 in H3'. injection H3' as ->.
    by rewrite (level_unique t p k k' Sh).
  - rewrite lookup_app_r in Ha by (rewrite map_length, Hgl; lia). rewrite map_length, Hgl in Ha.
    replace (i - (tr_nterm t - 1)) with 0 in Ha by lia. by injection Ha as <-.
Qed.

(** *** Depths are at most the number of nodes *)
Lemma level_bound t p k : WF t -> is_Some (nodes t !! p) -> level (edges t) p k -> 1 <= k <= size (nodes t).
Proof.
  intros W Hp (l & Hl & ->). pose proof (upath_length (wf_shape _ W) p l Hp Hl). lia.
Qed.
(** Small trees: the number of nodes is an [isize] (petgraph's indices are [u32]). *)
Definition small (t : tree) : Prop := (Z.of_nat (size (nodes t)) < Z.of_N isize_bound)%Z.

Lemma encode_absolute_depths t e :
  WF t -> encode_absolute t = Ret (Ok e) ->
  depths_pos e /\ (small t -> depths_repr e).
Proof.
  intros W He. destruct (is_projective t) eqn:Hp; [|by rewrite encode_absolute_err in He].
  destruct (encode_absolute_graph t W Hp) as (e' & He' & HL & HE). rewrite He in He'. injection He' as <-.
  assert (Hk : forall a u, (Some a, u) ∈ e -> 1 <= ab_common a <= size (nodes t)).
  { intros a u [i Hi]%elem_of_list_lookup. apply lookup_lt_Some in Hi as Hlt. rewrite HL in Hlt.
    destruct (to_surj _ _ (wf_terms _ W) i Hlt) as [n Hn]. pose proof Hn as (tm & Htm & _).
    destruct (HE i n tm Hn Htm) as (o & Ho & Hx). rewrite Hi in Hx. injection Hx as Hx _.
    destruct Ho as [(_ & p & nt & k & H1 & H2 & H3 & ->)|[Hge ->]]; simpl in Hx; [|done].
    injection Hx as ->. simpl. eapply level_bound; eauto. }
  split.
  - intros a u Hin. apply (Hk a u Hin).
  - intros Hs a u Hin. pose proof (Hk a u Hin). unfold small in Hs. lia.
Qed.

(** *** The relative encoding *)
Lemma encode_loops t : WF t -> is_projective t = true -> small t -> forall l prev accR,
  (forall n, n ∈ l -> exists i, term_pos (nodes t) n i) -> (0 <= prev < Z.of_N isize_bound)%Z ->
  exists e r, (forall acc, encode_abs_loop t l acc = Ret (Ok (acc ++ e))) /\ rel_from_abs e prev = Ret r /\
    encode_rel_loop t l prev accR = Ret (Ok (accR ++ r)).
Proof.
  intros W Hp Hs. induction l as [|n l IH]; intros prev accR Hl Hpr.
  - exists [], []. cbn. split_and!; [intros; by rewrite app_nil_r|done|by rewrite app_nil_r].
  - destruct (Hl n ltac:(set_solver)) as [i Hpos]. pose proof Hpos as (tm & Htm & _).
    destruct (get_common_entry t n i W Hp Hpos) as (o & Hg & Ho).
    cbn [encode_rel_loop]. rewrite Hg. cbn [mbind outcome_bind].
    assert (Hl' : forall n0, n0 ∈ l -> exists i, term_pos (nodes t) n0 i) by (intros m Hm; apply Hl; set_solver).
    destruct Ho as [(Hlt & p & nt & k & H1 & H2 & H3 & ->)|[Hge ->]].
    + destruct (level_bound t p k W ltac:(eauto) H2) as [Hk1 Hk2].
      assert (Hk : as_isize k = Z.of_nat k) by (apply as_isize_small; unfold small in Hs; lia).
      assert (Hkb : (Z.of_nat k < Z.of_N isize_bound)%Z) by (unfold small in Hs; lia).
      destruct (IH (Z.of_nat k) (accR ++ [(Some (if Nat.eqb k 1 then RRoot (full_label nt) else RRegular (Z.of_nat k - prev) (full_label nt)), chain_of (T tm))]) Hl' ltac:(lia)) as (e & r & He & Hr & Hre).
      exists ((Some (mk_abs k (full_label nt)), chain_of (T tm)) :: e). eexists. split_and!.
      * intros acc. cbn [encode_abs_loop]. rewrite Hg. cbn [mbind outcome_bind].
        rewrite (node_at_Some _ _ _ Htm). cbn [mbind outcome_bind]. rewrite He. by rewrite <- app_assoc.
      * cbn [rel_from_abs ab_common ab_label]. rewrite Hk, isize_chk_ok by lia. cbn [mbind outcome_bind].
        rewrite Hr. reflexivity.
      * cbn [rel_of]. rewrite Hk, isize_chk_ok by lia. rewrite (node_at_Some _ _ _ Htm).
        destruct (Nat.eqb k 1); cbn [mbind outcome_bind]; rewrite Hre; by rewrite <- app_assoc.
    + destruct (IH prev (accR ++ [(None, chain_of (T tm))]) Hl' Hpr) as (e & r & He & Hr & Hre).
      exists ((None, chain_of (T tm)) :: e). eexists. split_and!.
      * intros acc. cbn [encode_abs_loop]. rewrite Hg. cbn [mbind outcome_bind].
        rewrite (node_at_Some _ _ _ Htm). cbn [mbind outcome_bind]. rewrite He. by rewrite <- app_assoc.
      * cbn [rel_from_abs]. rewrite Hr. reflexivity.
      * cbn [rel_of mbind outcome_bind]. rewrite (node_at_Some _ _ _ Htm). cbn [mbind outcome_bind].
        rewrite Hre; by rewrite <- app_assoc.
Qed.
Lemma encode_relative_spec t :
  WF t -> is_projective t = true -> small t ->
  exists e r, encode_absolute t = Ret (Ok e) /\ rel_from_abs e 0 = Ret r /\ encode_relative t = Ret (Ok r).
Proof.
  intros W Hp Hs. pose proof W as [G Sh Tm Nt Nd]. unfold encode_absolute, encode_relative. rewrite Hp. cbn [negb].
  destruct (sentence_sorted t G Tm) as [HL HS].
  destruct (encode_loops t W Hp Hs (sort_indices t (terminals t)) 0 []) as (e & r & He & Hr & Hre).
  { intros n [i Hi]%elem_of_list_lookup. exists i. by apply HS. }
  { pose proof bounds_pos. lia. }
  exists e, r. split_and!; [by rewrite He|done|done].
Qed.

(** *** Annotations *)
(** The climb looks at nonterminals only. *)
Lemma common_climb_ext fuel t N i : forall c o k,
  (forall p q, PE (edges t) p q -> N !! p = nodes t !! p) ->
  (forall p e, c = Some (p, e) -> exists q, PE (edges t) p q) ->
  common_climb fuel (set_N t N) i c o k = common_climb fuel t i c o k.
Proof.
  induction fuel as [|fuel IH]; intros c o k HN Hc; destruct c as [[p e]|]; try done.
  destruct (Hc p e eq_refl) as [q Hq].
  cbn [common_climb climber_next]. change (parent (set_N t N) p) with (parent t p).
  unfold node_at. change (g_nodes (tr_graph (set_N t N))) with N. rewrite (HN p q Hq).
  destruct (nodes t !! p) as [w|]; [|done]. cbn [unwrap mbind outcome_bind].
  destruct (sp_skips (node_span w)); [done|].
  destruct (if (span_contains (node_span w) (i + 1) && bool_decide (o = None))%bool then _ else _); [|done].
  apply IH; [done|]. intros p' e' Hp'. unfold parent in Hp'. apply fmap_Some in Hp' as (r & Hr & [= -> ->]).
  apply head_Some_elem_of in Hr. unfold in_edges in Hr. rewrite !elem_of_list_filter in Hr. exists p.
  exists r. naive_solver.
Qed.
Lemma get_common_ext t N n :
  (forall p q, PE (edges t) p q -> N !! p = nodes t !! p) -> N !! n = nodes t !! n -> size N = size (nodes t) ->
  get_common (set_N t N) n = get_common t n.
Proof.
  intros HN Hn Hsz. unfold get_common, node_at. change (g_nodes (tr_graph (set_N t N))) with N. rewrite Hn.
  destruct (nodes t !! n) as [w|]; [|done]. cbn [unwrap mbind outcome_bind].
  unfold climb_fuel, node_count. change (g_nodes (tr_graph (set_N t N))) with N. rewrite Hsz.
  apply common_climb_ext; [done|]. unfold climber_new. change (parent (set_N t N) n) with (parent t n).
  intros p' e' Hp'. unfold parent in Hp'. apply fmap_Some in Hp' as (r & Hr & [= -> ->]).
  apply head_Some_elem_of in Hr. unfold in_edges in Hr. rewrite !elem_of_list_filter in Hr. exists n.
  exists r. naive_solver.
Qed.

(** Only the features of terminals change. *)
Definition annotated_with (t : tree) (k : str) (ss : nat -> str -> Prop) (N : gmap nat node) : Prop :=
  (forall n nt, nodes t !! n = Some (NT nt) -> N !! n = Some (NT nt)) /\
  (forall n, nodes t !! n = None -> N !! n = None) /\
  (forall n tm i, nodes t !! n = Some (T tm) -> term_pos (nodes t) n i ->
     exists s, ss i s /\ N !! n = Some (T (featured tm k s))).

(** Invariant of the annotation loops: nonterminals and the nodes still to do are as before. *)
Record ann_inv (t : tree) (l : list nat) (N : gmap nat node) : Prop := {
  ai_nt : forall n nt, nodes t !! n = Some (NT nt) -> N !! n = Some (NT nt);
  ai_todo : forall n, n ∈ l -> N !! n = nodes t !! n;
  ai_dom : dom N = dom (nodes t)
}.
Lemma ann_inv_common t l N n :
  WF t -> ann_inv t l N -> n ∈ l -> get_common (set_N t N) n = get_common t n.
Proof.
  intros W [A1 A2 A3] Hn. apply get_common_ext.
  - intros p q Hpq. destruct (PE_src_nt (wf_shape _ W) p q Hpq) as [nt Hnt]. by rewrite Hnt, (A1 p nt Hnt).
  - by apply A2.
  - by rewrite <- !size_dom, A3.
Qed.
Lemma ann_inv_step t n l N tm :
  NoDup (n :: l) -> nodes t !! n = Some (T tm) -> ann_inv t (n :: l) N -> forall tm', ann_inv t l (<[n := T tm']> N).
Proof.
  intros Hnd Htm [A1 A2 A3] tm'. apply NoDup_cons in Hnd as [Hn Hnd]. constructor.
  - intros m nt Hm. rewrite lookup_insert_ne by (intros ->; congruence). by apply A1.
  - intros m Hm. rewrite lookup_insert_ne by set_solver. apply A2. set_solver.
  - rewrite dom_insert_L, A3. assert (n ∈ dom (nodes t)) by (apply elem_of_dom; eauto). set_solver.
Qed.

(** Tags of one terminal, absolute scale. *)
Definition abs_tag (x : option abs_anc * option str) : str := tag_string (abs_to_string <$> x.1) x.2.
Definition rel_tag (x : option rel_anc * option str) : str := tag_string (rel_to_string <$> x.1) x.2.

Lemma annotate_abs_loop_spec t : WF t -> is_projective t = true -> forall l N,
  (forall n, n ∈ l -> exists i, term_pos (nodes t) n i) -> NoDup l -> ann_inv t l N ->
  exists e N', (forall acc, encode_abs_loop t l acc = Ret (Ok (acc ++ e))) /\
    annotate_abs_loop (set_N t N) l = Ret (set_N t N', Ok ()) /\ ann_inv t [] N' /\
    (forall m, m ∉ l -> N' !! m = N !! m) /\
    Forall2 (fun n x => exists tm, nodes t !! n = Some (T tm) /\ N' !! n = Some (T (featured tm ABS_KEY (abs_tag x)))) l e.
Proof.
  intros W Hp. induction l as [|n l IH]; intros N Hl Hnd HI.
  - exists [], N. cbn. split_and!; [intros; by rewrite app_nil_r|done|done|done|constructor].
  - destruct (Hl n ltac:(set_solver)) as [i Hpos]. pose proof Hpos as (tm & Htm & _).
    destruct (get_common_entry t n i W Hp Hpos) as (o & Hg & Ho).
    cbn [annotate_abs_loop]. rewrite (ann_inv_common t _ N n W HI) by set_solver. rewrite Hg. cbn [mbind outcome_bind].
    assert (HNn : N !! n = Some (T tm)) by (rewrite (ai_todo _ _ _ HI n) by set_solver; done).
    rewrite (node_at_set_N _ _ _ _ HNn). cbn [mbind outcome_bind]. rewrite put_set_N, node_insert_feat_T.
    set (s := tag_string _ _). set (x := ((fun '(c, k) => mk_abs k c) <$> o, chain_of (T tm)) : option abs_anc * option str).
    assert (Hs : s = abs_tag x). { unfold s, abs_tag, x. simpl. by destruct o as [[c k]|]. }
    destruct (IH (<[n := T (featured tm ABS_KEY s)]> N)) as (e & N' & He & Ha & HI' & Hout & HF).
    { intros m Hm. apply Hl. set_solver. }
    { by apply NoDup_cons in Hnd as []. }
    { by eapply ann_inv_step. }
    apply NoDup_cons in Hnd as [Hn Hnd].
    exists (x :: e), N'. split_and!; [|done|done| |].
    + intros acc. cbn [encode_abs_loop]. rewrite Hg. cbn [mbind outcome_bind].
      rewrite (node_at_Some _ _ _ Htm). cbn [mbind outcome_bind]. rewrite He. by rewrite <- app_assoc.
    + intros m Hm. rewrite Hout by set_solver. by rewrite lookup_insert_ne by set_solver.
    + constructor; [|done]. exists tm. split; [done|]. rewrite Hout by done. rewrite lookup_insert. by rewrite Hs.
Qed.

Lemma annotate_rel_loop_spec t : WF t -> is_projective t = true -> forall l prev accR N r,
  (forall n, n ∈ l -> exists i, term_pos (nodes t) n i) -> NoDup l -> ann_inv t l N ->
  encode_rel_loop t l prev accR = Ret (Ok (accR ++ r)) ->
  exists N', annotate_rel_loop (set_N t N) l prev = Ret (set_N t N', Ok ()) /\ ann_inv t [] N' /\
    (forall m, m ∉ l -> N' !! m = N !! m) /\
    Forall2 (fun n x => exists tm, nodes t !! n = Some (T tm) /\ N' !! n = Some (T (featured tm REL_KEY (rel_tag x)))) l r.
Proof.
  intros W Hp. induction l as [|n l IH]; intros prev accR N r Hl Hnd HI Hr.
  - cbn in Hr. injection Hr as Hr. assert (r = []) as ->. { symmetry in Hr. by apply app_nil_r_inv in Hr || (destruct r; [done|]; apply (f_equal length) in Hr; rewrite app_length in Hr; simpl in Hr; lia). }
    exists N. cbn. split_and!; [done|done|done|constructor].
  - destruct (Hl n ltac:(set_solver)) as [i Hpos]. pose proof Hpos as (tm & Htm & _).
    cbn [encode_rel_loop] in Hr. cbn [annotate_rel_loop]. rewrite (ann_inv_common t _ N n W HI) by set_solver.
    destruct (get_common_entry t n i W Hp Hpos) as (o & Hg & Ho). rewrite Hg in *. cbn [mbind outcome_bind] in *.
    destruct (rel_of prev o) as [[a prev']| |] eqn:Ero; [|done|done]. cbn [mbind outcome_bind] in *.
    rewrite (node_at_Some _ _ _ Htm) in Hr. cbn [mbind outcome_bind] in Hr.
    assert (HNn : N !! n = Some (T tm)) by (rewrite (ai_todo _ _ _ HI n) by set_solver; done).
    rewrite (node_at_set_N _ _ _ _ HNn). cbn [mbind outcome_bind]. rewrite put_set_N, node_insert_feat_T.
    set (x := (a, chain_of (T tm)) : option rel_anc * option str) in *. change (tag_string _ _) with (rel_tag x).
    assert (exists r', r = x :: r' /\ encode_rel_loop t l prev' (accR ++ [x]) = Ret (Ok ((accR ++ [x]) ++ r'))) as (r' & -> & Hr').
    { assert (Hpre : forall l prev acc res, encode_rel_loop t l prev acc = Ret (Ok res) -> exists r', res = acc ++ r').
      { clear. induction l as [|m l IH]; intros prev acc res; cbn [encode_rel_loop].
        - intros [= <-]. exists []. by rewrite app_nil_r.
        - destruct (get_common t m) as [[o|]| |]; try done. cbn [mbind outcome_bind].
          destruct (rel_of prev o) as [[a p']| |]; try done. cbn [mbind outcome_bind].
          destruct (node_at t m) as [w| |]; try done. cbn [mbind outcome_bind].
          intros (r' & ->)%IH. eexists. by rewrite <- app_assoc. }
      destruct (Hpre _ _ _ _ Hr) as [r' E]. rewrite <- app_assoc in E. apply app_inv_head in E. exists r'.
      split; [done|]. rewrite Hr. rewrite E. by rewrite <- app_assoc. }
    destruct (IH prev' (accR ++ [x]) (<[n := T (featured tm REL_KEY (rel_tag x))]> N) r') as (N' & Ha & HI' & Hout & HF).
    { intros m Hm. apply Hl. set_solver. }
    { by apply NoDup_cons in Hnd as []. }
    { by eapply ann_inv_step. }
    { done. }
    apply NoDup_cons in Hnd as [Hn Hnd].
    exists N'. split_and!; [done|done| |].
    + intros m Hm. rewrite Hout by set_solver. by rewrite lookup_insert_ne by set_solver.
    + constructor; [|done]. exists tm. split; [done|]. rewrite Hout by done. by rewrite lookup_insert.
Qed.

Lemma sentence_nodup t : graph_ok (tr_graph t) -> terms_ok (nodes t) (tr_nterm t) -> NoDup (sort_indices t (terminals t)).
Proof.
  intros G Tm. destruct (sentence_sorted t G Tm) as [HL HS]. apply NoDup_alt. intros i j n Hi Hj.
  apply HS in Hi, Hj. by apply (term_pos_inj (nodes t) n).
Qed.

Lemma annotate_absolute_spec t :
  WF t -> is_projective t = true ->
  exists e N, encode_absolute t = Ret (Ok e) /\ annotate_absolute t = Ret (set_N t N, Ok ()) /\
    annotated_with t ABS_KEY (fun i s => exists x, e !! i = Some x /\ s = abs_tag x) N.
Proof.
  intros W Hp. pose proof W as [G Sh Tm Nt Nd]. unfold encode_absolute, annotate_absolute. rewrite Hp. cbn [negb].
  destruct (sentence_sorted t G Tm) as [HL HS].
  destruct (annotate_abs_loop_spec t W Hp (sort_indices t (terminals t)) (nodes t)) as (e & N & He & Ha & HI & Hout & HF).
  { intros n [i Hi]%elem_of_list_lookup. exists i. by apply HS. }
  { by apply sentence_nodup. }
  { by constructor. }
  rewrite set_N_id in Ha. exists e, N. split_and!; [by rewrite He|done|]. split_and!.
  - apply HI.
  - intros n Hn. apply not_elem_of_dom. rewrite (ai_dom _ _ _ HI). by apply not_elem_of_dom.
  - intros n tm i Htm Hpos. apply HS in Hpos. destruct (Forall2_lookup_l _ _ _ _ _ HF Hpos) as (x & Hx & tm' & Htm' & HN).
    rewrite Htm in Htm'. injection Htm' as <-. exists (abs_tag x). split; [by exists x|done].
Qed.
Lemma annotate_relative_spec t :
  WF t -> is_projective t = true -> small t ->
  exists r N, encode_relative t = Ret (Ok r) /\ annotate_relative t = Ret (set_N t N, Ok ()) /\
    annotated_with t REL_KEY (fun i s => exists x, r !! i = Some x /\ s = rel_tag x) N.
Proof.
  intros W Hp Hs. pose proof W as [G Sh Tm Nt Nd]. destruct (encode_relative_spec t W Hp Hs) as (e & r & _ & _ & Hr).
  exists r. rewrite Hr. unfold encode_relative, annotate_relative in *. rewrite Hp in *. cbn [negb] in *.
  destruct (sentence_sorted t G Tm) as [HL HS].
  destruct (annotate_rel_loop_spec t W Hp (sort_indices t (terminals t)) 0 [] (nodes t) r) as (N & Ha & HI & Hout & HF).
  { intros n [i Hi]%elem_of_list_lookup. exists i. by apply HS. }
  { by apply sentence_nodup. }
  { by constructor. }
  { done. }
  rewrite set_N_id in Ha. exists N. split_and!; [done|done|]. split_and!.
  - apply HI.
  - intros n Hn. apply not_elem_of_dom. rewrite (ai_dom _ _ _ HI). by apply not_elem_of_dom.
  - intros n tm i Htm Hpos. apply HS in Hpos. destruct (Forall2_lookup_l _ _ _ _ _ HF Hpos) as (x & Hx & tm' & Htm' & HN).
    rewrite Htm in Htm'. injection Htm' as <-. exists (rel_tag x). split; [by exists x|done].
Qed.
Lemma annotate_err t : is_projective t = false -> annotate_absolute t = Ret (t, Err) /\ annotate_relative t = Ret (t, Err).
Proof. intros Hp. unfold annotate_absolute, annotate_relative. by rewrite Hp. Qed.
