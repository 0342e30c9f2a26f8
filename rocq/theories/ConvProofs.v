(** Proofs about the steps of the conversion tool. *)
From Coq Require Import Lia ZArith.
From Verif Require Import ConvModel TreeSpec BaseProofs SpanProofs ShapeProofs GraphProofs SortProofs ResetProofs NavProofs AnnotProofs CollapseProofs
  FilterProofs EncTree2 PropsTree PropsMod PropsMod2 PropsMod3 PropsDec2 PropsEnc PropsFeat Ordered ConvSpec.

(** *** Words are kept *)
Lemma kept_refl t : WF t -> kept t t.
Proof. by intros W. Qed.
Lemma kept_trans t1 t2 t3 : kept t1 t2 -> kept t2 t3 -> kept t1 t3.
Proof. intros (_ & A & B) (W & C & D). split; [done|]. split; [congruence|]. intros n. by rewrite D, B. Qed.
Lemma tword_pos N n i : term_pos N n i <-> exists f l, tword N n = Some (f, l, span_of i).
Proof.
  unfold term_pos, tword. split.
  - intros (tm & -> & ->). eauto.
  - intros (f & l & H). destruct (N !! n) as [[|tm]|]; try done. exists tm. by simplify_eq.
Qed.
Lemma kept_pos t t' n i : kept t t' -> term_pos (nodes t') n i <-> term_pos (nodes t) n i.
Proof. intros (_ & _ & H). rewrite !tword_pos. by rewrite H. Qed.
Lemma kept_ordered t t' : kept t t' -> ordered t -> ordered t'.
Proof. intros K O x y i j. rewrite !(kept_pos t t' _ _ K). apply O. Qed.
Lemma kept_T t t' n tm : kept t t' -> nodes t !! n = Some (T tm) -> exists tm', nodes t' !! n = Some (T tm').
Proof. intros (_ & _ & H) Hn. specialize (H n). unfold tword in H. rewrite Hn in H. destruct (nodes t' !! n) as [[|tm']|]; try done. eauto. Qed.

(** *** Projectivity *)
Definition nogap (t : tree) : Prop := forall n w, nodes t !! n = Some w -> ~ gappy w.
Lemma proj_iff t : WF t -> is_projective t = true <-> nogap t.
Proof. intros [G Sh Tm Nt Nd]. unfold is_projective. by rewrite Nat.eqb_eq, Nd, ndisc_of_zero. Qed.
Lemma nogap_nt t : WF t -> (forall n nt, nodes t !! n = Some (NT nt) -> ~ gappy (NT nt)) -> nogap t.
Proof.
  intros W H n [nt|tm] Hn; [by eapply H|]. destruct (to_pos _ _ (wf_terms _ W) _ _ Hn) as (i & Hi & _).
  unfold gappy. simpl. rewrite Hi. intros H'. by apply H'.
Qed.

(** *** The root as a terminal *)
Lemma bare_single t : WF t -> bare t -> forall n, is_Some (nodes t !! n) -> n = tr_root t.
Proof.
  intros W [tm Hr] n Hn. pose proof (sh_reach _ _ _ (wf_shape _ W) n Hn) as HD.
  apply rtc_inv in HD as [|(c & Hc & _)]; [done|]. by destruct (sh_leaf _ _ _ (wf_shape _ W) _ _ c Hr).
Qed.
Lemma bare_nterm t : WF t -> bare t -> tr_nterm t = 1.
Proof.
  intros W B. pose proof W as [G Sh Tm Nt Nd]. pose proof B as [tm Hr].
  destruct (to_pos _ _ Tm _ _ Hr) as (i & _ & Hi).
  destruct (decide (tr_nterm t = 1)) as [|Hne]; [done|exfalso].
  destruct (to_surj _ _ Tm 0) as (x & a & Hx & Ex); [lia|]. destruct (to_surj _ _ Tm 1) as (y & b & Hy & Ey); [lia|].
  assert (x = tr_root t) by (apply bare_single; eauto). assert (y = tr_root t) by (apply bare_single; eauto). subst.
  rewrite Hx in Hy. simplify_eq. rewrite Ex in Ey. by injection Ey.
Qed.
Lemma orphan_bare t : WF t -> (exists x tm, nodes t !! x = Some (T tm) /\ forall p, ~ PE (edges t) p x) <-> bare t.
Proof.
  intros W. pose proof W as [G Sh Tm Nt Nd]. split.
  - intros (x & tm & Hx & Hp). assert (x = tr_root t) as ->; [|by exists tm].
    pose proof (sh_reach _ _ _ Sh x ltac:(eauto)) as HD. apply rtc_inv_r in HD as [|(p & _ & H)]; [done|]. by destruct (Hp p).
  - intros [tm H]. exists (tr_root t), tm. split; [done|]. apply (sh_root_top _ _ _ Sh).
Qed.
Lemma not_bare_parent t : WF t -> ~ bare t -> forall x tm, nodes t !! x = Some (T tm) -> exists p, PE (edges t) p x.
Proof.
  intros W B x tm Hx. pose proof (sh_reach _ _ _ (wf_shape _ W) x ltac:(eauto)) as HD.
  apply rtc_inv_r in HD as [E|(p & _ & H)]; [|eauto]. subst. destruct B. by exists tm.
Qed.
Lemma not_bare_root t : WF t -> ~ bare t -> exists nt, nodes t !! tr_root t = Some (NT nt).
Proof. intros W B. destruct (sh_root _ _ _ (wf_shape _ W)) as [[nt|tm] Hw]; [eauto|]. destruct B. by exists tm. Qed.

(** *** The closures *)
Lemma label_test_spec P p t n : (forall l, p l = true <-> P l) -> label_test p t n = true <-> labelled t P n.
Proof.
  intros H. unfold label_test, labelled. destruct (nodes t !! n) as [w|] eqn:E; [|split; [done|by intros (w & ? & _)]].
  rewrite H. split; [eauto|]. intros (w' & ? & ?). by simplify_eq.
Qed.
Lemma label_test_local p t1 t2 n : nodes t1 !! n = nodes t2 !! n -> label_test p t1 n = label_test p t2 n.
Proof. unfold label_test. by intros ->. Qed.
Lemma matches_set s l : label_matches s l = true <-> in_set s l.
Proof. destruct s; simpl; [apply bool_decide_eq_true|]. by rewrite negb_true_iff, bool_decide_eq_false. Qed.

(** *** [--remove_dummies] *)
Lemma step_dummies_ok o t : WF t -> exists t', step_dummies o t = Ret (Ok t') /\ (if o_dummies o then undummied t t' else t' = t).
Proof.
  intros W. unfold step_dummies, or_exit. destruct (o_dummies o); [|eauto].
  destruct (C50_remove_dummy t W) as (t' & -> & H). exists t'. done.
Qed.
Lemma undummied_kept t t' : WF t -> undummied t t' -> kept t t'.
Proof.
  intros W (W' & HK & HN & HD). split; [done|]. split; [done|]. intros n. unfold tword.
  destruct (nodes t' !! n) as [[nt|tm]|] eqn:E'.
  - apply HN in E' as [-> _]. done.
  - apply HN in E' as [-> _]. done.
  - destruct (nodes t !! n) as [[nt|tm]|] eqn:E; try done. enough (nodes t' !! n = Some (T tm)) by congruence.
    apply HN. split; [done|]. by left.
Qed.
Lemma undummied_nogap t t' : undummied t t' -> nogap t -> nogap t'.
Proof. intros (W' & HK & HN & HD) H n w [Hn _]%HN. by eapply H. Qed.
Definition bare_after (o : options) (t : tree) : Prop :=
  tr_nterm t = 1 /\ forall n nt, nodes t !! n = Some (NT nt) -> o_dummies o = true /\ nt_label nt = lit "DUMMY".
Lemma dummies_bare o t t' : WF t -> (if o_dummies o then undummied t t' else t' = t) -> bare t' <-> bare_after o t.
Proof.
  intros W. pose proof W as [G Sh Tm Nt Nd]. unfold bare_after. destruct (o_dummies o).
  - intros U. pose proof U as (W' & HK & HN & HD). split.
    + intros B. pose proof (bare_nterm _ W' B). split; [congruence|]. intros n nt Hn. split; [done|].
      destruct (decide (nt_label nt = lit "DUMMY")) as [|Hl]; [done|exfalso].
      assert (Hn' : nodes t' !! n = Some (NT nt)) by (apply HN; split; [done|by left]).
      pose proof (bare_single t' W' B n ltac:(eauto)) as ->. destruct B as [tm Hr]. congruence.
    + intros [HK1 HD1]. destruct (sh_root _ _ _ (wf_shape _ W')) as [[nt|tm] Hr]; [exfalso|by exists tm].
      apply HN in Hr as [Hr [Hp|[E Hs]]]; [by apply Hp, (HD1 _ _ Hr)|]. apply Hs.
      destruct (to_surj _ _ Tm 0) as (x & a & Hx & Ex); [lia|]. exists x. split; [by exists (T a)|].
      intros y [nt'|b] Hy Py; [by destruct Py; apply (HD1 _ _ Hy)|].
      destruct (to_pos _ _ Tm _ _ Hy) as (j & Ej & Hj). assert (j = 0) by lia. subst.
      assert (x = y) as ->; [|done]. apply (to_inj _ _ Tm x y 0); [exists a|exists b]; done.
  - intros ->. split.
    + intros B. split; [by apply bare_nterm|]. intros n nt Hn.
      pose proof (bare_single t W B n ltac:(eauto)) as ->. destruct B as [tm Hr]. congruence.
    + intros [_ H]. destruct (sh_root _ _ _ Sh) as [[nt|tm] Hr]; [by destruct (H _ _ Hr)|by exists tm].
Qed.

(** *** [--projectivize] *)
Lemma reports_live t v t' (L : nat -> Prop) :
  PropsMod.steps t v t' -> (forall p w c, lparent t p w c -> L p /\ L c) ->
  Forall (fun r : report => L r.1.1 /\ L r.2) v.
Proof.
  induction 1 as [t|t p w c a t1 v t2 Hl HD Hpa Hca Hq Hst IH]; intros HL; constructor.
  - simpl. by eapply HL.
  - apply IH. intros q u d [(-> & -> & ->)|[_ H]]%Hq; [|by eapply HL]. split; [|by eapply HL].
    apply rtc_inv_r in HD as [E|(b & _ & r & Hr & P & <- & <-)]; [by subst|].
    eapply HL. split; [exact P|]. exists r. done.
Qed.
Lemma psame_refl' t : psame t t.
Proof. by constructor. Qed.
Lemma psame_trans' t1 t2 t3 : psame t1 t2 -> psame t2 t3 -> psame t1 t3.
Proof. intros [] []. constructor; congruence. Qed.
Lemma add_secs v : forall u, WF u -> Forall (fun r : report => is_Some (nodes u !! r.1.1) /\ is_Some (nodes u !! r.2)) v ->
  exists t', foldM (fun t (r : report) =>
                 let '(p, w, c) := r in '(t, _) ← add_secondary_edge t p c (Some (np_label w)); Ret t) v u = Ret t' /\ with_secs u v t'.
Proof.
  induction v as [|[[p w] c] v IH]; intros u W HL.
  - exists u. split; [done|]. split; [apply psame_refl'|]. split; [done|]. exists []. done.
  - inversion HL as [|? ? [Hp Hc] HL']; subst. simpl in Hp, Hc.
    destruct (add_secondary_edge_ok u p c (Some (np_label w)) W Hp Hc) as (u1 & e & H1 & W1 & P1 & E1).
    destruct (IH u1 W1) as (t' & H2 & P2 & W2 & es & HE & HF). { by rewrite (ps_nodes _ _ P1). }
    exists t'. split; [cbn [foldM]; rewrite H1; exact H2|].
    split; [by eapply psame_trans'|]. split; [done|]. exists (mk_e e p c (Secondary (Some (np_label w))) :: es). split.
    + rewrite HE, E1, reverse_cons, <- app_assoc. done.
    + constructor; [|done]. split_and!; try done. unfold np_label. simpl. by destruct w as [[l|]|[l|]].
Qed.
Lemma step_proj_ok choose o t : (forall k s, s <> ∅ -> choose k s ∈ s) -> WF t ->
  exists t', step_proj choose o t = Ret (Ok t') /\ spec_proj o t t' /\ kept t t' /\ tr_root t' = tr_root t /\ (bare t' <-> bare t) /\
    (o_proj o = true \/ nogap t -> nogap t') /\ dom (nodes t') = dom (nodes t).
Proof.
  intros HC W. unfold step_proj, spec_proj. destruct (o_proj o) eqn:EO.
  2:{ exists t. split_and!; try done. by intros [|]. }
  destruct (C20_projectivize choose t HC W) as [H1 H2]. destruct (is_projective t) eqn:EP.
  { rewrite (H1 eq_refl). exists t. split_and!; try done; [by left|]. intros _. by apply proj_iff. }
  destruct (H2 eq_refl) as (u & v & Hu & W1 & P1 & _ & NG & SB & SL & Rt & K & Hv). rewrite Hu. simpl.
  destruct (C21_reports choose t u v HC W Hu) as (HS & HI & _ & _).
  assert (PZ : projectivized t v u) by done.
  assert (HD : dom (nodes u) = dom (nodes t)).
  { destruct SB as (S1 & S2 & S3). apply set_eq. intros n. rewrite !elem_of_dom. destruct (nodes t !! n) as [[nt|tm]|] eqn:E.
    - destruct (S2 _ _ E) as [s ->]. split; by eexists.
    - apply S1 in E. rewrite E. split; by eexists.
    - by rewrite (S3 _ E). }
  assert (HK : kept t u).
  { split; [done|]. split; [done|]. intros n. unfold tword. destruct SB as (S1 & S2 & S3).
    destruct (nodes t !! n) as [[nt|tm]|] eqn:E; [by destruct (S2 _ _ E) as [s ->]|by apply S1 in E as ->|by rewrite (S3 _ E)]. }
  assert (HB : bare u <-> bare t).
  { unfold bare. rewrite Rt. split; intros [tm Htm]; exists tm; by apply SB. }
  destruct (o_sec o).
  - destruct (add_secs v u W1) as (t' & -> & HW).
    { assert (Forall (fun r : report => is_Some (nodes t !! r.1.1) /\ is_Some (nodes t !! r.2)) v) as HF.
      { eapply (reports_live t v u (fun n => is_Some (nodes t !! n))); [exact HS|]. intros p w c [P (r & Hr & <- & <- & <-)].
        apply (sh_live _ _ _ (wf_shape _ W)). by exists r. }
      eapply Forall_impl; [exact HF|]. simpl. intros r. by rewrite <- !elem_of_dom, HD. }
    exists t'. simpl. pose proof HW as (PS & W' & _). split_and!; try done.
    + right. split; [done|]. by exists v, u.
    + eapply kept_trans; [exact HK|]. split; [done|]. split; [apply PS|]. intros n. by rewrite (ps_nodes _ _ PS).
    + by rewrite (ps_root _ _ PS).
    + rewrite <- HB. unfold bare. by rewrite (ps_nodes _ _ PS), (ps_root _ _ PS).
    + intros _ n w. rewrite (ps_nodes _ _ PS). apply NG.
    + by rewrite (ps_nodes _ _ PS).
  - exists u. split_and!; try done. right. split; [done|]. by exists v, u.
Qed.

(** Steps that only touch features and tags of terminals. *)
Definition same_nts (t t' : tree) : Prop :=
  (forall n nt, nodes t' !! n = Some (NT nt) <-> nodes t !! n = Some (NT nt)) /\
  (forall n, nodes t' !! n = None <-> nodes t !! n = None).
Lemma same_nts_T t t' n tm : same_nts t t' -> nodes t !! n = Some (T tm) -> exists tm', nodes t' !! n = Some (T tm').
Proof.
  intros [H1 H2] Hn. destruct (nodes t' !! n) as [[nt|tm']|] eqn:E; [|eauto|].
  - apply H1 in E. congruence.
  - apply H2 in E. congruence.
Qed.
Lemma same_nts_kept t t' : WF t' -> tr_nterm t' = tr_nterm t -> same_nts t t' ->
  (forall n tm tm', nodes t !! n = Some (T tm) -> nodes t' !! n = Some (T tm') ->
     t_form tm' = t_form tm /\ t_lemma tm' = t_lemma tm /\ t_span tm' = t_span tm) -> kept t t'.
Proof.
  intros W K HS H. split; [done|]. split; [done|]. intros n. unfold tword. pose proof HS as [H1 H2].
  destruct (nodes t !! n) as [[nt|tm]|] eqn:E.
  - by apply H1 in E as ->.
  - destruct (same_nts_T _ _ _ _ HS E) as [tm' E']. rewrite E'. by destruct (H _ _ _ E E') as (-> & -> & ->).
  - by apply H2 in E as ->.
Qed.
Lemma same_nts_nogap t t' : WF t' -> same_nts t t' -> nogap t -> nogap t'.
Proof. intros W [H1 H2] H. apply nogap_nt; [done|]. intros n nt Hn%H1. by apply (H n). Qed.
Lemma same_nts_bare t t' : same_nts t t' -> tr_root t' = tr_root t -> bare t' <-> bare t.
Proof.
  intros HS E. unfold bare. rewrite E. split; [|intros [tm Ht]; by eapply same_nts_T].
  intros [tm Ht]. pose proof HS as [H1 H2]. destruct (nodes t !! tr_root t) as [[nt|tm']|] eqn:E0; [|eauto|].
  - apply H1 in E0. congruence.
  - apply H2 in E0. congruence.
Qed.
Lemma same_nts_dom t t' : same_nts t t' -> dom (nodes t') = dom (nodes t).
Proof.
  intros [H1 H2]. apply set_eq. intros n. rewrite !elem_of_dom. specialize (H2 n).
  destruct (nodes t !! n), (nodes t' !! n); split; try done; intros; exfalso; naive_solver.
Qed.
Lemma same_nts_set_N t N' :
  (forall n, (forall tm, nodes t !! n <> Some (T tm)) -> N' !! n = nodes t !! n) ->
  (forall n tm, nodes t !! n = Some (T tm) -> exists tm', N' !! n = Some (T tm')) -> same_nts t (set_N t N').
Proof.
  intros H1 H2. assert (forall n, (exists tm tm', nodes t !! n = Some (T tm) /\ N' !! n = Some (T tm')) \/
      (N' !! n = nodes t !! n)) as H.
  { intros n. destruct (nodes t !! n) as [[nt|tm]|] eqn:E.
    - right. rewrite <- E. apply H1. by rewrite E.
    - left. destruct (H2 _ _ E) as [tm' ?]. eauto.
    - right. rewrite <- E. apply H1. by rewrite E. }
  split; intros n; simpl; destruct (H n) as [(tm & tm' & -> & ->)| ->]; try done; split; congruence.
Qed.

(** *** [--pos] *)
Lemma terminals_sorted t : WF t -> ordered t -> sort_indices t (terminals t) = terminals t.
Proof.
  intros W O. pose proof W as [G Sh Tm Nt Nd]. destruct (sentence_sorted t G Tm) as [HL HS].
  destruct (terminals_index_order t G) as [HT HSo].
  assert (S1 : StronglySorted lt (sort_indices t (terminals t))).
  { assert (forall l k, (forall i n, l !! i = Some n -> term_pos (nodes t) n (k + i)) -> StronglySorted lt l) as HX.
    { induction l as [|a l IH]; intros k Hl; constructor.
      - apply (IH (S k)). intros i n Hi. replace (S k + i) with (k + S i) by lia. by apply Hl.
      - apply Forall_forall. intros b [i Hb]%elem_of_list_lookup.
        pose proof (Hl 0 a eq_refl) as Pa. pose proof (Hl (S i) b Hb) as Pb.
        destruct (Nat.lt_trichotomy a b) as [|[E|E]]; [done| |].
        + subst. destruct Pa as (x & Hx & Ex), Pb as (y & Hy & Ey). rewrite Hx in Hy. simplify_eq. rewrite Ex in Ey.
          injection Ey. lia.
        + pose proof (O b a _ _ Pb Pa E). lia. }
    apply (HX _ 0). intros i n Hi. by apply HS. }
  apply (ssorted_eq (fun n => n)); [done|done|]. intros n. rewrite HT. split.
  - intros [i Hi]%elem_of_list_lookup. apply HS in Hi as (tm & ? & _). eauto.
  - intros [tm Hn]. destruct (to_pos _ _ Tm _ _ Hn) as (i & Hi & _). eapply elem_of_list_lookup_2, HS. exists tm. done.
Qed.
Lemma mapM_tags s tags : mapM k_pos s = Some tags <-> tags_of s tags.
Proof. apply mapM_Some. Qed.
Lemma annotate_pos_ordered t tags : WF t -> ordered t ->
  exists t' r, annotate_pos t tags = Ret (t', r) /\ (r = Ok () <-> length tags = tr_nterm t) /\
    (r = Ok () -> sentence_tagged t tags t').
Proof.
  intros W O. pose proof W as [G Sh Tm Nt Nd]. destruct (sentence_sorted t G Tm) as [HL HS].
  destruct (C27_sentence_order_partial t tags (terminals t) W) as (t' & r & H1 & H2 & W' & H3).
  { by apply terminals_index_order. } { intros i n. rewrite <- terminals_sorted by done. apply HS. }
  exists t', r. split_and!; [done|apply H2..|]. intros Er. pose proof (proj1 H2 Er) as HLen.
  destruct (H3 Er) as (N' & -> & Ha & Hb).
  assert (HT : forall n i tm, term_pos (nodes t) n i -> nodes t !! n = Some (T tm) -> exists pos, tags !! i = Some pos /\
       N' !! n = Some (T (mk_term (t_form tm) pos (t_lemma tm) (t_feats tm) (t_span tm)))).
  { intros n i tm Hp Hn. assert (Hi : terminals t !! i = Some n). { rewrite <- terminals_sorted by done. by apply HS. }
    destruct (lookup_lt_is_Some_2 tags i) as [pos Hpos].
    { rewrite HLen, <- HL, terminals_sorted by done. by eapply lookup_lt_Some. }
    exists pos. split; [done|]. destruct (Hb i n pos Hi Hpos) as (tm1 & Htm1 & HN). simplify_eq. done. }
  assert (SN : same_nts t (set_N t N')).
  { apply same_nts_set_N.
    - intros n Hn. apply Ha. intros [tm Htm]%(elem_of_terminals t n G). by eapply Hn.
    - intros n tm Hn. destruct (to_pos _ _ Tm _ _ Hn) as (i & Hi & _). destruct (HT n i tm) as (pos & _ & E); [by exists tm|done|]. eauto. }
  split_and!; try done; apply SN.
Qed.
Lemma tagged_kept t tags t' : WF t -> sentence_tagged t tags t' -> kept t t' /\ same_nts t t'.
Proof.
  intros W (W' & E & R & K & H1 & H2 & H3). split; [|done]. apply same_nts_kept; try done.
  intros n tm tm' Hn Hn'. destruct (to_pos _ _ (wf_terms _ W) _ _ Hn) as (i & Hi & _).
  destruct (H3 n i tm) as (pos & _ & Hx); [by exists tm|done|]. rewrite Hx in Hn'. by simplify_eq.
Qed.

(** *** [--reattach] *)
Lemma step_reattach_ok o t : WF t -> (o_reattach o <> None -> 2 <= tr_nterm t) ->
  exists t', step_reattach o t = Ret (Ok t') /\ spec_reattach o t t'.
Proof.
  intros W HG. unfold step_reattach, spec_reattach. destruct (o_reattach o) as [p|]; simpl; [|eauto].
  specialize (HG ltac:(done)). pose proof W as [G Sh Tm Nt Nd].
  destruct (not_bare_root t W) as [nt Hr]. { intros B. pose proof (bare_nterm t W B). lia. }
  destruct (C25_reattach_terminals_partial t (tr_root t) nt (label_test (is_prefix p)) W Hr) as (t' & H1 & H2).
  - apply label_test_local.
  - intros y ([tm Hy] & _ & _). destruct (to_pos _ _ Tm _ _ Hy) as (i & Hi & _).
    destruct (to_surj _ _ Tm (if decide (i = 0) then 1 else 0)) as (z & tz & Hz & Ez); [case_decide; lia|].
    exists z, tz. split_and!; [done| |apply (sh_reach _ _ _ Sh); eauto].
    intros ->. rewrite Hz in Hy. simplify_eq. rewrite Ez in Hi. injection Hi. case_decide; lia.
  - rewrite H1. exists t'. split; [done|]. exists (label_test (is_prefix p)). split; [|done].
    intros t0 n. apply label_test_spec. intros l. apply is_prefix_spec.
Qed.
Lemma reattached_kept t t' a f : reattached t t' a f -> kept t t'.
Proof.
  intros (W' & Rt & K & HT & _ & HN & _). split; [done|]. split; [done|]. intros n. unfold tword.
  destruct (nodes t !! n) as [[nt|tm]|] eqn:E.
  - destruct (nodes t' !! n) as [[nt'|tm']|] eqn:E'; try done. apply HT in E'. congruence.
  - by apply HT in E as ->.
  - destruct (nodes t' !! n) as [[nt'|tm']|] eqn:E'; try done. apply HT in E'. congruence.
Qed.
Lemma reattached_live t t' a f n : reattached t t' a f -> is_Some (nodes t' !! n) -> is_Some (nodes t !! n).
Proof.
  intros (W' & Rt & K & HT & _ & HN & _) [[nt|tm] Hn]; [destruct (HN _ _ Hn) as (nt0 & -> & _)|apply HT in Hn as ->]; eauto.
Qed.

(** *** [--id_set] *)
Lemma step_ids_ok o t : WF t -> exists t', step_ids o t = Ret (Ok t') /\ opt (o_ids o) (fun s a b => numbered a (o_id_name o) s b) t t'.
Proof.
  intros W. unfold step_ids. destruct (o_ids o) as [s|]; simpl; [|eauto].
  set (f := fun t n => (Nat.eqb (tr_root t) n || label_test (label_matches s) t n)%bool).
  assert (Hf : forall u p, f u p = true <-> id_node u s p).
  { intros u p. unfold f, id_node. rewrite orb_true_iff, Nat.eqb_eq, (label_test_spec (in_set s)) by apply matches_set. naive_solver. }
  destruct (C29_ids t (o_id_name o) f W) as (N' & H1 & W' & Ha & Hb & Hc).
  { intros t' p nt HE HR HN Hp. unfold f. rewrite HR. unfold label_test. by rewrite Hp, (proj2 (HN p nt) Hp). }
  rewrite H1. exists (set_N t N'). split; [done|].
  assert (EC : forall n p, closest t (id_node t s) n p <-> closest t (fun p => f t p = true) n p).
  { intros n p. unfold closest. rewrite Hf. split; intros (A & B & C); (split_and!; [done..|]); intros q Hq Pq; apply C; try done; by apply Hf. }
  assert (EN : forall n, no_match t (id_node t s) n <-> no_match t (fun p => f t p = true) n).
  { intros n. unfold no_match. split; intros H q Hq Pq; apply (H q Hq); by apply Hf. }
  assert (SN : same_nts t (set_N t N')).
  { apply same_nts_set_N; [done|]. intros n tm Hn. destruct (Hb n tm Hn) as [Hx Hy].
    destruct (closest_dec t f n W ltac:(eauto)) as [[p Hp]|Hno].
    - destruct (Hx p Hp) as [i Hi]. eauto.
    - rewrite (Hy Hno). eauto. }
  split_and!; try done; try apply SN.
  - intros n tm Hn. destruct (Hb n tm Hn) as [Hx Hy]. split; [|by intros ?%EN; apply Hy]. intros p ?%EC. by apply (Hx p).
  - intros n n' p p' tm tm' i i' Hn Hn' Hp%EC Hp'%EC Hi Hi'. by apply (Hc n n' p p' tm tm' i i').
Qed.
Lemma featured_words tm k s : t_form (featured tm k s) = t_form tm /\ t_lemma (featured tm k s) = t_lemma tm /\ t_span (featured tm k s) = t_span tm.
Proof. done. Qed.
Lemma numbered_kept t k s t' : WF t -> numbered t k s t' -> kept t t' /\ same_nts t t'.
Proof.
  intros W (W' & E & R & K & H1 & H2 & H3 & _). split; [|done]. apply same_nts_kept; try done.
  intros n tm tm' Hn Hn'. destruct (H3 n tm Hn) as [Hx Hy].
  destruct (pick_spec t (fun t p => Nat.eqb (tr_root t) p || label_test (label_matches s) t p)%bool n W ltac:(eauto)) as [_ HP].
  assert (Hf : forall p, ((tr_root t =? p) || label_test (label_matches s) t p)%bool = true <-> id_node t s p).
  { intros p. unfold id_node. rewrite orb_true_iff, Nat.eqb_eq, (label_test_spec (in_set s)) by apply matches_set. naive_solver. }
  destruct (pick _ _ _) as [p|].
  - destruct (Hx p) as [i Hi]; [|rewrite Hi in Hn'; by simplify_eq].
    destruct HP as (A & B & C). split_and!; [done|by apply Hf|]. intros q Hq ?%Hf. by apply C.
  - rewrite Hy in Hn'; [by simplify_eq|]. intros q Hq ?%Hf. by apply (HP q).
Qed.

(** *** [--filter] *)
Lemma step_filter_ok o t : WF t -> exists t', step_filter o t = Ret (Ok t') /\ opt (o_filter o) (fun s a b => filtered a s b) t t'.
Proof.
  intros W. unfold step_filter, or_exit. destruct (o_filter o) as [s|]; simpl; [|eauto].
  destruct (C24_filter_nonterminals t (label_test (label_matches s)) W) as (t' & -> & W' & R & K & HN & HD); [apply label_test_local|].
  exists t'. split; [done|]. split_and!; try done. intros n w. rewrite HN.
  assert (nodes t !! n = Some w -> label_test (label_matches s) t n = true <-> in_set s (node_label w)) as HX; [|naive_solver].
  intros Hn. unfold label_test. rewrite Hn. apply matches_set.
Qed.
Lemma filtered_kept t s t' : filtered t s t' -> kept t t'.
Proof.
  intros (W' & R & K & HN & HD). split; [done|]. split; [done|]. intros n. unfold tword.
  destruct (nodes t' !! n) as [[nt|tm]|] eqn:E'.
  - apply HN in E' as [-> _]. done.
  - apply HN in E' as [-> _]. done.
  - destruct (nodes t !! n) as [[nt|tm]|] eqn:E; try done. enough (nodes t' !! n = Some (T tm)) by congruence.
    apply HN. split; [done|]. auto.
Qed.
Lemma filtered_nogap t s t' : filtered t s t' -> nogap t -> nogap t'.
Proof. intros (W' & R & K & HN & HD) H n w [Hn _]%HN. by eapply H. Qed.
Lemma filtered_bare t s t' : filtered t s t' -> bare t' <-> bare t.
Proof.
  intros (W' & R & K & HN & HD). unfold bare. rewrite R. split; intros [tm Ht]; exists tm.
  - by apply HN in Ht as [? _].
  - apply HN. auto.
Qed.

(** *** [--insertion_set] *)
Lemma ordered_siblings t : ordered t -> forall p x y i j, PE (edges t) p x -> PE (edges t) p y -> term_pos (nodes t) x i ->
     term_pos (nodes t) y j -> x < y -> i < j.
Proof. intros O p x y i j _ _ Hx Hy. by apply O. Qed.
Lemma step_insert_ok o t : WF t -> ordered t ->
  (o_insert o <> None -> bare t -> step_insert o t = Ret Err) /\
  (~ (o_insert o <> None /\ bare t) -> exists t', step_insert o t = Ret (Ok t') /\ spec_insert o t t').
Proof.
  intros W O. unfold step_insert, spec_insert, or_exit. destruct (o_insert o) as [s|]; simpl; [|split; [done|eauto]].
  set (f := fun t n => if negb (label_test (label_matches s) t n) then Some (o_insert_label o) else None).
  destruct (C26_insert_intermediate_partial t f W) as [H1 H2].
  { intros t1 t2 n E. unfold f. by rewrite (label_test_local _ t1 t2 n E). }
  { by apply ordered_siblings. }
  split.
  - intros _ B%(orphan_bare t W). by rewrite (H1 B).
  - intros HB. destruct (H2 (not_bare_parent t W ltac:(naive_solver))) as (t' & -> & HG). exists t'. split; [done|].
    exists f. split; [|done]. intros t0 n w Hn. unfold f, label_test. rewrite Hn. destruct (label_matches s (node_label w)) eqn:E.
    + apply matches_set in E. by split.
    + split; [|done]. intros ?%matches_set. congruence.
Qed.
Lemma grouped_kept t t' f : WF t -> grouped t t' f -> kept t t'.
Proof.
  intros W (W' & R & K & HO & HNew & _). split; [done|]. split; [done|]. intros n. unfold tword.
  destruct (nodes t !! n) as [w|] eqn:E; [by rewrite (HO _ _ E)|].
  destruct (nodes t' !! n) as [w|] eqn:E'; [|done]. destruct (HNew n w E E') as (p & l & sp & _ & -> & _). done.
Qed.
Lemma grouped_bare t t' f : WF t -> grouped t t' f -> bare t' <-> bare t.
Proof.
  intros W (W' & R & K & HO & HNew & _). unfold bare. rewrite R. destruct (sh_root _ _ _ (wf_shape _ W)) as [w Hw].
  rewrite (HO _ _ Hw), Hw. done.
Qed.
Lemma grouped_nogap t t' f : WF t -> grouped t t' f -> nogap t -> nogap t'.
Proof.
  intros W HG NG. pose proof (grouped_kept _ _ _ W HG) as HK.
  pose proof HG as (W' & R & K & HO & HNew & HB & HS & HE). intros m w Hm.
  destruct (nodes t !! m) as [w0|] eqn:E. { rewrite (HO _ _ E) in Hm. simplify_eq. by eapply NG. }
  pose proof W' as [G' Sh' Tm' Nt' Nd']. destruct (node_span_ok _ _ _ _ _ _ Sh' Tm' Nt' Hm) as [Ho Hc].
  intros Hg. apply span_ok_skips in Hg as (i & j & k & Hlt & Hi & Hj & Hk); [|done]. apply Hj, Hc.
  destruct (HNew m w E Hm) as (p & l & sp & Hf & -> & Hpm & Hch).
  assert (HY : forall i, yields (nodes t') (edges t') m i -> exists x, PE (edges t') m x /\ term_pos (nodes t) x i /\ PE (edges t) p x).
  { intros i0 (x & HD & Hx). apply rtc_inv in HD as [->|(b & Hb & HD)].
    { destruct Hx as (tm & Hx & _). rewrite Hm in Hx. done. }
    destruct (Hch b Hb) as [[tm Hbt] Hpb]. apply rtc_inv in HD as [->|(d & Hd & _)].
    - exists x. split_and!; try done. by apply (kept_pos t t').
    - by destruct (sh_leaf _ _ _ Sh' b tm d (HO _ _ Hbt)). }
  destruct (HY i) as (x & Hmx & Px & Ex); [by apply Hc|]. destruct (HY k) as (z & Hmz & Pz & Ez); [by apply Hc|].
  assert (Hfp : f t p <> None) by (by rewrite Hf).
  assert (HA : forall q, i <= q <= k -> exists z, PE (edges t) p z /\ term_pos (nodes t) z q).
  { apply (HS p x z i k); try done; [lia|eauto]. }
  destruct (HA j) as (y & Ey & Py); [lia|].
  destruct (proj2 (HS p x y i j Hfp Ex Ey Px Py ltac:(lia))) as (m' & Hx' & Hy'). { intros q Hq. apply HA. lia. }
  assert (m' = m) as -> by (by apply (PE_parent_unique Sh' m' m x)).
  exists y. split; [by apply rtc_once|]. by apply (kept_pos t t').
Qed.

(** *** [--parent] *)
Lemma step_parent_ok o t : WF t ->
  (o_parent o <> None -> bare t -> step_parent o t = Ret Err) /\
  (~ (o_parent o <> None /\ bare t) -> exists t', step_parent o t = Ret (Ok t') /\ opt (o_parent o) (fun k a b => parent_tagged a k b) t t').
Proof.
  intros W. unfold step_parent, or_exit. destruct (o_parent o) as [k|]; simpl; [|split; [done|eauto]].
  destruct (C28_annotate_parent_tag t k W) as [H1 H2]. split.
  - intros _ B%(orphan_bare t W). by rewrite (H1 B).
  - intros HB. pose proof (not_bare_parent t W ltac:(naive_solver)) as HP.
    destruct (H2 HP) as (N' & -> & W' & Ha & Hb). exists (set_N t N'). split; [done|].
    assert (SN : same_nts t (set_N t N')).
    { apply same_nts_set_N; [done|]. intros n tm Hn. destruct (HP n tm Hn) as [p Hp].
      destruct (sh_live _ _ _ (wf_shape _ W) _ _ Hp) as [[w Hw] _]. rewrite (Hb n tm p w Hn Hp Hw). eauto. }
    split_and!; try done; apply SN.
Qed.
Lemma parent_tagged_kept t k t' : WF t -> ~ bare t -> parent_tagged t k t' -> kept t t' /\ same_nts t t'.
Proof.
  intros W HB (W' & E & R & K & H1 & H2 & H3). split; [|done]. apply same_nts_kept; try done.
  intros n tm tm' Hn Hn'. destruct (not_bare_parent t W HB n tm Hn) as [p Hp].
  destruct (sh_live _ _ _ (wf_shape _ W) _ _ Hp) as [[w Hw] _]. rewrite (H3 n tm p w Hn Hp Hw) in Hn'. by simplify_eq.
Qed.

(** *** Encoding *)
Lemma collapse_ok t : WF t -> exists u, or_exit (collapse_unary_chains t (lit "_")) = Ret (Ok u) /\ collapsed_to t u.
Proof. intros W. unfold or_exit. destruct (C22_collapse t (lit "_") W) as (u & -> & H). exists u. done. Qed.
Lemma collapsed_kept t u : WF t -> collapsed_to t u -> kept t u.
Proof.
  intros W (W' & K & _ & HA & HW & _). split; [done|]. split; [done|]. intros n.
  assert (HX : forall w, nodes t !! n = Some w -> anchor t n -> exists ls, nodes u !! n = Some (recorded (lit "_") w ls)).
  { intros w Hn Ha. destruct (uchain_exists t n W ltac:(eauto)) as [l Hl]. destruct (labels_exist t n l W Hl) as [ls Hls].
    exists ls. by apply (HW n w l ls). }
  assert (HT : forall w ls, is_terminal (recorded (lit "_") w ls) = is_terminal w) by (intros [] []; done).
  unfold tword. destruct (nodes u !! n) as [w'|] eqn:E'.
  - assert (Ha : anchor t n) by (apply HA; eauto). pose proof Ha as [[w Hn] _]. destruct (HX w Hn Ha) as [ls Hls].
    simplify_eq. rewrite Hn. destruct w as [nt|tm], ls; done.
  - destruct (nodes t !! n) as [[nt|tm]|] eqn:E; try done. exfalso.
    assert (Ha : anchor t n). { split; [eauto|]. intros c [Hc _]. by destruct (sh_leaf _ _ _ (wf_shape _ W) n tm c E). }
    destruct (HX _ eq_refl Ha) as [ls Hls]. congruence.
Qed.
Lemma collapsed_projective t u : WF t -> collapsed_to t u -> is_projective u = is_projective t.
Proof.
  intros W HC. pose proof (collapsed_kept t u W HC) as HK. pose proof HC as (W' & K & _ & HA & _ & HD).
  assert (HT : forall m i, term_pos (nodes t) m i -> anchor t m).
  { intros m i (tm & Hm & _). split; [eauto|]. intros c [Hc _]. by destruct (sh_leaf _ _ _ (wf_shape _ W) m tm c Hm). }
  assert (HY : forall n i, anchor t n -> yields (nodes u) (edges u) n i <-> yields (nodes t) (edges t) n i).
  { intros n i Hn. unfold yields. split; intros (m & Hm & Hp); exists m.
    - apply (kept_pos t u) in Hp; [|done]. split; [|done]. apply HD; try done. by eapply HT.
    - split; [|by apply (kept_pos t u)]. apply HD; try done. by eapply HT. }
  apply eq_true_iff_eq. rewrite (C09_projective u W'), (C09_projective t W). split.
  - (* down a chain of unary nodes to an anchor *)
    intros H n i j k Hi Hk Hlt.
    assert (exists a, anchor t a /\ forall q, yields (nodes t) (edges t) n q <-> yields (nodes t) (edges t) a q) as (a & Ha & Hq).
    { assert (Hn : is_Some (nodes t !! n)). { destruct Hi as (m & Hm & tm & Ht & _). apply (Dom_live_l (wf_shape _ W) n m); eauto. }
      clear -W Hn. revert n Hn. apply (tree_ind_up (wf_shape _ W) (fun n => exists a, anchor t a /\
        forall q, yields (nodes t) (edges t) n q <-> yields (nodes t) (edges t) a q)). intros n Hn IH.
      destruct (nodes t !! n) as [[nt|tm]|] eqn:E; [| |by destruct Hn].
      - destruct (sh_inner _ _ _ (wf_shape _ W) n nt E) as [c Hc].
        destruct (decide (Exists (fun r => is_primary (e_w r) = true /\ e_src r = n /\ e_tgt r <> c) (edges t))) as [Hx|Hx].
        + exists n. split; [|done]. split; [eauto|]. intros c' [Hc' HU]. apply Exists_exists in Hx as (r & Hr & P & Es & Et).
          apply Et. rewrite (HU c Hc). apply HU. by exists r.
        + assert (HU : forall c', PE (edges t) n c' -> c' = c).
          { intros c' (r & Hr & P & Es & <-). destruct (decide (e_tgt r = c)) as [|Hne]; [done|]. exfalso. apply Hx, Exists_exists. eauto. }
          destruct (IH c Hc) as (a & Ha & Hq).
          exists a. split; [done|]. intros q. rewrite <- Hq. split.
          * intros (m & Hm & Hp). apply rtc_inv in Hm as [->|(c' & Hc' & Hm)].
            { destruct Hp as (tm & Hp & _). congruence. }
            rewrite (HU c' Hc') in Hm. by exists m.
          * intros (m & Hm & Hp). exists m. split; [by eapply rtc_l|done].
      - exists n. split; [|done]. split; [eauto|]. intros c [Hc _]. by destruct (sh_leaf _ _ _ (wf_shape _ W) n tm c E). }
    apply Hq. apply Hq in Hi, Hk. apply HY; [done|]. apply (H a i j k); [by apply HY..|done].
  - intros H n i j k Hi Hk Hlt.
    assert (Ha : anchor t n). { apply HA. destruct Hi as (m & Hm & tm & Ht & _). apply (Dom_live_l (wf_shape _ W') n m); eauto. }
    apply HY; [done|]. apply (H n i j k); [by apply HY..|done].
Qed.
