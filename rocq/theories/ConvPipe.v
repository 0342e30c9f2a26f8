(** The conversion pipeline as a whole. *)
From Coq Require Import Lia ZArith.
From Verif Require Import ConvModel TreeSpec BaseProofs SpanProofs ShapeProofs GraphProofs SortProofs ResetProofs NavProofs AnnotProofs CollapseProofs
  FilterProofs EncTree2 PropsTree PropsMod PropsMod2 PropsMod3 PropsDec2 PropsEnc PropsFeat PropsPtb PropsConll PropsNegra Ordered ConvSpec ConvProofs.

(** *** How many nodes there can be *)
Lemma dom_size (N N' : gmap nat node) : (forall n, is_Some (N' !! n) -> is_Some (N !! n)) -> size N' <= size N.
Proof.
  intros H. rewrite <- !size_dom. apply subseteq_size. intros n. rewrite !elem_of_dom. apply H.
Qed.
Lemma inj_size (A B : gset nat) (R : nat -> nat -> Prop) :
  (forall a, a ∈ A -> exists b, b ∈ B /\ R a b) -> (forall a a' b, R a b -> R a' b -> a = a') -> size A <= size B.
Proof.
  revert B. induction A as [|a A Ha IH] using set_ind_L; intros B H1 H2; [rewrite size_empty; lia|].
  destruct (H1 a) as (b & Hb & Hab); [set_solver|].
  assert (size A <= size (B ∖ {[b]})).
  { apply IH; [|done]. intros a' Ha'. destruct (H1 a') as (b' & Hb' & Hab'); [set_solver|]. exists b'. split; [|done].
    apply elem_of_difference. split; [done|]. intros ->%elem_of_singleton. by rewrite (H2 a a' b Hab Hab') in Ha. }
  assert (size B = size ({[b]} ∪ B ∖ {[b]})) as ->. { f_equal. rewrite union_comm_L. symmetry. rewrite difference_union_L. set_solver. }
  rewrite !size_union by set_solver. rewrite !size_singleton. lia.
Qed.
Lemma grouped_size t t' f : WF t -> grouped t t' f -> size (nodes t') <= size (nodes t) + tr_nterm t.
Proof.
  intros W HG. pose proof HG as (W' & R & K & HO & HNew & HB & HS & HE).
  set (new := dom (nodes t') ∖ dom (nodes t)).
  assert (size new <= tr_nterm t).
  { assert (size new <= size (list_to_set (seq 0 (tr_nterm t)) : gset nat)) as HZ.
    2:{ rewrite size_list_to_set in HZ by apply NoDup_seq. by rewrite seq_length in HZ. }
    apply (inj_size _ _ (fun m i => exists b, PE (edges t') m b /\ term_pos (nodes t) b i)).
    - intros m Hm. apply elem_of_difference in Hm as [[w Hm]%elem_of_dom Hm0]. apply not_elem_of_dom in Hm0.
      destruct (HNew m w Hm0 Hm) as (p & l & sp & _ & -> & _ & Hch).
      destruct (sh_inner _ _ _ (wf_shape _ W') _ _ Hm) as [b Hb].
      destruct (Hch b Hb) as [[tm Hbt] _]. destruct (to_pos _ _ (wf_terms _ W) _ _ Hbt) as (i & Hi & Hlt).
      exists i. split; [apply elem_of_list_to_set, elem_of_seq; lia|]. exists b. split; [done|]. by exists tm.
    - intros m m' i (b & Hb & Pb) (b' & Hb' & Pb'). assert (b = b') as -> by (by apply (to_inj _ _ (wf_terms _ W) b b' i)).
      by apply (PE_parent_unique (wf_shape _ W') m m' b'). }
  rewrite <- !size_dom. transitivity (size (dom (nodes t) ∪ new)).
  - apply subseteq_size. intros n Hn. unfold new. destruct (decide (n ∈ dom (nodes t))); set_solver.
  - rewrite size_union; [lia|]. unfold new. set_solver.
Qed.

(** *** Exits *)
(** The sentence of tags for this tree is missing, unreadable, incomplete or of the wrong length. *)
Definition pos_fails (pos : option (list (result (list token)))) (t : tree) : Prop :=
  match pos with
  | None => False
  | Some [] | Some (Err :: _) => True
  | Some (Ok s :: _) => ~ exists tags, tags_of s tags /\ length tags = tr_nterm t
  end.
Definition pos_tags (pos : option (list (result (list token)))) (tags : option (list str)) : Prop :=
  match pos, tags with
  | None, None => True
  | Some (Ok s :: _), Some tags => tags_of s tags
  | _, _ => False
  end.
Lemma tags_unique s a b : tags_of s a -> tags_of s b -> a = b.
Proof. rewrite <- !mapM_tags. congruence. Qed.
Lemma pos_fails_dec pos t : pos_fails pos t \/ ~ pos_fails pos t.
Proof.
  unfold pos_fails. destruct pos as [[|[s|] rest]|]; auto. destruct (mapM k_pos s) as [tags|] eqn:E.
  - apply mapM_tags in E. destruct (decide (length tags = tr_nterm t)) as [|Hn]; [right|left]; [naive_solver|].
    intros (tags' & HT & HL). by rewrite (tags_unique s tags' tags HT E) in HL.
  - left. intros (tags & HT%mapM_tags & _). congruence.
Qed.
Lemma step_pos_ok pos t : WF t -> ordered t ->
  (pos_fails pos t -> step_pos pos t = Ret Err) /\
  (~ pos_fails pos t -> exists t' tags, step_pos pos t = Ret (Ok (t', tail <$> pos)) /\ pos_tags pos tags /\
     opt tags (fun tags a b => sentence_tagged a tags b) t t').
Proof.
  intros W O. unfold step_pos, pos_fails, pos_tags. destruct pos as [[|[s|] rest]|]; simpl.
  - split; [done|]. by intros [].
  - destruct (mapM k_pos s) as [tags|] eqn:E.
    + destruct (annotate_pos_ordered t tags W O) as (t' & r & H1 & H2 & H3). unfold or_exit, next. rewrite H1. simpl.
      apply mapM_tags in E. split.
      * intros HF. destruct r as [[]|]; [|done]. destruct HF. exists tags. split; [done|]. by apply H2.
      * intros HF. assert (r = Ok ()) as ->.
        { apply H2. destruct (decide (length tags = tr_nterm t)) as [|Hn]; [done|]. exfalso. apply HF.
          intros (tags' & HT & HL). by rewrite (tags_unique s tags' tags HT E) in HL. }
        exists t', (Some tags). simpl. auto.
    + split; [done|]. intros HF. exfalso. apply HF. intros (tags & HT%mapM_tags & _). congruence.
  - split; [done|]. by intros [].
  - split; [done|]. intros _. exists t, None. done.
Qed.

Definition room (o : options) (t : tree) : Prop :=
  o_out o = ORelative -> (Z.of_nat (size (nodes t) + tr_nterm t) < Z.of_N isize_bound)%Z.

Lemma opt_None {A} (x : option A) R t t' : x = None -> opt x R t t' -> t' = t.
Proof. by intros ->. Qed.

(** The steps between the tags and the encoding. *)
Lemma middle_ok o t : WF t -> ordered t -> (o_reattach o <> None -> 2 <= tr_nterm t) ->
  let m := next (step_reattach o t) (fun t => next (step_ids o t) (fun t => next (step_filter o t) (fun t =>
           next (step_insert o t) (fun t => next (step_parent o t) (fun t => step_encode o t))))) in
  ((o_insert o <> None \/ o_parent o <> None) -> bare t -> m = Ret Err) /\
  (~ ((o_insert o <> None \/ o_parent o <> None) /\ bare t) ->
   exists t4 t5 t6 t7 t8, m = step_encode o t8 /\
     spec_reattach o t t4 /\
     opt (o_ids o) (fun s a b => numbered a (o_id_name o) s b) t4 t5 /\
     opt (o_filter o) (fun s a b => filtered a s b) t5 t6 /\
     spec_insert o t6 t7 /\
     opt (o_parent o) (fun k a b => parent_tagged a k b) t7 t8 /\
     kept t t8 /\ (o_reattach o = None -> nogap t -> nogap t8) /\ size (nodes t8) <= size (nodes t) + tr_nterm t /\ (bare t8 <-> bare t)).
Proof.
  intros W O HR m. subst m. pose proof (kept_refl t W) as K0.
  destruct (step_reattach_ok o t W HR) as (t4 & -> & H4). simpl.
  assert (X4 : kept t t4 /\ (bare t4 <-> bare t) /\ (o_reattach o = None -> nogap t -> nogap t4) /\ size (nodes t4) <= size (nodes t)).
  { unfold spec_reattach in H4. destruct (o_reattach o) as [p|]; simpl in H4; [|subst; by split_and!].
    destruct H4 as (f & _ & H4). pose proof (reattached_kept _ _ _ _ H4) as K. split_and!; try done.
    - specialize (HR ltac:(done)). pose proof K as (W4 & K4 & _).
      split; intros B; exfalso; [pose proof (bare_nterm t4 W4 B)|pose proof (bare_nterm t W B)]; lia.
    - apply dom_size. intros n. by eapply reattached_live. }
  destruct X4 as (K4 & B4 & N4 & S4). pose proof K4 as (W4 & T4 & _).
  destruct (step_ids_ok o t4 W4) as (t5 & -> & H5). simpl.
  assert (X5 : kept t t5 /\ (bare t5 <-> bare t) /\ (o_reattach o = None -> nogap t -> nogap t5) /\ size (nodes t5) <= size (nodes t)).
  { destruct (o_ids o) as [s|]; simpl in H5; [|by subst]. destruct (numbered_kept _ _ _ _ W4 H5) as [K SN].
    pose proof H5 as (W5 & E5 & R5 & _). split_and!.
    - by eapply kept_trans.
    - rewrite <- B4. by apply same_nts_bare.
    - intros E NG. apply (same_nts_nogap t4); auto.
    - rewrite <- (size_dom (nodes t5)), (same_nts_dom _ _ SN), size_dom. done. }
  destruct X5 as (K5 & B5 & N5 & S5). pose proof K5 as (W5 & T5 & _).
  destruct (step_filter_ok o t5 W5) as (t6 & -> & H6). simpl.
  assert (X6 : kept t t6 /\ (bare t6 <-> bare t) /\ (o_reattach o = None -> nogap t -> nogap t6) /\ size (nodes t6) <= size (nodes t)).
  { destruct (o_filter o) as [s|]; simpl in H6; [|by subst]. pose proof (filtered_kept _ _ _ H6) as K. split_and!.
    - by eapply kept_trans.
    - rewrite <- B5. by eapply filtered_bare.
    - intros E NG. eapply filtered_nogap; [exact H6|]. auto.
    - etransitivity; [|exact S5]. apply dom_size. intros n [w Hn]. apply H6 in Hn as [-> _]. eauto. }
  destruct X6 as (K6 & B6 & N6 & S6). pose proof K6 as (W6 & T6 & _).
  destruct (step_insert_ok o t6 W6 (kept_ordered _ _ K6 O)) as [HiE HiO]. split.
  - intros HO HB. destruct (o_insert o) as [s|] eqn:EI.
    + rewrite HiE; [done..|]. by apply B6.
    + destruct HiO as (t7 & -> & H7). { by intros [? _]. } simpl. unfold spec_insert in H7. rewrite EI in H7. simpl in H7. subst.
      destruct (step_parent_ok o t6 W6) as [HpE _]. rewrite HpE; [done| |by apply B6]. by destruct HO.
  - intros HN. destruct HiO as (t7 & -> & H7). { intros [HI HB]. apply HN. split; [by left|by apply B6]. } simpl.
    assert (X7 : kept t t7 /\ (bare t7 <-> bare t) /\ (o_reattach o = None -> nogap t -> nogap t7) /\ size (nodes t7) <= size (nodes t) + tr_nterm t).
    { pose proof H7 as H7'. unfold spec_insert in H7'. destruct (o_insert o) as [s|]; simpl in H7'; [|subst; split_and!; try done; lia].
      destruct H7' as (f & _ & HG). split_and!.
      - eapply kept_trans; [exact K6|]. by eapply grouped_kept.
      - rewrite <- B6. by eapply grouped_bare.
      - intros E NG. eapply grouped_nogap; [exact W6|exact HG|]. auto.
      - pose proof (grouped_size _ _ _ W6 HG). lia. }
    destruct X7 as (K7 & B7 & N7 & S7). pose proof K7 as (W7 & T7 & _).
    destruct (step_parent_ok o t7 W7) as [_ HpO]. destruct HpO as (t8 & -> & H8).
    { intros [HI HB]. apply HN. split; [by right|by apply B7]. }
    exists t4, t5, t6, t7, t8. simpl. split_and!; try done.
    + pose proof H8 as H8'. destruct (o_parent o) as [k|]; simpl in H8'; [|by subst]. eapply kept_trans; [exact K7|].
      eapply parent_tagged_kept; [done| |exact H8']. rewrite B7. intros HB. apply HN. split; [by right|done].
    + pose proof H8 as H8'. destruct (o_parent o) as [k|]; simpl in H8'; [|by subst]. intros E NG.
      destruct (parent_tagged_kept t7 k t8 W7) as [Kx SN]; [|exact H8'|].
      { rewrite B7. intros HB. apply HN. split; [by right|done]. }
      apply (same_nts_nogap t7); [apply Kx|done|auto].
    + pose proof H8 as H8'. destruct (o_parent o) as [k|]; simpl in H8'; [|by subst].
      destruct (parent_tagged_kept t7 k t8 W7) as [Kx SN]; [|exact H8'|].
      { rewrite B7. intros HB. apply HN. split; [by right|done]. }
      rewrite <- (size_dom (nodes t8)), (same_nts_dom _ _ SN), size_dom. done.
    + pose proof H8 as H8'. destruct (o_parent o) as [k|]; simpl in H8'; [|by subst].
      destruct (parent_tagged_kept t7 k t8 W7) as [Kx SN]; [|exact H8'|].
      { rewrite B7. intros HB. apply HN. split; [by right|done]. }
      rewrite <- B7. apply same_nts_bare; [done|]. by destruct H8' as (_ & _ & ? & _).
Qed.

(** *** Encoding *)
Definition tags_out (o : options) : Prop := o_out o = OAbsolute \/ o_out o = ORelative.
Lemma annotates_kept u t' k text : WF u -> annotates u t' k text -> kept u t'.
Proof.
  intros W (W' & E & R & K & HN & HT). apply same_nts_kept; try done.
  - split; intros n; destruct (nodes u !! n) as [[nt|tm]|] eqn:En.
    + intros nt'. rewrite HN; [by rewrite En|]. intros tm. by rewrite En.
    + destruct (to_pos _ _ (wf_terms _ W) _ _ En) as (i & Hi & _). destruct (HT n tm i En) as (s & _ & ->); [by exists tm|]. done.
    + intros nt'. rewrite HN; [by rewrite En|]. intros tm. by rewrite En.
    + rewrite HN; [by rewrite En|]. intros tm. by rewrite En.
    + destruct (to_pos _ _ (wf_terms _ W) _ _ En) as (i & Hi & _). destruct (HT n tm i En) as (s & _ & ->); [by exists tm|]. done.
    + rewrite HN; [by rewrite En|]. intros tm. by rewrite En.
  - intros n tm tm' Hn Hn'. destruct (to_pos _ _ (wf_terms _ W) _ _ Hn) as (i & Hi & _).
    destruct (HT n tm i Hn) as (s & _ & Hs); [by exists tm|]. rewrite Hs in Hn'. unfold with_feature in Hn'. by simplify_eq.
Qed.
Lemma step_encode_ok o t : WF t -> (o_out o = ORelative -> small t) ->
  (tags_out o -> is_projective t = false -> step_encode o t = Ret Err) /\
  (~ (tags_out o /\ is_projective t = false) -> exists t', step_encode o t = Ret (Ok t') /\ spec_encode o t t' /\ kept t t').
Proof.
  intros W HS. unfold step_encode, spec_encode, tags_out.
  destruct (collapse_ok t W) as (u & Hu & HC). pose proof (collapsed_kept t u W HC) as HK. pose proof HK as (Wu & _).
  pose proof (collapsed_projective t u W HC) as EP.
  destruct (o_out o) eqn:EO; try (split; [by intros [|]|]; intros _; exists t; by split_and!).
  - rewrite Hu. cbn [next mbind outcome_bind]. destruct (C53_annotate_absolute u Wu) as [H1 H2]. unfold or_exit. split.
    + intros _ HF. rewrite H1 by congruence. done.
    + intros HF. assert (is_projective t = true) as HP by (destruct (is_projective t); [done|]; exfalso; apply HF; auto).
      destruct (H2 ltac:(congruence)) as (e & t' & He & -> & HA). exists t'. split; [done|]. split; [by exists u, e|].
      eapply kept_trans; [exact HK|]. by eapply annotates_kept.
  - rewrite Hu. cbn [next mbind outcome_bind]. destruct (C53_annotate_relative u Wu) as [H1 H2].
    { specialize (HS eq_refl). unfold small in *. assert (size (nodes u) <= size (nodes t)); [|lia].
      apply dom_size. intros n Hn. apply HC in Hn as [? _]. done. }
    unfold or_exit. split.
    + intros _ HF. rewrite H1 by congruence. done.
    + intros HF. assert (is_projective t = true) as HP by (destruct (is_projective t); [done|]; exfalso; apply HF; auto).
      destruct (H2 ltac:(congruence)) as (e & t' & He & -> & HA). exists t'. split; [done|]. split; [by exists u, e|].
      eapply kept_trans; [exact HK|]. by eapply annotates_kept.
Qed.

(** *** The whole body *)
Lemma convert_ok choose o pos t :
  (forall k s, s <> ∅ -> choose k s ∈ s) -> WF t -> ordered t -> (o_reattach o <> None -> 2 <= tr_nterm t) -> room o t ->
  (pos_fails pos t \/ ((o_insert o <> None \/ o_parent o <> None) /\ bare_after o t) -> convert_tree choose o pos t = Ret Err) /\
  (~ (pos_fails pos t \/ ((o_insert o <> None \/ o_parent o <> None) /\ bare_after o t)) ->
   exists tags t8, pos_tags pos tags /\ edited o tags t t8 /\ kept t t8 /\ (bare t8 <-> bare_after o t) /\
     (o_reattach o = None -> o_proj o = true \/ is_projective t = true -> is_projective t8 = true) /\
     (tags_out o -> is_projective t8 = false -> convert_tree choose o pos t = Ret Err) /\
     (~ (tags_out o /\ is_projective t8 = false) ->
      exists t', convert_tree choose o pos t = Ret (Ok (t', tail <$> pos)) /\ spec_encode o t8 t' /\ kept t t')).
Proof.
  intros HC W O HR HRoom. unfold convert_tree.
  destruct (step_dummies_ok o t W) as (t1 & -> & H1). cbn [next mbind outcome_bind].
  pose proof (dummies_bare o t t1 W H1) as B1.
  assert (X1 : kept t t1 /\ (nogap t -> nogap t1) /\ size (nodes t1) <= size (nodes t)).
  { pose proof H1 as H1'. destruct (o_dummies o); [|subst; by split_and!]. split_and!; [by apply undummied_kept|by eapply undummied_nogap|].
    apply dom_size. intros n [w Hn]. apply H1' in Hn as [-> _]. eauto. }
  destruct X1 as (K1 & N1 & S1). pose proof K1 as (W1 & T1 & _).
  destruct (step_proj_ok choose o t1 HC W1) as (t2 & -> & H2 & K2 & R2 & B2 & N2 & D2). cbn [next mbind outcome_bind].
  assert (K02 : kept t t2) by (by eapply kept_trans). pose proof K02 as (W2 & T2 & _).
  assert (HPF : pos_fails pos t2 <-> pos_fails pos t). { unfold pos_fails. by rewrite T2. }
  assert (X3 : forall t3 tags, opt tags (fun tags a b => sentence_tagged a tags b) t2 t3 ->
     kept t t3 /\ (bare t3 <-> bare t2) /\ (nogap t2 -> nogap t3) /\ size (nodes t3) <= size (nodes t)).
  { assert (S2 : size (nodes t2) <= size (nodes t)) by (rewrite <- (size_dom (nodes t2)), D2, size_dom; lia).
    intros t3 [tags|]; simpl; [|intros ->; by split_and!]. intros H3. destruct (tagged_kept _ _ _ W2 H3) as [K3 SN].
    pose proof H3 as (W3 & _ & R3 & _). split_and!.
    - by eapply kept_trans.
    - by apply same_nts_bare.
    - by apply same_nts_nogap.
    - rewrite <- (size_dom (nodes t3)), (same_nts_dom _ _ SN), size_dom. done. }
  destruct (step_pos_ok pos t2 W2 (kept_ordered _ _ K02 O)) as [HPE HPO]. split.
  - intros [HF|[HO HB]]; [rewrite HPE; [done|by apply HPF]|].
    destruct (pos_fails_dec pos t2) as [HF|HF]; [by rewrite HPE|].
    destruct (HPO HF) as (t3 & tags & -> & Ht & H3). cbn [next mbind outcome_bind].
    destruct (X3 t3 tags H3) as (K3 & B3 & _). pose proof K3 as (W3 & T3 & _).
    destruct (middle_ok o t3 W3 (kept_ordered _ _ K3 O)) as [HE _]; [by rewrite T3|].
    rewrite HE; [done|done|]. rewrite B3, B2. by apply B1.
  - intros HN. destruct (HPO ltac:(intros ?%HPF; apply HN; by left)) as (t3 & tags & -> & Ht & H3). cbn [next mbind outcome_bind].
    destruct (X3 t3 tags H3) as (K3 & B3 & N3 & S3). pose proof K3 as (W3 & T3 & _).
    destruct (middle_ok o t3 W3 (kept_ordered _ _ K3 O)) as [_ HM]; [by rewrite T3|].
    destruct HM as (t4 & t5 & t6 & t7 & t8 & -> & H4 & H5 & H6 & H7 & H8 & K8 & N8 & S8 & B8).
    { intros [HO HB]. apply HN. right. split; [done|]. by apply B1, B2, B3. }
    assert (K08 : kept t t8) by (by eapply kept_trans). pose proof K08 as (W8 & T8 & _).
    exists tags, t8. split_and!; [done| |done| | | |].
    + exists t1, t2, t3, t4, t5, t6, t7. done.
    + by rewrite B8, B3, B2.
    + intros ER HP. apply proj_iff; [done|]. apply N8; [done|]. apply N3, N2. destruct HP as [HP|HP]; [by left|right].
      by apply N1, proj_iff.
    + destruct (step_encode_ok o t8 W8) as [HE _].
      { intros EO. specialize (HRoom EO). unfold small. rewrite T3 in S8. lia. }
      intros HO HP. by rewrite HE.
    + destruct (step_encode_ok o t8 W8) as [_ HE].
      { intros EO. specialize (HRoom EO). unfold small. rewrite T3 in S8. lia. }
      intros HO. destruct (HE HO) as (t' & -> & HSp & HK). exists t'. split; [done|]. split; [done|]. by eapply kept_trans.
Qed.
