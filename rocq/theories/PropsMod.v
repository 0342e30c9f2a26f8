(** Properties C20, C21, C24, C27 - C29: tree modifications. *)
From Coq Require Import Lia.
From Verif Require Import ModModel TreeSpec BaseProofs ShapeProofs GraphProofs DfsProofs ResetProofs
  ShapeOps TreeOps SortProofs EditProofs UnaryProofs Api PropsTree ProjProofs AnnotProofs FilterProofs.

(** ** C20: [projectivize] *)

(** Two node tables that differ in the spans of nonterminals only. *)
Definition same_but_nt_spans (N N' : gmap nat node) : Prop :=
  (forall n tm, N' !! n = Some (T tm) <-> N !! n = Some (T tm)) /\
  (forall n nt, N !! n = Some (NT nt) -> exists s, N' !! n = Some (NT (mk_nt (nt_label nt) (nt_feats nt) s))) /\
  (forall n, N !! n = None -> N' !! n = None).
Lemma eq_strip_nt_same N N' : eq_strip_nt N' N -> same_but_nt_spans N N'.
Proof.
  intros E. split_and!.
  - intros n tm. by apply eq_strip_nt_T.
  - intros n nt H. destruct (fmap_eq_lookup _ _ _ _ _ (eq_sym E) H) as (w & Hw & Hs).
    destruct w as [nt'|]; [|done]. exists (nt_span nt'). rewrite Hw. destruct nt, nt'. simpl in *.
    by inversion Hs.
  - intros n H. apply (f_equal (.!! n)) in E. rewrite !lookup_fmap, H in E. by destruct (N' !! n).
Qed.

(** The edge labels: which weights the primary edges into each node carry; the secondary edges. *)
Definition same_edge_labels (t t' : tree) : Prop :=
  (forall c w, is_primary w = true ->
     (exists r, r ∈ edges t' /\ e_tgt r = c /\ e_w r = w) <-> (exists r, r ∈ edges t /\ e_tgt r = c /\ e_w r = w)) /\
  (forall r, is_primary (e_w r) = false -> r ∈ edges t' <-> r ∈ edges t).
Lemma moves_labels t v t' : moves t v t' -> same_edge_labels t t'.
Proof.
  induction 1 as [t|t a rep t1 v t2 M _ [IH1 IH2]]; [done|].
  destruct M as (r0 & e' & H0 & Hp & _ & _ & _ & _ & HE & _). split.
  - intros c w Hw. rewrite IH1 by done. split.
    + intros (r & [->|[Hr _]]%HE & Ht & Hrw); [exists r0; by subst|]. by exists r.
    + intros (r & Hr & Ht & Hrw). destruct (decide (r = r0)) as [->|Hne].
      * eexists. split; [apply HE; by left|]. done.
      * exists r. split; [apply HE; by right|]. done.
  - intros r Hr. rewrite IH2 by done. rewrite HE. split.
    + intros [->|[? _]]; [|done]. simpl in Hr. congruence.
    + intros H. right. split; [done|]. intros ->. congruence.
Qed.

(** For every order in which hash sets are iterated ([choose] picks any element of a non-empty
    set): [projectivize] terminates normally, answers [None] leaving the tree alone if the tree is
    projective, and otherwise produces a well-formed tree all of whose yields are intervals. *)
Theorem C20_projectivize choose t :
  (forall k s, s <> ∅ -> choose k s ∈ s) -> WF t ->
  (is_projective t = true -> projectivize choose t = Ret (t, None)) /\
  (is_projective t = false ->
   exists t' v, projectivize choose t = Ret (t', Some v) /\ WF t' /\ is_projective t' = true /\
     (forall n i j k, yields (nodes t') (edges t') n i -> yields (nodes t') (edges t') n k -> i < j < k ->
                      yields (nodes t') (edges t') n j) /\
     (forall n w, nodes t' !! n = Some w -> ~ gappy w) /\
     same_but_nt_spans (nodes t) (nodes t') /\ same_edge_labels t t' /\
     tr_root t' = tr_root t /\ tr_nterm t' = tr_nterm t /\ v <> []).
Proof.
  intros Hch W. split; intros Hp; [unfold projectivize; by rewrite Hp|].
  destruct (projectivize_ok choose t Hch W Hp) as (t' & v & H1 & W' & Hm & Hp').
  destruct (moves_frame _ _ _ Hm) as (HN & HR & HT).
  exists t', v. split_and!; try done.
  - by apply C09_projective.
  - unfold is_projective in Hp'. apply Nat.eqb_eq in Hp'. rewrite (wf_ndisc _ W') in Hp'.
    intros n w Hw. by apply (proj1 (ndisc_of_zero _) Hp' n w).
  - by apply eq_strip_nt_same.
  - by eapply moves_labels.
  - intros ->. inversion Hm. subst. congruence.
Qed.
Print Assumptions C20_projectivize.
Definition ex_choose : nat -> gset nat -> nat := fun _ s => hd 0 (elements s).
Example C20_ex :
  (forall k s, s <> ∅ -> ex_choose k s ∈ s) /\ WF ex_disc /\ is_projective ex_disc = false /\
  is_projective ex_proj = true /\
  exists t', projectivize ex_choose ex_disc = Ret (t', Some [(3, Primary None, 6)]).
Proof.
  split_and!.
  - intros k s Hs. unfold ex_choose. destruct (elements s) as [|x l] eqn:E.
    + apply elements_empty_inv in E. apply leibniz_equiv in E. done.
    + apply elem_of_elements. rewrite E. set_solver.
  - apply ex_disc_WF.
  - by vm_compute.
  - by vm_compute.
  - eexists. vm_compute. reflexivity.
Qed.

(** ** C21: what [projectivize] reports *)

(** The labelled parent relation. *)
Definition lparent (t : tree) (p : nat) (w : edgew) (c : nat) : Prop :=
  is_primary w = true /\ exists r, r ∈ edges t /\ e_src r = p /\ e_tgt r = c /\ e_w r = w.
(** Hanging the node of a report back below the old parent, with the old label. *)
Definition put_back (rep : report) (L : nat -> edgew -> nat -> Prop) : nat -> edgew -> nat -> Prop :=
  let '(p0, w0, c0) := rep in
  fun p w c => (c = c0 /\ p = p0 /\ w = w0) \/ (c <> c0 /\ L p w c).

Definition uniq_in (es : list erec) : Prop :=
  forall r1 r2, r1 ∈ es -> r2 ∈ es -> is_primary (e_w r1) = true ->
    is_primary (e_w r2) = true -> e_tgt r1 = e_tgt r2 -> r1 = r2.
Lemma moved_uniq t a rep t' : moved t a rep t' -> uniq_in (edges t) -> uniq_in (edges t').
Proof.
  intros (r0 & e' & H0 & Hp & _ & _ & _ & _ & HE & _) U r1 r2 [->|[H1 N1]]%HE [->|[H2 N2]]%HE P1 P2 E; try done.
  - simpl in *. by destruct N2, (U r0 r2).
  - simpl in *. by destruct N1, (U r0 r1).
  - by apply U.
Qed.
Lemma put_back_ext rep L L' : (forall p w c, L p w c <-> L' p w c) ->
  forall p w c, put_back rep L p w c <-> put_back rep L' p w c.
Proof. intros H p w c. destruct rep as [[p0 w0] c0]. simpl. by rewrite H. Qed.

Lemma moves_undo t v t' :
  moves t v t' -> uniq_in (edges t) ->
  forall p w c, lparent t p w c <-> foldr put_back (lparent t') v p w c.
Proof.
  induction 1 as [t|t a rep t1 v t2 M _ IH]; intros U; [done|].
  specialize (IH (moved_uniq _ _ _ _ M U)). intros p w c. cbn [foldr].
  rewrite <- (put_back_ext rep _ _ IH).
  destruct M as (r0 & e' & H0 & Hp & -> & _ & _ & _ & HE & _). simpl. unfold lparent. split.
  - intros (Hw & r & Hr & <- & <- & <-). destruct (decide (e_tgt r = e_tgt r0)) as [E|E].
    + left. rewrite (U r r0) by done. done.
    + right. split; [done|]. split; [done|]. exists r. split; [|done]. apply HE. right. split; [done|]. by intros ->.
  - intros [(-> & -> & ->)|(Hc & Hw & r & [->|[Hr _]]%HE & <- & <- & <-)]; [by split; [|exists r0]|done|].
    split; [done|]. by exists r.
Qed.
Lemma moves_unreported t v t' :
  moves t v t' -> forall r, e_tgt r ∉ map (fun rep : report => rep.2) v -> r ∈ edges t' <-> r ∈ edges t.
Proof.
  induction 1 as [t|t a rep t1 v t2 M _ IH]; intros r Hr; [done|]. simpl in Hr.
  apply not_elem_of_cons in Hr as [Hr1 Hr2]. rewrite IH by done.
  destruct M as (r0 & e' & H0 & Hp & -> & _ & _ & _ & HE & _). simpl in Hr1. rewrite HE. split.
  - by intros [->|[? _]].
  - intros H. right. split; [done|]. by intros ->.
Qed.

(** [steps t v t']: [v] lists, in order, single re-attachments leading from [t] to [t'].  A report
    [(p, w, c)] says that [c] was a child of [p] at that moment, by an edge labelled [w]; [c] is then
    hung, with the same label, below a node [a] that [p] dominates and [c] does not, and no other
    edge changes. *)
Inductive steps : tree -> list report -> tree -> Prop :=
| steps_nil t : steps t [] t
| steps_cons t p w c a t1 v t2 :
    lparent t p w c -> Dom (edges t) p a -> p <> a -> ~ Dom (edges t) c a ->
    (forall q u d, lparent t1 q u d <-> (d = c /\ q = a /\ u = w) \/ (d <> c /\ lparent t q u d)) ->
    steps t1 v t2 -> steps t ((p, w, c) :: v) t2.
Lemma moves_steps t v t' : moves t v t' -> uniq_in (edges t) -> steps t v t'.
Proof.
  induction 1 as [t|t a rep t1 v t2 M _ IH]; intros U; [constructor|].
  specialize (IH (moved_uniq _ _ _ _ M U)).
  destruct M as (r0 & e' & H0 & Hp & -> & HD & Hne & HnD & HE & _).
  apply (steps_cons t (e_src r0) (e_w r0) (e_tgt r0) a t1); try done.
  - split; [done|]. by exists r0.
  - intros q u d. unfold lparent. split.
    + intros (Hu & r & [->|[Hr Hn]]%HE & <- & <- & <-); [by left|right].
      split; [intros E; by destruct Hn, (U r r0)|]. split; [done|]. by exists r.
    + intros [(-> & -> & ->)|(Hd & Hu & r & Hr & <- & <- & <-)].
      * split; [done|]. eexists. split; [apply HE; by left|done].
      * split; [done|]. exists r. split; [|done]. apply HE. right. split; [done|]. by intros ->.
Qed.

(** A nonterminal. *)
Definition inner (t : tree) (n : nat) : Prop := exists nt, nodes t !! n = Some (NT nt).
Lemma moves_inner t v t' : moves t v t' ->
  (forall r, r ∈ edges t -> is_primary (e_w r) = true -> inner t (e_src r)) -> Forall (fun rep : report => inner t rep.1.1) v.
Proof.
  induction 1 as [t|t a rep t1 v t2 M _ IH]; intros HI; constructor.
  - destruct M as (r0 & e' & H0 & Hp & -> & _). simpl. by apply HI.
  - destruct (moved_frame _ _ _ _ M) as (E & _). destruct (eq_strip_nt_same (nodes t) (nodes t1)) as (S1 & S2 & S3); [done|].
    assert (HK : forall n, inner t n <-> inner t1 n).
    { intros n. split; intros [nt Hn].
      - destruct (S2 _ _ Hn) as [s Hs]. eexists. exact Hs.
      - destruct (nodes t !! n) as [[nt'|tm]|] eqn:E'; [by exists nt'| |].
        + exfalso. apply S1 in E'. congruence.
        + rewrite (S3 _ E') in Hn. done. }
    eapply Forall_impl; [apply IH|].
    + intros r Hr Pr. apply HK. destruct M as (r0 & e' & H0 & Hp & -> & _ & _ & _ & HE & _ & _ & _ & Ha).
      apply HE in Hr as [->|[Hr _]]; [exact Ha|by apply HI].
    + intros rep'. by rewrite HK.
Qed.

Theorem C21_reports choose t t' v :
  (forall k s, s <> ∅ -> choose k s ∈ s) -> WF t -> projectivize choose t = Ret (t', Some v) ->
  steps t v t' /\ Forall (fun rep : report => inner t rep.1.1) v /\
  (forall r, e_tgt r ∉ map (fun rep : report => rep.2) v -> r ∈ edges t' <-> r ∈ edges t) /\
  (forall p w c, lparent t p w c <-> foldr put_back (lparent t') v p w c).
Proof.
  intros Hch W H. destruct (is_projective t) eqn:Hp.
  { unfold projectivize in H. rewrite Hp in H. done. }
  destruct (projectivize_ok choose t Hch W Hp) as (t1 & v1 & H1 & _ & Hm & _).
  rewrite H in H1. injection H1 as -> ->. pose proof (sh_uniq _ _ _ (wf_shape _ W)) as U.
  split_and!; [by apply moves_steps| |by apply moves_unreported|by apply moves_undo].
  eapply moves_inner; [exact Hm|]. intros r Hr Pr. assert (HE : PE (edges t) (e_src r) (e_tgt r)) by (by exists r).
  destruct (sh_live _ _ _ (wf_shape _ W) _ _ HE) as [[[nt|tm] Hw] _]; [by exists nt|]. by destruct (sh_leaf _ _ _ (wf_shape _ W) _ _ (e_tgt r) Hw).
Qed.
Print Assumptions C21_reports.
Example C21_ex :
  WF ex_disc /\ exists t', projectivize ex_choose ex_disc = Ret (t', Some [(3, Primary None, 6)]).
Proof. split; [apply ex_disc_WF|]. eexists. vm_compute. reflexivity. Qed.

(** ** C24: [filter_nonterminals]

    The closure may look at the node it is asked about (its label, say) but at nothing else: the
    tree is modified between the calls. *)
Theorem C24_filter_nonterminals t f :
  WF t -> (forall t1 t2 n, nodes t1 !! n = nodes t2 !! n -> f t1 n = f t2 n) ->
  exists t', filter_nonterminals t f = Ret (t', Ok ()) /\ WF t' /\
    tr_root t' = tr_root t /\ tr_nterm t' = tr_nterm t /\
    (forall n w, nodes t' !! n = Some w <->
       nodes t !! n = Some w /\ (n = tr_root t \/ is_terminal w = true \/ f t n = true)) /\
    (forall a b, is_Some (nodes t' !! a) -> is_Some (nodes t' !! b) ->
       Dom (edges t') a b <-> Dom (edges t) a b).
Proof. intros W Hf. apply filter_nonterminals_ok; [done|]. intros t1 t2 n H. by apply Hf. Qed.
Print Assumptions C24_filter_nonterminals.
Definition ex_keep : tree -> nat -> bool := fun t n =>
  match nodes t !! n with Some w => str_eqb (node_label w) (lit "NP") | None => false end.
Example C24_ex :
  WF ex_disc /\ (forall t1 t2 n, nodes t1 !! n = nodes t2 !! n -> ex_keep t1 n = ex_keep t2 n) /\
  exists t', filter_nonterminals ex_disc ex_keep = Ret (t', Ok ()) /\
    map (fun n => map fst (children t' n)) [1; 3; 6] = [[2; 0]; [4; 5; 1]; []].
Proof.
  split_and!; [apply ex_disc_WF| |eexists; vm_compute; split; reflexivity].
  intros t1 t2 n H. unfold ex_keep. by rewrite H.
Qed.

(** ** C27: [annotate_pos] *)

(** [ls] lists the terminal nodes of [t] in the order of their node indices. *)
Definition index_order (t : tree) (ls : list nat) : Prop :=
  (forall n, n ∈ ls <-> exists tm, nodes t !! n = Some (T tm)) /\ StronglySorted lt ls.

Lemma terminals_index_order t : graph_ok (tr_graph t) -> index_order t (terminals t).
Proof.
  intros G. split; [intros n; by apply elem_of_terminals|].
  unfold terminals, node_indices. apply StronglySorted_filter, StronglySorted_filter, StronglySorted_seq.
Qed.
Lemma index_order_unique t l l' : index_order t l -> index_order t l' -> l = l'.
Proof.
  intros [H1 S1] [H2 S2]. apply (ssorted_eq (fun n => n)); try done.
  intros x. by rewrite H1, H2.
Qed.

(** [t'] is [t] except that the terminal [ls !! i] has the tag [tags !! i]. *)
Definition tagged (t t' : tree) (ls : list nat) (tags : list str) : Prop :=
  exists N', t' = set_N t N' /\
    (forall n, n ∉ ls -> N' !! n = nodes t !! n) /\
    (forall i n pos, ls !! i = Some n -> tags !! i = Some pos ->
       exists tm, nodes t !! n = Some (T tm) /\
         N' !! n = Some (T (mk_term (t_form tm) pos (t_lemma tm) (t_feats tm) (t_span tm)))).

Theorem C27_index_order t tags ls :
  WF t -> index_order t ls ->
  exists t' r, annotate_pos t tags = Ret (t', r) /\
    (r = Ok () <-> length tags = length ls) /\ WF t' /\
    (r = Ok () -> tagged t t' ls tags).
Proof.
  intros W HL. pose proof W as [G Sh Tm Nt Nd].
  rewrite (index_order_unique t ls (terminals t)) by (done || by apply terminals_index_order).
  destruct (annotate_pos_spec t tags G) as (N' & r & H1 & H2 & H3 & H4 & H5).
  exists (set_N t N'), r. split_and!; try done; [by apply set_N_WF|]. intros Hr. exists N'. split_and!; try done.
  - intros n Hn. rewrite elem_of_terminals in Hn by done.
    destruct (nodes t !! n) as [[nt|tm]|] eqn:E; [by apply H4|destruct Hn; eauto|].
    apply (f_equal (.!! n)) in H3. rewrite !lookup_fmap, E in H3. by destruct (N' !! n).
  - intros i n pos Hi Hp. pose proof (elem_of_list_lookup_2 _ _ _ Hi) as Hn.
    apply elem_of_terminals in Hn as [tm Htm]; [|done]. exists tm. split; [done|].
    rewrite (H5 i n tm Hi Htm), Hp. done.
Qed.
Print Assumptions C27_index_order.

(** Missing for the full statement: trees whose node order differs from the word order, for which
    it is false ([C27_sentence_order_refuted]). *)
Theorem C27_sentence_order_partial t tags ls :
  WF t -> index_order t ls -> (forall i n, ls !! i = Some n <-> term_pos (nodes t) n i) ->
  exists t' r, annotate_pos t tags = Ret (t', r) /\
    (r = Ok () <-> length tags = tr_nterm t) /\ WF t' /\
    (r = Ok () -> tagged t t' ls tags).
Proof.
  intros W HL HP. pose proof W as [G Sh Tm Nt Nd].
  assert (HS : ls = sort_indices t (terminals t)).
  { destruct (sentence_sorted t G Tm) as [_ HS]. apply list_eq. intros i. apply option_eq. intros n. by rewrite HP, HS. }
  rewrite <- (proj1 (sentence_sorted t G Tm)), <- HS. by apply C27_index_order.
Qed.
Print Assumptions C27_sentence_order_partial.
Example C27_ex :
  WF ex_proj /\ index_order ex_proj [0; 2; 4; 5] /\
  (forall i n, [0; 2; 4; 5] !! i = Some n <-> term_pos (nodes ex_proj) n i) /\
  WF ex_disc /\ index_order ex_disc [0; 2; 4; 5].
Proof.
  assert (H1 : terminals ex_proj = [0; 2; 4; 5]) by (by vm_compute).
  assert (H2 : sort_indices ex_proj (terminals ex_proj) = [0; 2; 4; 5]) by (by vm_compute).
  assert (H3 : terminals ex_disc = [0; 2; 4; 5]) by (by vm_compute).
  split_and!; [apply ex_proj_WF| | |apply ex_disc_WF|].
  - rewrite <- H1. apply terminals_index_order, ex_proj_WF.
  - rewrite <- H2. apply sentence_sorted; apply ex_proj_WF.
  - rewrite <- H3. apply terminals_index_order, ex_disc_WF.
Qed.
Theorem C27_sentence_order_refuted :
  exists t tags t' n i,
    WF t /\ annotate_pos t tags = Ret (t', Ok ()) /\ term_pos (nodes t) n i /\
    (node_label <$> nodes t' !! n) <> tags !! i.
Proof.
  assert (H2 : sort_indices ex_disc (terminals ex_disc) = [2; 4; 0; 5]) by (by vm_compute).
  exists ex_disc, [lit "A"; lit "B"; lit "C"; lit "D"]. eexists. exists 0, 2. split_and!.
  - apply ex_disc_WF.
  - vm_compute. reflexivity.
  - apply sentence_sorted; [apply ex_disc_WF..|]. by rewrite H2.
  - vm_compute. intros H. discriminate H.
Qed.
Print Assumptions C27_sentence_order_refuted.
(** A failed call leaves some of the tags behind. *)
Theorem C27_failure_modifies_refuted :
  exists t tags t', WF t /\ annotate_pos t tags = Ret (t', Err) /\
    (node_label <$> nodes t' !! 0) <> (node_label <$> nodes t !! 0).
Proof.
  exists ex_proj, [lit "A"]. eexists. split_and!.
  - apply ex_proj_WF.
  - vm_compute. reflexivity.
  - vm_compute. intros H. discriminate H.
Qed.
Print Assumptions C27_failure_modifies_refuted.

(** ** C28: [annotate_parent_tag] *)
Theorem C28_annotate_parent_tag t k :
  WF t ->
  ((exists n tm, nodes t !! n = Some (T tm) /\ forall p, ~ PE (edges t) p n) ->
     annotate_parent_tag t k = Ret (t, Err)) /\
  ((forall n tm, nodes t !! n = Some (T tm) -> exists p, PE (edges t) p n) ->
     exists N', annotate_parent_tag t k = Ret (set_N t N', Ok ()) /\ WF (set_N t N') /\
       (forall n, (forall tm, nodes t !! n <> Some (T tm)) -> N' !! n = nodes t !! n) /\
       (forall n tm p w, nodes t !! n = Some (T tm) -> PE (edges t) p n -> nodes t !! p = Some w ->
          N' !! n = Some (T (mk_term (t_form tm) (t_pos tm) (t_lemma tm)
                          (Some (<[k := Some (node_label w)]> (default ∅ (t_feats tm)))) (t_span tm))))).
Proof.
  intros W. pose proof W as [G Sh Tm Nt Nd]. split.
  - intros (n & tm & Hn & Hp). apply (annotate_parent_tag_err t k n tm W Hn).
    destruct (decide (n = tr_root t)) as [|Hne]; [done|].
    destruct (live_parent Sh n ltac:(eauto) Hne) as [p Hpe]. by destruct (Hp p).
  - intros HP. destruct (annotate_parent_tag_ok t k W) as (N' & H1 & H2 & H3 & H4).
    { intros n tm Hn ->. destruct (HP _ _ Hn) as [p Hp]. by apply (sh_root_top _ _ _ Sh p). }
    exists N'. split_and!; try done.
    + apply set_N_WF; [done|]. apply map_eq. intros n. rewrite !lookup_fmap.
      destruct (nodes t !! n) as [[nt|tm]|] eqn:E.
      * by rewrite (H2 _ _ E).
      * by rewrite (H4 _ _ E).
      * by rewrite (H3 _ E).
    + intros n Hn. destruct (nodes t !! n) as [[nt|tm]|] eqn:E; [by apply H2|by destruct (Hn tm)|by apply H3].
    + intros n tm p w Hn Hpe Hw. rewrite (H4 _ _ Hn). unfold featured, parent_label.
      destruct (proj1 (parent_PE t n p Sh) Hpe) as [e ->]. by rewrite Hw.
Qed.
Print Assumptions C28_annotate_parent_tag.
Example C28_ex :
  WF ex_disc /\ (forall n tm, nodes ex_disc !! n = Some (T tm) -> exists p, PE (edges ex_disc) p n) /\
  WF (tree_new (lit "a") (lit "b")) /\
  (exists n tm, nodes (tree_new (lit "a") (lit "b")) !! n = Some (T tm) /\
     forall p, ~ PE (edges (tree_new (lit "a") (lit "b"))) p n).
Proof.
  split_and!; [apply ex_disc_WF| |apply tree_new_WF|].
  - intros n tm Hn. pose proof ex_disc_WF as [G Sh Tm Nt Nd]. apply (live_parent Sh); [eauto|]. intros ->.
    assert (is_terminal <$> nodes ex_disc !! tr_root ex_disc = Some false) as Hr by (by vm_compute).
    rewrite Hn in Hr. discriminate Hr.
  - exists 0. eexists. split; [reflexivity|]. intros p (r & Hr & _). inversion Hr.
Qed.

(** ** C29: projection onto terminals *)

(** [project_nt_indices]: the closest matching proper ancestor of the word at each position, the
    root if there is none. *)
Theorem C29_nt_indices t f :
  WF t ->
  exists ind, project_nt_indices t f = Ret ind /\ length ind = tr_nterm t /\
    forall n i, term_pos (nodes t) n i ->
      (forall p, closest t (fun p => f t p = true) n p -> ind !! i = Some p) /\
      (no_match t (fun p => f t p = true) n -> ind !! i = Some (tr_root t)).
Proof. exact (project_nt_indices_spec t f). Qed.
Print Assumptions C29_nt_indices.
(** One of the two cases applies, and the closest match is unique. *)
Theorem C29_closest_total t (P : nat -> bool) n :
  WF t -> is_Some (nodes t !! n) ->
  (exists p, closest t (fun p => P p = true) n p /\
     forall q, closest t (fun p => P p = true) n q -> q = p) \/
  no_match t (fun p => P p = true) n.
Proof.
  intros W Hn. destruct (pick_spec t (fun _ => P) n W Hn) as [_ H].
  destruct (pick t (fun _ => P) n) as [p|]; [left|by right]. exists p. split; [done|].
  intros q Hq. eapply closest_unique; [exact (wf_shape _ W)| |]; done.
Qed.
Print Assumptions C29_closest_total.

(** The closures of the two annotating functions see the tree while it is being annotated; they are
    assumed to look at nonterminals and edges only. *)
Theorem C29_tag_set t k f :
  WF t -> nt_based t f ->
  exists N', project_tag_set t k f = Ret (set_N t N') /\ WF (set_N t N') /\
    (forall n, (forall tm, nodes t !! n <> Some (T tm)) -> N' !! n = nodes t !! n) /\
    (forall n tm, nodes t !! n = Some (T tm) ->
       (forall p w, closest t (fun p => f t p = true) n p -> nodes t !! p = Some w ->
          N' !! n = Some (T (featured tm k (node_label w)))) /\
       (no_match t (fun p => f t p = true) n -> N' !! n = Some (T tm))).
Proof.
  intros W Hf. pose proof W as [G Sh Tm Nt Nd].
  destruct (project_tag_set_spec t k f W Hf) as (N' & H1 & H2 & H3 & H4). exists N'. split_and!; try done.
  - apply set_N_WF; [done|]. apply map_eq. intros n. rewrite !lookup_fmap.
    destruct (nodes t !! n) as [[nt|tm]|] eqn:E.
    + by rewrite (H2 _ _ E).
    + rewrite (H4 _ _ E). by destruct (pick t f n).
    + by rewrite (H3 _ E).
  - intros n Hn. destruct (nodes t !! n) as [[nt|tm]|] eqn:E; [by apply H2|by destruct (Hn tm)|by apply H3].
  - intros n tm Hn. destruct (pick_spec t f n W ltac:(eauto)) as [_ HP]. specialize (H4 n tm Hn). rewrite H4.
    destruct (pick t f n) as [p'|] eqn:E; split.
    + intros p w Hp Hw. rewrite <- (closest_unique t _ n p p' Sh Hp HP). unfold label_of. by rewrite Hw.
    + intros HN. destruct HP as (HP1 & HP2 & _). by destruct (HN p').
    + intros p w (HP1 & HP2 & _) Hw. by destruct (HP p).
    + done.
Qed.
Print Assumptions C29_tag_set.

Theorem C29_ids t k f :
  WF t -> nt_based t f ->
  exists N', project_ids t k f = Ret (set_N t N') /\ WF (set_N t N') /\
    (forall n, (forall tm, nodes t !! n <> Some (T tm)) -> N' !! n = nodes t !! n) /\
    (forall n tm, nodes t !! n = Some (T tm) ->
       (forall p, closest t (fun p => f t p = true) n p ->
          exists i, N' !! n = Some (T (featured tm k (print_nat i)))) /\
       (no_match t (fun p => f t p = true) n -> N' !! n = Some (T tm))) /\
    (forall n n' p p' tm tm' i i',
       nodes t !! n = Some (T tm) -> nodes t !! n' = Some (T tm') ->
       closest t (fun p => f t p = true) n p -> closest t (fun p => f t p = true) n' p' ->
       N' !! n = Some (T (featured tm k i)) -> N' !! n' = Some (T (featured tm' k i')) ->
       i = i' <-> p = p').
Proof.
  intros W Hf. pose proof W as [G Sh Tm Nt Nd].
  destruct (project_ids_spec t k f W Hf) as (N' & m & H1 & [_ Hinj] & H2 & H3 & H4).
  assert (HC : forall n tm p, nodes t !! n = Some (T tm) -> closest t (fun p => f t p = true) n p ->
            exists i, m !! p = Some i /\ N' !! n = Some (T (featured tm k (print_nat i)))).
  { intros n tm p Hn Hp. destruct (pick_spec t f n W ltac:(eauto)) as [_ HP]. specialize (H4 n tm Hn).
    destruct (pick t f n) as [p'|] eqn:E.
    - by rewrite (closest_unique t _ n p p' Sh Hp HP).
    - destruct Hp as (HP1 & HP2 & _). by destruct (HP p). }
  assert (HF : forall tm i j, Some (T (featured tm k i)) = Some (T (featured tm k j)) -> i = j).
  { intros tm i j E. injection E as E.
    apply (f_equal (.!! k)) in E. rewrite !lookup_insert in E. by injection E. }
  exists N'. split_and!; try done.
  - apply set_N_WF; [done|]. apply map_eq. intros n. rewrite !lookup_fmap.
    destruct (nodes t !! n) as [[nt|tm]|] eqn:E.
    + by rewrite (H2 _ _ E).
    + specialize (H4 _ _ E). destruct (pick t f n); [destruct H4 as (i & _ & ->)|rewrite H4]; done.
    + by rewrite (H3 _ E).
  - intros n Hn. destruct (nodes t !! n) as [[nt|tm]|] eqn:E; [by apply H2|by destruct (Hn tm)|by apply H3].
  - intros n tm Hn. split.
    + intros p Hp. destruct (HC n tm p Hn Hp) as (i & _ & Hi). by exists i.
    + intros HN. destruct (pick_spec t f n W ltac:(eauto)) as [_ HP]. specialize (H4 n tm Hn).
      destruct (pick t f n) as [p'|] eqn:E; [|done]. destruct HP as (HP1 & HP2 & _). by destruct (HN p').
  - intros n n' p p' tm tm' i i' Hn Hn' Hp Hp' Hi Hi'.
    destruct (HC n tm p Hn Hp) as (j & Hj & Hj2). destruct (HC n' tm' p' Hn' Hp') as (j' & Hj' & Hj2').
    rewrite Hi in Hj2. rewrite Hi' in Hj2'. apply HF in Hj2, Hj2'. subst i i'. split.
    + intros ->%print_nat_inj. by apply (Hinj p p' j').
    + intros ->. rewrite Hj in Hj'. by injection Hj' as ->.
Qed.
Print Assumptions C29_ids.
Lemma ex_keep_nt_based t : WF t -> nt_based t (fun t n =>
  match nodes t !! n with Some (NT nt) => str_eqb (nt_label nt) (lit "NP") | _ => false end).
Proof. intros W t' p nt _ _ H Hp. by rewrite Hp, (proj2 (H p nt) Hp). Qed.
Example C29_ex :
  WF ex_disc /\ nt_based ex_disc (fun t n =>
    match nodes t !! n with Some (NT nt) => str_eqb (nt_label nt) (lit "NP") | _ => false end) /\
  project_nt_indices ex_disc ex_keep = Ret [1; 3; 1; 3].
Proof. split_and!; [apply ex_disc_WF|apply ex_keep_nt_based, ex_disc_WF|by vm_compute]. Qed.
