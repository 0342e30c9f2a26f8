(** Reading back what the NEGRA writer wrote: the two trees correspond. *)
From Coq Require Import Lia.
From Verif Require Import NegraModel TreeSpec BaseProofs SpanProofs ShapeProofs GraphProofs SortProofs TreeOps RoseProofs IsoRose NegraSpec NegraWrite NegraStep NegraRead NegraWF NegraAccept NegraRound NegraRound2.

(** ** Which line is parsed with which position *)
Definition is_tline (a : nline) : bool := match a with TLine _ _ _ _ => true | NLine _ _ _ _ _ _ => false end.
Definition tcount (als : list nline) : nat := length (filter (fun a => is_tline a = true) als).
Lemma tcount_app a b : tcount (a ++ b) = tcount a + tcount b.
Proof. unfold tcount. by rewrite filter_app, app_length. Qed.
Lemma tcount_one a : tcount [a] = if is_tline a then 1 else 0.
Proof. by destruct a. Qed.
Lemma steps_als b body als b' : steps b body als b' ->
  length als = length body /\ b_nterm b' = b_nterm b + tcount als /\
  forall i l a, body !! i = Some l -> als !! i = Some a ->
    parse_line (b_nterm b + tcount (take i als)) (trim l) = Some a.
Proof.
  induction 1 as [b|b body b1 als l a b2 Hs (IH1 & IH2 & IH3) Hp Hst].
  - split_and!; [done|unfold tcount; simpl; lia|]. intros i l a H. done.
  - split_and!.
    + rewrite !app_length. simpl. lia.
    + rewrite tcount_app. destruct Hst as (_ & _ & Hst). destruct a as [tm edge pid sec|id label ann edge pid sec].
      * destruct Hst as (_ & _ & _ & E & _). unfold tcount at 2. simpl. lia.
      * destruct Hst as (_ & _ & E & _). unfold tcount at 2. simpl. lia.
    + intros i l' a' Hb Ha. apply lookup_app_Some in Ha as [Ha|[Hge Ha]].
      * pose proof (lookup_lt_Some _ _ _ Ha) as Hlt. rewrite lookup_app_l in Hb by lia. rewrite take_app_le by lia. by eapply IH3.
      * apply list_lookup_singleton_Some in Ha as [Ei <-]. assert (i = length als) as -> by lia.
        rewrite take_app. rewrite IH1 in Hb. rewrite list_lookup_middle in Hb by done. injection Hb as <-. by rewrite <- IH2.
Qed.

(** Contents that survive. *)
Definition term_back (a b : terminal) : Prop :=
  t_form a = t_form b /\ t_pos a = t_pos b /\ t_lemma a = t_lemma b /\
  exists m, has_feat (t_feats a) (lit "morph") m /\ t_feats b = morph_feats m.
Definition nt_back (a b : nonterminal) : Prop :=
  nt_label a = nt_label b /\
  exists m, has_feat (nt_feats a) (lit "node_annotation") m /\ nt_feats b = ann_feats m.

Section back.
  Context (t : tree) (nts words : list nat) (tl nl : list str).
  Hypothesis (W : WF t) (A : writable t) (HN : numbering t nts) (HS : sentence t words).
  Hypothesis (HT : Forall2 (term_line t nts) words tl) (Hlen : length nl = length nts).
  Hypothesis (HL : forall i n l, nts !! i = Some n -> nl !! i = Some l -> nt_line t nts (500 + i) n l).
  Notation row := (row nts words tl nl).

  Context (b0 b : builder) (als : list nline) (k : nat) (meta : option str) (L : list nat) (t' : tree).
  Hypothesis (Hf : fresh k meta b0) (Hsteps : steps b0 (tl ++ nl) als b).
  Hypothesis (I : BI (root_nt k meta) b als L) (Hfin : finished b t') (W' : WF t').

  Lemma row_al i n l : row i n l -> exists a pos, als !! i = Some a /\ parse_line pos (trim l) = Some a /\ pos = tcount (take i als).
  Proof using Hsteps Hf HT Hlen.
    intros Hrow. destruct (steps_als _ _ _ _ Hsteps) as (H1 & H2 & H3).
    assert (Hb : (tl ++ nl) !! i = Some l) by (apply (body_row t nts words tl nl HT Hlen); eauto).
    assert (is_Some (als !! i)) as [a Ha]. { apply lookup_lt_is_Some. rewrite H1. by eapply lookup_lt_Some. }
    exists a. eexists. split_and!; [done|by eapply H3|]. destruct Hf as [_ _ _ _ [-> _]]. done.
  Qed.
  Lemma al_row i a : als !! i = Some a -> exists n l, row i n l.
  Proof using Hsteps HT Hlen.
    intros Ha. destruct (steps_als _ _ _ _ Hsteps) as (H1 & _). apply lookup_lt_Some in Ha. rewrite H1 in Ha.
    apply lookup_lt_is_Some in Ha as [l Hl]. apply (body_row t nts words tl nl HT Hlen) in Hl as [n Hn]. eauto.
  Qed.
  Lemma al_kind i a : als !! i = Some a -> is_tline a = bool_decide (i < length words).
  Proof using W A HN HS HT Hlen HL Hsteps Hf.
    intros Ha. destruct (al_row i a Ha) as (n & l & Hrow).
    destruct (row_al i n l Hrow) as (a' & pos & Ha' & Hp & _). assert (a' = a) as -> by congruence.
    destruct (row_says t nts words tl nl W A HN HS HT HL i n l Hrow) as (r & pid & sec & _ & _ & _ & _ & _ & _ & _ & H).
    destruct H as [(tm & morph & Hw & _ & _ & Hk)|(j & nt & ann & -> & Hj & _ & _ & Hk)]; rewrite Hk in Hp; injection Hp as <-; simpl.
    - apply lookup_lt_Some in Hw. by rewrite bool_decide_eq_true_2.
    - rewrite bool_decide_eq_false_2; [done|]. lia.
  Qed.
  Lemma tcount_words i : i <= length als -> tcount (take i als) = Nat.min i (length words).
  Proof using W A HN HS HT Hlen HL Hsteps Hf.
    induction i as [|i IH]; intros Hi; [done|].
    destruct (als !! i) as [a|] eqn:Ea; [|apply lookup_ge_None in Ea; lia].
    rewrite (take_S_r _ _ _ Ea), tcount_app, IH by lia. pose proof (al_kind i a Ea) as Hk. rewrite tcount_one, Hk. case_bool_decide; lia.
  Qed.
  Lemma als_length : length als = length words + length nts.
  Proof using Hsteps HT Hlen.
    destruct (steps_als _ _ _ _ Hsteps) as (-> & _). rewrite app_length, Hlen. by rewrite (Forall2_length _ _ _ HT).
  Qed.
  Lemma nterm_back : b_nterm b = length words.
  Proof using W A HN HS HT Hlen HL Hsteps Hf.
    destruct (steps_als _ _ _ _ Hsteps) as (_ & -> & _). destruct Hf as [_ _ _ _ [-> _]].
    rewrite <- (firstn_all als), tcount_words, als_length by lia. lia.
  Qed.

  Definition twin (n n' : nat) : Prop :=
    (exists id, id_of t nts n id /\ b_idx b !! id = Some n') \/
    (exists i, words !! i = Some n /\ term_pos (nodes t') n' i).

  Lemma nodes_back n : nodes t' !! n = bnodes b !! n \/ n = 0 /\ exists nt, nt_label nt = lit "VROOT" /\ nt_feats nt = nt_feats (root_nt k meta) /\ nodes t' !! n = Some (NT nt).
  Proof using Hfin I.
    destruct Hfin as (nt & new & _ & _ & H0 & _ & _ & _ & _ & HNn & _). rewrite HNn.
    destruct (decide (n = 0)) as [->|Hne]; [right|left; by rewrite lookup_insert_ne].
    split; [done|]. rewrite lookup_insert. rewrite (bi_root _ _ _ _ I) in H0. injection H0 as <-.
    eexists. split_and!; [| |done]; done.
  Qed.
  Lemma nodes_back_T n tm : bnodes b !! n = Some (T tm) <-> nodes t' !! n = Some (T tm).
  Proof using Hfin I.
    destruct (nodes_back n) as [->|(-> & nt & _ & _ & ->)]; [done|]. rewrite (bi_root _ _ _ _ I). done.
  Qed.
  Lemma edges_back r : r ∈ bedges b -> r ∈ edges t'.
  Proof using Hfin. destruct Hfin as (nt & new & _ & _ & _ & _ & _ & _ & _ & _ & -> & _). intros H. apply elem_of_app. by right. Qed.

  (** The line of a node other than the root has made a node, its parent and the edge. *)
  Lemma row_back i n l : row i n l ->
    exists r n' p' e, r ∈ edges t /\ is_primary (e_w r) = true /\ e_tgt r = n /\ twin n n' /\ twin (e_src r) p' /\
      mk_e e p' n' (Primary (edge_label (e_w r))) ∈ edges t' /\
      match nodes t !! n, nodes t' !! n' with
      | Some (T a), Some (T c) => term_back a c /\ t_span a = t_span c
      | Some (NT a), Some (NT c) => nt_back a c
      | _, _ => False
      end.
  Proof using W A HN HS HT Hlen HL Hsteps Hf I Hfin.
    intros Hrow. destruct (row_al i n l Hrow) as (a & pos & Ha & Hp & Epos).
    destruct (row_says t nts words tl nl W A HN HS HT HL i n l Hrow) as (r & pid & sec & H1 & H2 & H3 & H4 & _ & _ & _ & H).
    assert (Hd : line_done b a). { pose proof (bi_lines _ _ _ _ I) as HF. rewrite Forall_lookup in HF. by eapply HF. }
    destruct Hd as (n' & p' & e & D1 & D2 & D3). exists r, n', p', e.
    assert (Hparent : twin (e_src r) p').
    { left. exists pid. split; [done|]. destruct H as [(? & ? & _ & _ & _ & Hk)|(? & ? & ? & _ & _ & _ & _ & Hk)]; rewrite Hk in Hp; by injection Hp as <-. }
    assert (Hedge : mk_e e p' n' (Primary (edge_label (e_w r))) ∈ edges t').
    { apply edges_back. destruct H as [(? & ? & _ & _ & _ & Hk)|(? & ? & ? & _ & _ & _ & _ & Hk)]; rewrite Hk in Hp; by injection Hp as <-. }
    destruct H as [(tm & morph & Hw & Htm & Hm & Hk)|(j & nt & ann & -> & Hj & Hnt & Hm & Hk)]; rewrite Hk in Hp; injection Hp as <-.
    - apply nodes_back_T in D3. assert (Ei : pos = i).
      { rewrite Epos, tcount_words; [|apply lookup_lt_Some in Ha; lia]. apply lookup_lt_Some in Hw. lia. }
      split_and!; try done.
      + right. exists i. split; [done|]. eexists. split; [exact D3|]. simpl. by rewrite Ei.
      + rewrite Htm, D3. split; [|].
        * repeat split; simpl; try done. by exists morph.
        * simpl. apply HS in Hw as (tm' & Htm' & Hs). assert (tm' = tm) as -> by congruence. by rewrite Hs, Ei.
    - destruct D3 as (D3 & nt' & Hn' & El & Ef).
      split_and!; try done.
      + left. exists (500 + j). split; [|done]. right. eauto.
      + rewrite Hnt. destruct (nodes_back n') as [->|(-> & _)].
        * rewrite Hn'. split; [done|]. by exists ann.
        * exfalso. pose proof (b0_root _ (bi_B0 _ _ _ _ I)) as H0. assert (500 + j = 0) by (by eapply (bi_inj _ _ _ _ I)). lia.
  Qed.
  Lemma twin_root : twin (tr_root t) (tr_root t').
  Proof using Hfin I.
    left. exists 0. split; [by left|]. destruct Hfin as (nt & new & _ & _ & _ & _ & -> & _). apply (b0_root _ (bi_B0 _ _ _ _ I)).
  Qed.
  Lemma id_of_nt n id : id_of t nts n id -> exists nt, nodes t !! n = Some (NT nt).
  Proof using A HN.
    intros [[-> _]|(i & Hi & _)].
    - destruct (wr_root t A) as (nt & ? & _). eauto.
    - apply elem_of_list_lookup_2, HN in Hi. tauto.
  Qed.
  Lemma idx_nt id n' : b_idx b !! id = Some n' -> exists nt, nodes t' !! n' = Some (NT nt).
  Proof using Hfin I.
    intros H. apply (b0_idx _ (bi_B0 _ _ _ _ I)) in H as [nt H].
    destruct (nodes_back n') as [->|(_ & nt' & _ & _ & ->)]; eauto.
  Qed.
  Lemma twin_fun n n1 n2 : twin n n1 -> twin n n2 -> n1 = n2.
  Proof using A HN HS Hfin I W'.
    intros [(id & H1 & H2)|(i & H1 & H2)] [(id' & H3 & H4)|(i' & H3 & H4)].
    - rewrite (id_of_fun t nts HN _ _ _ H1 H3) in H2. congruence.
    - apply id_of_nt in H1 as [nt H1]. apply HS in H3 as (tm & H3 & _). congruence.
    - apply id_of_nt in H3 as [nt H3]. apply HS in H1 as (tm & H1 & _). congruence.
    - apply HS in H1 as (tm & H1 & E1), H3 as (tm' & H3 & E3). assert (tm' = tm) as -> by congruence.
      rewrite E1 in E3. injection E3 as <-. by eapply (to_inj _ _ (wf_terms _ W')).
  Qed.
  Lemma twin_inj n1 n2 n' : twin n1 n' -> twin n2 n' -> n1 = n2.
  Proof using A HN HS Hfin I.
    intros [(id & H1 & H2)|(i & H1 & H2)] [(id' & H3 & H4)|(i' & H3 & H4)].
    - rewrite (bi_inj _ _ _ _ I _ _ _ H2 H4) in H1. by eapply id_of_inj.
    - apply idx_nt in H2 as [nt H2]. destruct H4 as (tm & H4 & _). congruence.
    - apply idx_nt in H4 as [nt H4]. destruct H2 as (tm & H2 & _). congruence.
    - destruct H2 as (tm & H2 & E2), H4 as (tm' & H4 & E4). assert (tm' = tm) as -> by congruence.
      rewrite E2 in E4. injection E4 as <-. congruence.
  Qed.
  Lemma twin_onto n' : is_Some (nodes t' !! n') -> exists n, twin n n'.
  Proof using W A HN HS HT Hlen HL Hsteps Hf I Hfin W'.
    intros [[nt|tm] Hn'].
    - assert (exists id, b_idx b !! id = Some n') as [id Hid].
      { destruct (nodes_back n') as [E|(-> & _)]; [|exists 0; apply (b0_root _ (bi_B0 _ _ _ _ I))].
        rewrite E in Hn'. by eapply (bi_nt _ _ _ _ I). }
      assert (exists n, id_of t nts n id) as [n Hn]; [|exists n; left; eauto].
      destruct (proj1 (bi_idx _ _ _ _ I id)) as [->|(a & [i Ha]%elem_of_list_lookup & Hpid)]; [eauto|exists (tr_root t); by left|].
      destruct (al_row i a Ha) as (n & l & Hrow).
      destruct (row_al i n l Hrow) as (a' & pos & Ha' & Hp & _). assert (a' = a) as -> by congruence.
      destruct (row_says t nts words tl nl W A HN HS HT HL i n l Hrow) as (r & pid & sec & _ & _ & _ & H4 & _ & _ & _ & H).
      exists (e_src r). destruct H as [(? & ? & _ & _ & _ & Hk)|(? & ? & ? & _ & _ & _ & _ & Hk)]; rewrite Hk in Hp; injection Hp as <-; by rewrite <- Hpid.
    - destruct (to_pos _ _ (wf_terms _ W') n' tm Hn') as (i & Hs & Hlt).
      assert (Hnt : tr_nterm t' = length words).
      { rewrite <- nterm_back. by destruct Hfin as (nt & new & _ & _ & _ & _ & _ & -> & _). }
      rewrite Hnt in Hlt. apply lookup_lt_is_Some in Hlt as [n Hn]. exists n. right. exists i. split; [done|]. by exists tm.
  Qed.
  Lemma twin_node x y : twin x y ->
    match nodes t !! x, nodes t' !! y with
    | Some (T a), Some (T c) => term_back a c /\ t_span a = t_span c
    | Some (NT a), Some (NT c) =>
        if decide (x = tr_root t) then nt_label a = nt_label c /\ nt_feats c = nt_feats (root_nt k meta) else nt_back a c
    | _, _ => False
    end.
  Proof using W A HN HS HT Hlen HL Hsteps Hf I Hfin W'.
    intros HM. destruct (decide (x = tr_root t)) as [->|Hne].
    - assert (y = tr_root t') as -> by (eapply twin_fun; [exact HM|apply twin_root]).
      destruct (wr_root t A) as (nt & Hnt & Hl & _). rewrite Hnt.
      destruct Hfin as (nt' & new & _ & _ & H0 & _ & Hr & _ & _ & HNn & _). rewrite Hr, HNn, lookup_insert.
      rewrite (bi_root _ _ _ _ I) in H0. injection H0 as <-. split; [|done]. rewrite Hl. done.
    - assert (Hlive : is_Some (nodes t !! x)).
      { destruct HM as [(id & H & _)|(i & H & _)]; [apply id_of_nt in H as [? ->]; eauto|]. apply HS in H as (tm & -> & _). eauto. }
      destruct (node_row t nts words tl nl W HN HS HT Hlen x Hlive Hne) as (i & l & Hrow).
      destruct (row_back i x l Hrow) as (r & n' & p' & e & _ & _ & _ & Ht & _ & _ & HC).
      rewrite (twin_fun _ _ _ HM Ht). destruct (nodes t !! x) as [[|]|]; try done; by destruct (nodes t' !! n') as [[|]|].
  Qed.
  Lemma twin_fwd r y : r ∈ edges t -> is_primary (e_w r) = true -> twin (e_src r) y ->
    exists r', r' ∈ edges t' /\ is_primary (e_w r') = true /\ e_src r' = y /\ twin (e_tgt r) (e_tgt r') /\
      edge_label (e_w r) = edge_label (e_w r').
  Proof using W A HN HS HT Hlen HL Hsteps Hf I Hfin W'.
    intros Hr Hp HM. assert (HPE : PE (edges t) (e_src r) (e_tgt r)) by (by exists r).
    destruct (node_row t nts words tl nl W HN HS HT Hlen (e_tgt r)) as (i & l & Hrow).
    { by eapply (sh_live _ _ _ (wf_shape _ W)). }
    { intros E. rewrite E in HPE. by apply (sh_root_top _ _ _ (wf_shape _ W)) in HPE. }
    destruct (row_back i _ l Hrow) as (r1 & n' & p' & e & R1 & R2 & R3 & Ht & Htp & He & _).
    assert (r1 = r) as -> by (by apply (sh_uniq _ _ _ (wf_shape _ W))).
    eexists. split_and!; [exact He|done|simpl|done|done]. by eapply twin_fun.
  Qed.
  Lemma twin_bwd r' x : r' ∈ edges t' -> is_primary (e_w r') = true -> twin x (e_src r') ->
    exists r, r ∈ edges t /\ is_primary (e_w r) = true /\ e_src r = x /\ twin (e_tgt r) (e_tgt r') /\
      edge_label (e_w r) = edge_label (e_w r').
  Proof using W A HN HS HT Hlen HL Hsteps Hf I Hfin W'.
    intros Hr Hp HM. assert (HPE : PE (edges t') (e_src r') (e_tgt r')) by (by exists r').
    destruct (twin_onto (e_tgt r')) as [c Hc]. { by eapply (sh_live _ _ _ (wf_shape _ W')). }
    assert (Hlive : is_Some (nodes t !! c)).
    { destruct Hc as [(id & H & _)|(i & H & _)]; [apply id_of_nt in H as [? ->]; eauto|]. apply HS in H as (tm & -> & _). eauto. }
    destruct (node_row t nts words tl nl W HN HS HT Hlen c Hlive) as (i & l & Hrow).
    { intros ->. rewrite (twin_fun _ _ _ Hc twin_root) in HPE. by apply (sh_root_top _ _ _ (wf_shape _ W')) in HPE. }
    destruct (row_back i _ l Hrow) as (r & n' & p' & e & R1 & R2 & R3 & Ht & Htp & He & _).
    rewrite (twin_fun _ _ _ Ht Hc) in He.
    assert (r' = mk_e e p' (e_tgt r') (Primary (edge_label (e_w r)))) as E by (by apply (sh_uniq _ _ _ (wf_shape _ W'))).
    exists r. split_and!; [done|done| |by rewrite R3|by rewrite E].
    rewrite E in HM. simpl in HM. by eapply twin_inj.
  Qed.
End back.
