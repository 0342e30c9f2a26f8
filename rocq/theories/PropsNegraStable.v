(** C70: writing a tree that was read from NEGRA and reading it again. *)
From Coq Require Import Lia.
From Verif Require Import NegraModel Api TreeSpec BaseProofs SpanProofs ShapeProofs GraphProofs SortProofs TreeOps RoseProofs PtbSpec PtbBuild PtbRound NegraSpec NegraWrite NegraStep NegraRead NegraAccept
  NegraRound NegraRound2 NegraRound3 NegraRound4 PropsNegra PropsNegra2 PropsRead PropsReadWF NegraWritable.
Local Arguments lit : simpl never.

(** ** Specification *)
(** The same tree under other node numbers: strings, positions, all edges with their labels, primary
    and secondary. *)
Definition same_word (a b : terminal) : Prop :=
  t_form a = t_form b /\ t_pos a = t_pos b /\ t_lemma a = t_lemma b /\ t_span a = t_span b /\
  forall m, has_feat (t_feats a) (lit "morph") m <-> has_feat (t_feats b) (lit "morph") m.
Definition same_label (a b : nonterminal) : Prop :=
  nt_label a = nt_label b /\
  forall m, has_feat (nt_feats a) (lit "node_annotation") m <-> has_feat (nt_feats b) (lit "node_annotation") m.
Record same_tree (t t' : tree) (M : nat -> nat -> Prop) : Prop := {
  st_root : M (tr_root t) (tr_root t');
  st_left : forall x, is_Some (nodes t !! x) <-> exists x', M x x';
  st_right : forall x', is_Some (nodes t' !! x') <-> exists x, M x x';
  st_fun : forall x y y', M x y -> M x y' -> y = y';
  st_inj : forall x x' y, M x y -> M x' y -> x = x';
  st_node : forall x x', M x x' ->
    (exists a b, nodes t !! x = Some (T a) /\ nodes t' !! x' = Some (T b) /\ same_word a b) \/
    (exists a b, nodes t !! x = Some (NT a) /\ nodes t' !! x' = Some (NT b) /\ same_label a b);
  st_edge : forall x y x' y' w, M x x' -> M y y' ->
    (exists r, r ∈ edges t /\ e_src r = x /\ e_tgt r = y /\ e_w r = w) <->
    (exists r, r ∈ edges t' /\ e_src r = x' /\ e_tgt r = y' /\ e_w r = w)
}.

(** ** Lines are read in one way *)
Lemma says_word_fun l i a b : says_word l i a -> says_word l i b -> same_word a b.
Proof.
  intros (f & le & p & m & E & A1 & A2 & A3 & (x & A4 & A5) & A6) (f' & le' & p' & m' & E' & B1 & B2 & B3 & (x' & B4 & B5) & B6).
  rewrite E in E'. injection E' as <- <- <- <-. pose proof (gives_fun _ _ _ A2 B2) as El. pose proof (gives_fun _ _ _ A4 B4) as ->.
  split_and!; try congruence. intros mm. by rewrite A5, B5.
Qed.

Section iso.
  Context (t : tree) (nts words : list nat) (tl nl : list str).
  Hypothesis (W : WF t) (A : writable t) (HN : numbering t nts) (HS : sentence t words).
  Hypothesis (HT : Forall2 (term_line t nts) words tl) (Hlen : length nl = length nts).
  Hypothesis (HL : forall i n l, nts !! i = Some n -> nl !! i = Some l -> nt_line t nts (500 + i) n l).
  Context (t' : tree) (ns : list nat).
  Hypothesis (TL : tree_of_lines (tl ++ nl) t' ns) (SF : sec_fits t).
  Context (nt' : nonterminal).
  Hypothesis (Hroot' : nodes t' !! tr_root t' = Some (NT nt')) (Hlab' : nt_label nt' = lit "VROOT").
  Hypothesis (Hann' : has_feat (nt_feats nt') (lit "node_annotation") None).

  Local Notation row := (NegraRound2.row nts words tl nl).
  Definition mate (x x' : nat) : Prop :=
    (x = tr_root t /\ x' = tr_root t') \/ exists i l, row i x l /\ ns !! i = Some x'.

  Lemma row_one i n n' l l' : row i n l -> row i n' l' -> n = n' /\ l = l'.
  Proof using All.
    intros [[H1 H2]|(j & -> & H1 & H2)] [[H3 H4]|(j' & E & H3 & H4)].
    - split; congruence.
    - subst i. apply lookup_lt_Some in H1. lia.
    - apply lookup_lt_Some in H3. lia.
    - assert (j' = j) as -> by lia. split; congruence.
  Qed.
  Lemma row_line i n l : row i n l -> (tl ++ nl) !! i = Some l.
  Proof using All. intros H. apply (body_row t nts words tl nl HT Hlen). eauto. Qed.
  Lemma row_mate i n l : row i n l -> exists n', ns !! i = Some n'.
  Proof using All.
    intros H%row_line. apply lookup_lt_is_Some. rewrite (tl_len _ _ _ TL). by eapply lookup_lt_Some.
  Qed.
  Lemma ns_row i n' : ns !! i = Some n' -> exists n l, row i n l.
  Proof using All.
    intros H. assert (is_Some ((tl ++ nl) !! i)) as [l Hl].
    { apply lookup_lt_is_Some. rewrite <- (tl_len _ _ _ TL). by eapply lookup_lt_Some. }
    apply (body_row t nts words tl nl HT Hlen) in Hl as [n Hn]. eauto.
  Qed.
  Lemma ns_nonroot i n' : ns !! i = Some n' -> n' <> tr_root t'.
  Proof using All.
    intros H ->. pose proof (tl_nodup _ _ _ TL) as Hnd. apply NoDup_cons in Hnd as [Hnd _]. apply Hnd. by eapply elem_of_list_lookup_2.
  Qed.

  Lemma mate_fun x y y' : mate x y -> mate x y' -> y = y'.
  Proof using All.
    intros [[-> ->]|(i & l & Hi & H1)] [[E ->]|(j & l' & Hj & H2)].
    - done.
    - by apply (row_nonroot t nts words tl nl A HN HS) in Hj.
    - subst x. by apply (row_nonroot t nts words tl nl A HN HS) in Hi.
    - pose proof (row_fun t nts words tl nl HN HS _ _ _ _ _ Hi Hj) as ->. congruence.
  Qed.
  Lemma mate_inj x x' y : mate x y -> mate x' y -> x = x'.
  Proof using All.
    intros [[-> ->]|(i & l & Hi & H1)] [[-> E]|(j & l' & Hj & H2)].
    - done.
    - by apply ns_nonroot in H2.
    - subst y. by apply ns_nonroot in H1.
    - pose proof (tl_nodup _ _ _ TL) as Hnd. apply NoDup_cons in Hnd as [_ Hnd].
      assert (i = j) as -> by (by eapply NoDup_lookup). by destruct (row_one _ _ _ _ _ Hi Hj).
  Qed.
  Lemma mate_live x x' : mate x x' -> is_Some (nodes t !! x).
  Proof using All.
    intros [[-> _]|(i & l & [[H _]|(j & _ & H & _)] & _)].
    - destruct (wr_root t A) as (nt & -> & _). eauto.
    - apply HS in H as (tm & -> & _). eauto.
    - apply elem_of_list_lookup_2, HN in H as (_ & nt & ->). eauto.
  Qed.
  Lemma mate_number p k p' : id_of t nts p k -> number_of (tl ++ nl) ns (tr_root t') k p' <-> mate p p'.
  Proof using All.
    intros Hid. split.
    - intros [[-> ->]|(j & l & H1 & H2 & H3)].
      + destruct Hid as [[-> _]|(i & _ & E)]; [by left|lia].
      + apply (body_row t nts words tl nl HT Hlen) in H1 as [n Hrow].
        destruct (row_ids t nts words tl nl W A HN HS HT Hlen HL _ _ _ Hrow) as (_ & _ & _ & _ & _ & _ & _ & _ & _ & _ & Eo).
        rewrite H3 in Eo. case_decide as Hj; [done|]. injection Eo as Ek. destruct Hid as [[_ ->]|(i & Hi & E)]; [lia|].
        assert (i = j - length words) as -> by lia. right. exists j, l. split; [|done].
        destruct Hrow as [[Hw _]|(j' & -> & Hn & Hl)]; [apply lookup_lt_Some in Hw; lia|].
        right. exists j'. replace (length words + j' - length words) with j' in Hi by lia. done.
    - intros [[-> ->]|(i & l & Hrow & H2)].
      + destruct Hid as [[_ ->]|(i & Hi & E)]; [by left|]. apply elem_of_list_lookup_2, HN in Hi as [? _]. done.
      + right. exists i, l. split; [by eapply row_line|]. split; [done|].
        destruct (row_ids t nts words tl nl W A HN HS HT Hlen HL _ _ _ Hrow) as (_ & _ & _ & _ & _ & _ & _ & _ & _ & _ & Eo).
        destruct Hid as [[-> _]|(i0 & Hi & E)]; [by apply (row_nonroot t nts words tl nl A HN HS) in Hrow|].
        destruct Hrow as [[Hw _]|(j' & -> & Hn & Hl)].
        * apply HS in Hw as (tm & X & _). apply elem_of_list_lookup_2, HN in Hi as (_ & nt & Y). congruence.
        * rewrite Eo, decide_False by lia. assert (j' = i0) as ->. { destruct HN as [Hnd _]. by eapply NoDup_lookup. }
          f_equal. lia.
  Qed.

  Lemma row_parsed i n l : row i n l -> exists a r pid sec, parsed l a /\ line_edge a = edge_label (e_w r) /\ line_pid a = pid /\ line_sec a = sec /\
    r ∈ edges t /\ is_primary (e_w r) = true /\ e_tgt r = n /\ id_of t nts (e_src r) pid /\ sec_ok t nts n sec.
  Proof using All.
    intros Hrow. destruct (row_says t nts words tl nl W A HN HS HT HL _ _ _ Hrow) as (r & pid & sec & H1 & H2 & H3 & H4 & H5 & _ & _ & H8).
    destruct H8 as [(tm & morph & _ & _ & _ & Hk)|(j & nt & ann & _ & _ & _ & _ & Hk)];
      (eexists _, r, pid, sec; split; [by exists 0; apply Hk|]; done).
  Qed.

  Lemma mate_node x x' : mate x x' ->
    (exists a b, nodes t !! x = Some (T a) /\ nodes t' !! x' = Some (T b) /\ same_word a b) \/
    (exists a b, nodes t !! x = Some (NT a) /\ nodes t' !! x' = Some (NT b) /\ same_label a b).
  Proof using All.
    intros [[-> ->]|(i & l & Hrow & Hi)].
    - right. destruct (wr_root t A) as (nt & Hnt & Hl & Ha & _). exists nt, nt'. split_and!; [done|done|].
      split; [congruence|]. intros m. split; intros H; [rewrite (has_feat_fun _ _ _ _ H Ha)|rewrite (has_feat_fun _ _ _ _ H Hann')]; done.
    - pose proof (row_line _ _ _ Hrow) as Hl.
      destruct (row_says t nts words tl nl W A HN HS HT HL _ _ _ Hrow) as (r & pid & sec & _ & _ & _ & _ & _ & _ & _ & H8).
      destruct H8 as [(tm & morph & Hw & Htm & Hm & Hk)|(j & nt & ann & _ & _ & Hnt & Hm & Hk)].
      + left. apply HS in Hw as (tm1 & X & Hsp). assert (tm1 = tm) as -> by congruence.
        assert (Hp : parsed l (TLine (mk_term (t_form tm) (t_pos tm) (t_lemma tm) (morph_feats morph) (span_of i)) (edge_label (e_w r)) pid sec)) by (by exists i).
        pose proof (parsed_own _ _ Hp) as Ho. destruct (tl_word _ _ _ TL _ _ _ Hl Hi Ho) as (b & Hb & Hsay).
        exists tm, b. split_and!; [done|done|].
        pose proof (says_word_fun _ _ _ _ (parsed_word l i _ _ _ _ Hp eq_refl) Hsay) as (S1 & S2 & S3 & S4 & S5). simpl in *.
        split_and!; try congruence. intros m. rewrite <- S5. unfold has_feat in Hm |- *. rewrite <- Hm. clear.
        destruct morph as [mo|]; cbn [morph_feats]; [rewrite ?lookup_insert, ?lookup_singleton|]; done.
      + right. assert (Hp : parsed l (NLine (500 + j) (nt_label nt) ann (edge_label (e_w r)) pid sec)) by (by exists 0).
        pose proof (parsed_own _ _ Hp) as Ho. destruct (tl_nt _ _ _ TL _ _ _ _ Hl Hi Ho) as (b & Hb & f & q & an & F1 & F2 & F3 & F4).
        destruct (parsed_nt _ _ _ _ _ _ _ Hp) as (f' & q' & F1' & F2' & F3'). assert (f' = f) as -> by congruence.
        destruct (cut_fun _ _ _ _ _ _ F2 F2') as [El ->]. pose proof (field_fun _ _ _ _ F3 F3') as ->.
        exists nt, b. split_and!; [done|done|]. split; [done|]. intros m. unfold has_feat in *. rewrite F4, <- Hm.
        destruct ann as [a|]; [rewrite lookup_singleton; done|done].
  Qed.

  Lemma mate_edge x y x' y' w : mate x x' -> mate y y' ->
    (exists r, r ∈ edges t /\ e_src r = x /\ e_tgt r = y /\ e_w r = w) <->
    (exists r, r ∈ edges t' /\ e_src r = x' /\ e_tgt r = y' /\ e_w r = w).
  Proof using All.
    intros Hx Hy. destruct w as [e|e].
    - rewrite (tl_prim _ _ _ TL x' y' e). split.
      + intros (r & H1 & H2 & H3 & H4).
        assert (Hne : y <> tr_root t).
        { intros ->. apply (sh_root_top _ _ _ (wf_shape _ W) x). exists r. by rewrite H4. }
        destruct Hy as [[-> _]|(i & l & Hrow & Hi)]; [done|].
        destruct (row_parsed _ _ _ Hrow) as (a & r0 & pid & sec & Hp & E1 & E2 & _ & G1 & G2 & G3 & G4 & _).
        assert (r0 = r) as ->. { apply (sh_uniq _ _ _ (wf_shape _ W)); try done; [by rewrite H4|congruence]. }
        exists i, l, pid. split_and!; [by eapply row_line|done| |by rewrite (parsed_pid _ _ Hp), E2|].
        * apply (parsed_says_edge _ _ _ Hp). rewrite E1, H4. done.
        * apply (mate_number (e_src r)); [done|]. by rewrite H2.
      + intros (i & l & k & Hl & Hi & Hse & Hpid & Hnum).
        destruct (ns_row _ _ Hi) as (n & l' & Hrow). pose proof (row_line _ _ _ Hrow) as Hl'. assert (l' = l) as -> by congruence.
        assert (Hn : mate n y') by (right; eauto). pose proof (mate_inj _ _ _ Hn Hy) as ->.
        destruct (row_parsed _ _ _ Hrow) as (a & r & pid & sec & Hp & E1 & E2 & _ & G1 & G2 & G3 & G4 & _).
        rewrite (parsed_pid _ _ Hp), E2 in Hpid. injection Hpid as <-.
        apply (mate_number (e_src r)) in Hnum; [|done]. exists r. split_and!; [done|by eapply mate_inj|done|].
        apply (parsed_says_edge _ _ _ Hp) in Hse. rewrite E1 in Hse. destruct (e_w r); [|done]. simpl in Hse. by rewrite Hse.
    - rewrite (tl_sec _ _ _ TL x' y' e). split.
      + intros (r & H1 & H2 & H3 & H4).
        destruct (proj1 SF r H1) as (Hne & s & Es & Hpc); [by rewrite H4|]. rewrite H4 in Es. injection Es as ->.
        destruct Hy as [[-> _]|(i & l & Hrow & Hi)]; [congruence|].
        destruct (row_parsed _ _ _ Hrow) as (a & r0 & pid & sec & Hp & _ & _ & E3 & _ & _ & _ & _ & Hsec).
        destruct sec as [[lab k]|].
        * destruct Hsec as (r2 & G1 & G2 & G3 & G4 & G5).
          destruct (proj2 SF r r2 H1 G1) as [Es Ew]; [by rewrite H4|done|congruence|].
          exists i, l, s, k. split_and!; [by eapply row_line|done|done| |].
          -- apply (parsed_says_sec _ _ _ _ Hp). rewrite E3, G5, <- Ew, H4. done.
          -- apply (mate_number (e_src r2)); [done|]. by rewrite <- Es, H2.
        * destruct (Hsec r H1) as (r' & l0 & X1 & X2 & X3 & X4); [by rewrite H4|done|].
          destruct (proj1 SF r' X1 X2) as (_ & s' & Es' & Hpc'). rewrite Es' in X4. injection X4 as ->. by destruct (Hpc' l0).
      + intros (i & l & lab & k & Hl & Hi & -> & Hss & Hnum).
        destruct (ns_row _ _ Hi) as (n & l' & Hrow). pose proof (row_line _ _ _ Hrow) as Hl'. assert (l' = l) as -> by congruence.
        assert (Hn : mate n y') by (right; eauto). pose proof (mate_inj _ _ _ Hn Hy) as ->.
        destruct (row_parsed _ _ _ Hrow) as (a & r & pid & sec & Hp & _ & _ & E3 & _ & _ & _ & _ & Hsec).
        apply (parsed_says_sec _ _ _ _ Hp) in Hss. rewrite E3 in Hss. subst sec.
        destruct Hsec as (r2 & G1 & G2 & G3 & G4 & G5). destruct (proj1 SF r2 G1 G2) as (_ & s & Es & _).
        apply (mate_number (e_src r2)) in Hnum; [|done]. exists r2. split_and!; [done|by eapply mate_inj|done|].
        rewrite Es in G5 |- *. simpl in G5. by rewrite G5.
  Qed.

  Lemma mate_same : same_tree t t' mate.
  Proof using All.
    split.
    - by left.
    - intros x. split; [|intros [x' Hx]; by eapply mate_live]. intros Hx. destruct (decide (x = tr_root t)) as [->|Hne]; [eexists; by left|].
      destruct (node_row t nts words tl nl W HN HS HT Hlen x Hx Hne) as (i & l & Hrow). destruct (row_mate _ _ _ Hrow) as [n' Hn'].
      exists n'. right. eauto.
    - intros x'. rewrite (tl_nodes _ _ _ TL). split.
      + intros [->|[i Hi]%elem_of_list_lookup]; [eexists; by left|]. destruct (ns_row _ _ Hi) as (n & l & Hrow). exists n. right. eauto.
      + intros (x & [[_ ->]|(i & l & _ & Hi)]); [by left|right]. by eapply elem_of_list_lookup_2.
    - apply mate_fun.
    - apply mate_inj.
    - apply mate_node.
    - intros. by apply mate_edge.
  Qed.
End iso.

(** ** Writing and reading *)
Lemma write_back_lines t c : WF t -> writable t -> sec_fits t -> (N.of_nat c < usize_bound)%N ->
  exists ls c' t' M, negra_write c t = Ret (unlines (ls ++ [[]]), c') /\
    (forall l, l ∈ ls ++ [[]] -> clean l) /\ (exists pre eos, ls = pre ++ [eos] /\ is_eos eos) /\
    negra_read (map Some ls) = Ret [Ok t'] /\ same_tree t t' M.
Proof.
  intros W A SF Hc. destruct (wr_root t A) as (nt & Hnt & Hlab & Hann & Hsid & Hmeta).
  destruct (negra_write_ok t c nt W Hnt) as (sid & c' & header & words & tl & nts & nl & Hw & Hs & Hh & HS & HT & HN & Hlen & HL).
  { intros r H1 H2. by apply (wr_sec t A). }
  assert (exists k, sid = print_nat k /\ (N.of_nat k < usize_bound)%N) as (k & -> & Hk).
  { destruct Hs as (w & v & Hw' & Hv & Hsv). assert (w = NT nt) as -> by congruence. destruct v as [s|].
    - destruct Hsv as [-> _]. destruct (Hsid s Hv) as (k & Hk & ->). eauto.
    - destruct Hsv as [-> _]. eauto. }
  destruct Hh as (w & meta & Hw' & Hm & Hh). assert (w = NT nt) as -> by congruence. cbn [node_feats] in Hm.
  assert (Hm' : forall m, meta = Some m -> m <> [] /\ 10%N ∉ m /\ trim m = m) by (intros m ->; by apply Hmeta).
  pose proof (written_complete t nts words tl nl W A HN HS HT Hlen HL header k meta Hk Hm' Hh) as HC.
  pose proof (bottom_up_written t nts words tl nl W A HN HS HT Hlen HL) as HB.
  destruct (run_complete _ _ _ HC) as [t' Hrun].
  destruct (header_back (print_nat k) header meta (print_nat_word k) Hm' Hh) as [Etr Hcl].
  destruct (footer_back (print_nat k) (print_nat_word k)) as (He1 & He2 & He3).
  assert (Hpl : Forall plain_line (tl ++ nl)) by apply HC.
  assert (Hread : negra_read (Some header :: map Some (tl ++ nl) ++ [Some (lit "#EOS " ++ print_nat k)]) = Ret [Ok t']).
  { rewrite negra_read_run. exact Hrun. }
  destruct (C62_content_partial _ _ t' Hread) as (b & bd & e & Hblk & _ & Hcont); [by left|].
  apply one_block in Hblk as ->; [|done|done].
  destruct (Hcont (bottom_up_own _ HB)) as (ns & k' & meta' & nt' & TL & _ & _ & Hroot' & Hlab' & f & Hf & Hkeys).
  exists (header :: (tl ++ nl) ++ [lit "#EOS " ++ print_nat k]), c', t', (mate t nts words tl nl t' ns).
  split_and!.
  - rewrite Hw. do 3 f_equal. cbn [app]. f_equal. by rewrite <- !app_assoc.
  - intros l. rewrite elem_of_app, elem_of_cons, elem_of_app, !elem_of_list_singleton.
    assert (clean []). { split; [clear; set_solver|]. intros s E'. by destruct s. }
    intros [[->|[Hl| ->]]| ->]; try done.
    apply elem_of_list_lookup in Hl as [i Hl]. apply (body_row t nts words tl nl HT Hlen) in Hl as [n Hrow].
    destruct (row_says t nts words tl nl W A HN HS HT HL i n l Hrow) as (r & pid & sec & _ & _ & _ & _ & _ & _ & Hcl2 & _). done.
  - by exists (header :: tl ++ nl), (lit "#EOS " ++ print_nat k).
  - cbn [map]. rewrite map_app. exact Hread.
  - eapply mate_same; try done. unfold has_feat. rewrite Hf. destruct (f !! lit "node_annotation") as [v|] eqn:E; [|done].
    apply Hkeys in E as [[X _]|[X _]]; by vm_compute in X.
Qed.

Lemma write_back t c : WF t -> writable t -> sec_fits t -> (N.of_nat c < usize_bound)%N ->
  exists s c' t' M, negra_write c t = Ret (s, c') /\ negra_read (map Some (text_lines s)) = Ret [Ok t'] /\ same_tree t t' M.
Proof.
  intros W A SF Hc. destruct (write_back_lines t c W A SF Hc) as (ls & c' & t' & M & H1 & H2 & H3 & H4 & H5).
  exists (unlines (ls ++ [[]])), c', t', M. split_and!; [done|by apply read_text1|done].
Qed.

Lemma read_fits body t ns nt0 k meta : tree_of_lines body t ns -> nodes t !! tr_root t = Some (NT nt0) -> root_says nt0 k meta -> fits t.
Proof.
  intros TL Hroot [_ (f & Hf & Hkeys)].
  assert (G : forall n, is_Some (nodes t !! n) -> n <> tr_root t -> exists i l, body !! i = Some l /\ ns !! i = Some n).
  { intros n Hn Hne. by eapply node_line. }
  split.
  - intros n tm Hn. destruct (G n) as (i & l & Hl & Hi); [eauto|congruence|].
    assert (Hown : own_id l = None).
    { destruct (own_id l) eqn:E; [|done]. destruct (tl_nt _ _ _ TL _ _ _ _ Hl Hi E) as (nt & X & _). congruence. }
    destruct (tl_word _ _ _ TL _ _ _ Hl Hi Hown) as (tm' & X & form & lemma & pos & morph & _ & _ & _ & _ & (m & _ & F) & _).
    assert (tm' = tm) as -> by congruence. rewrite F. intros key v. destruct m as [m|]; simpl; [|by rewrite lookup_empty].
    rewrite lookup_singleton_Some. intros [<- <-]. split; [by apply elem_of_list_singleton|eauto].
  - intros n nt Hn. case_decide as Hne.
    + subst n. assert (nt = nt0) as -> by congruence. rewrite Hf. split.
      * intros key v Hk. simpl in Hk. apply Hkeys in Hk as [[-> ->]|[-> (m & _ & ->)]]; (split; [rewrite !elem_of_cons; auto|eauto]).
      * unfold has_feat. rewrite (proj2 (Hkeys (lit "sentence_id") (Some (print_nat k)))) by (by left). done.
    + destruct (G n) as (i & l & Hl & Hi); [eauto|done|].
      destruct (own_id l) as [id|] eqn:E; cycle 1.
      { destruct (tl_word _ _ _ TL _ _ _ Hl Hi E) as (tm & X & _). congruence. }
      destruct (tl_nt _ _ _ TL _ _ _ _ Hl Hi E) as (nt' & X & s & q & ann & _ & _ & _ & F).
      assert (nt' = nt) as -> by congruence. rewrite F. intros key v. destruct ann as [m|]; simpl; [|by rewrite lookup_empty].
      rewrite lookup_singleton_Some. intros [<- <-]. split; [by apply elem_of_list_singleton|eauto].
Qed.

(** ** C70 *)
(** A tree whose strings fit the format and that has at most one incoming secondary edge per node is
    written and read back with all its edges, the secondary ones included. *)
Theorem C70_secondary t c r : WF t -> writable t -> sec_fits t -> (N.of_nat c < usize_bound)%N -> Reads t r ->
  exists s c' sid t' r' M, negra_write c t = Ret (s, c') /\ negra_read (map Some (text_lines s)) = Ret [Ok t'] /\
    WF t' /\ same_tree t t' M /\ sid_of t c sid c' /\ same_root t t' sid /\
    Reads t' r' /\ rose_rel same_term same_nt eq r r'.
Proof.
  intros W A SF Hc D. destruct (write_back t c W A SF Hc) as (s & c' & t' & M & H1 & H2 & H3).
  destruct (C40_roundtrip t c r W A Hc D) as (s2 & c2 & sid & t2 & r' & G1 & G2 & G3 & G4 & G5 & G6 & G7).
  rewrite H1 in G1. injection G1 as <- <-. rewrite H2 in G2. injection G2 as <-.
  exists s, c', sid, t', r', M. done.
Qed.

Lemma read_ok ls rs t : negra_read ls = Ret rs -> Ok t ∈ rs -> WF t -> (forall l, Some l ∈ ls -> 10%N ∉ l) ->
  (N.of_nat (501 + length ls) < usize_bound)%N ->
  writable t /\ sec_fits t /\ fits t /\ exists nt, nodes t !! tr_root t = Some (NT nt).
Proof.
  intros H Hin W Hnl Hsize.
  destruct (C39_wf_exact _ _ _ H Hin) as (bos & body & eos & Hblk & Hread & Hwf). pose proof (proj1 Hwf W) as HB. clear Hwf.
  destruct (C62_content_partial _ _ t Hread) as (b & bd & e & Hblk2 & _ & Hcont); [by left|].
  pose proof Hblk as (Hbos & Hpl & He & pre & post & Els).
  assert (bd = body) as -> by (by eapply one_block).
  pose proof (bottom_up_own _ HB) as HO.
  destruct (Hcont HO) as (ns & k & meta & nt0 & TL & HH & _ & Hroot & Hrs).
  assert (b = bos) as ->.
  { destruct Hblk2 as (Hb & _ & _ & pre2 & post2 & E). destruct pre2 as [|o pre2]; [by injection E|].
    exfalso. simpl in E. injection E as _ E.
    assert (Hx : Some b ∈ map Some body ++ [Some eos]) by (rewrite E; clear; set_solver).
    apply elem_of_app in Hx as [Hx|Hx%elem_of_list_singleton].
    - apply elem_of_list_fmap in Hx as (l & [= ->] & Hl). eapply Forall_forall in Hpl; [|done]. by destruct Hpl.
    - injection Hx as ->. destruct Hb as [x Hb], He as [y He]. rewrite Hb in He. by vm_compute in He. }
  assert (HR : Forall readable body).
  { rewrite negra_read_run in Hread. destruct (run_Ok _ _ t Hread) as (b2 & body2 & e2 & als & b' & Hb2 & Hs & _); [by left|].
    apply one_block in Hb2 as ->; [|done|done].
    destruct Hs as (_ & _ & k2 & m2 & b0 & _ & _ & Hs). apply steps_parsed in Hs. clear -Hs.
    induction Hs as [|l a body als [k Hp] Hs IH]; constructor; [by eapply parse_readable|done]. }
  assert (Hnb : 10%N ∉ bos). { apply Hnl. rewrite Els. clear. set_solver. }
  assert (Hlen : (N.of_nat (501 + length body) < usize_bound)%N).
  { assert (length body <= length ls); [|clear -Hsize H0; lia]. rewrite Els, app_length. cbn [length]. rewrite app_length, map_length. clear. lia. }
  pose proof (read_writable bos body t ns k meta nt0 TL HR HO HH Hroot Hrs Hnb Hlen) as A.
  pose proof (read_sec_fits body t ns TL HO) as SF.
  pose proof (read_fits body t ns nt0 k meta TL Hroot Hrs) as F.
  split; [exact A|]. split; [exact SF|]. split; [exact F|]. by exists nt0.
Qed.

(** What the reader delivers as a well-formed tree can be written again, and reading that text gives
    the same tree: nothing of a sentence is lost, and nothing of it makes the writer or the second
    reading fail. *)
Theorem C70_reread ls rs t c r : negra_read ls = Ret rs -> Ok t ∈ rs -> WF t -> (forall l, Some l ∈ ls -> 10%N ∉ l) ->
  (N.of_nat (501 + length ls) < usize_bound)%N -> (N.of_nat c < usize_bound)%N -> Reads t r ->
  exists s sid t' r' M, negra_write c t = Ret (s, c) /\ negra_read (map Some (text_lines s)) = Ret [Ok t'] /\
    WF t' /\ same_tree t t' M /\ sid_of t c sid c /\ same_root t t' sid /\
    Reads t' r' /\ rose_rel same_term same_nt eq r r' /\ tree_eqb t t' = Ret true.
Proof.
  intros H Hin W Hnl Hsize Hc D. destruct (read_ok ls rs t H Hin W Hnl Hsize) as (A & SF & F & nt0 & Hroot).
  destruct (C70_secondary t c r W A SF Hc D) as (s & c' & sid & t' & r' & M & H1 & H2 & H3 & H4 & H5 & H6 & H7 & H8).
  destruct (C40_equal t c W A F Hc) as (s2 & c2 & t2 & G1 & G2 & G3).
  rewrite H1 in G1. injection G1 as <- <-. rewrite H2 in G2. injection G2 as <-.
  assert (c' = c) as ->.
  { destruct H5 as (w & v & Hw & Hv & Hsv). assert (w = NT nt0) as -> by congruence. destruct v as [v|]; [apply Hsv|].
    exfalso. destruct F as [_ F]. specialize (F _ _ Hroot). rewrite decide_True in F by done. by apply F. }
  exists s, sid, t', r', M. done.
Qed.

(** ** Concrete trees *)
Definition secb (t : tree) : bool :=
  forallb (fun r => is_primary (e_w r) ||
    (negb (Nat.eqb (e_tgt r) (tr_root t)) && match e_w r with Secondary (Some s) => negb (starts_percent s) | _ => false end &&
     forallb (fun r' => is_primary (e_w r') || negb (Nat.eqb (e_tgt r) (e_tgt r')) || (Nat.eqb (e_src r) (e_src r') && bool_decide (e_w r = e_w r'))) (edges t)))%bool (edges t).
Lemma secb_ok t : secb t = true -> sec_fits t.
Proof.
  unfold secb. rewrite forallb_forall. intros H. split.
  - intros r Hr Hp. apply elem_of_list_In, H in Hr. rewrite Hp in Hr. simpl in Hr. apply andb_true_iff in Hr as [[H1 H2]%andb_true_iff _].
    split; [by apply negb_true_iff, Nat.eqb_neq in H1|]. destruct (e_w r) as [e|[s|]]; try done. exists s. split; [done|]. by intros s' ->.
  - intros r r' Hr Hr' Hp Hp' Et. apply elem_of_list_In, H in Hr. rewrite Hp in Hr. simpl in Hr. apply andb_true_iff in Hr as [_ Hr].
    rewrite forallb_forall in Hr. apply elem_of_list_In, Hr in Hr'. rewrite Hp', Et, Nat.eqb_refl in Hr'. simpl in Hr'.
    apply andb_true_iff in Hr' as [H1 H2]. split; [by apply Nat.eqb_eq|by apply bool_decide_eq_true in H2].
Qed.
(** A tree with a gap and a secondary edge. *)
Example C70_secondary_ex : WF ex_negra /\ writable ex_negra /\ sec_fits ex_negra /\ Reads ex_negra (rose_of ex_negra) /\
  existsb (fun r => negb (is_primary (e_w r))) (edges ex_negra) = true.
Proof.
  split; [apply ex_negra_ok|]. split; [apply ex_negra_ok|]. split; [apply secb_ok; by vm_compute|].
  split; [apply rose_of_ok, ex_negra_ok|by vm_compute].
Qed.

Lemma one_result (a b : tree) : Ret [Ok a] = Ret [Ok b] -> a = b.
Proof. by intros [= ->]. Qed.
Lemma block_lines bos body eos : forallb (fun l => forallb (fun c => negb (N.eqb c 10%N)) l) (bos :: body ++ [eos]) = true ->
  forall l, Some l ∈ Some bos :: map Some body ++ [Some eos] -> 10%N ∉ l.
Proof.
  rewrite forallb_forall. intros H l Hl. assert (Hin : l ∈ bos :: body ++ [eos]).
  { apply elem_of_cons in Hl as [[= ->]|Hl]; [by left|right]. apply elem_of_app in Hl as [Hl|Hl%elem_of_list_singleton]; apply elem_of_app.
    - left. by apply elem_of_list_fmap in Hl as (? & [= ->] & ?).
    - right. apply elem_of_list_singleton. congruence. }
  apply elem_of_list_In, H in Hin. rewrite forallb_forall in Hin. intros Hx%elem_of_list_In%Hin. by vm_compute in Hx.
Qed.
Lemma block_one bos body eos t : complete bos body eos -> is_eos eos -> bottom_up body -> one_tree (bos :: body ++ [eos]) = true ->
  t = the_tree (bos :: body ++ [eos]) -> negra_read (Some bos :: map Some body ++ [Some eos]) = Ret [Ok t] /\ WF t.
Proof.
  intros HC He HB H1 ->. pose proof (one_tree_spec _ H1) as Ho. cbn [map] in Ho. rewrite map_app in Ho. cbn [map] in Ho.
  split; [exact Ho|]. destruct (C39_wf_exact _ _ (the_tree (bos :: body ++ [eos])) Ho) as (b & bd & e & Hb & _ & HW); [by left|].
  apply one_block in Hb as ->; [|apply HC|done]. by apply HW.
Qed.
(** A sentence with metadata, morphology, a comment, a gap, a secondary edge, as it is read. *)
Example C70_reread_ex : exists t, (negra_read (Some ex_bos :: map Some ex_body ++ [Some ex_eos]) = Ret [Ok t] /\ WF t) /\
  (forall l, Some l ∈ Some ex_bos :: map Some ex_body ++ [Some ex_eos] -> 10%N ∉ l) /\
  existsb (fun r => negb (is_primary (e_w r))) (edges t) = true /\ is_projective t = false.
Proof.
  exists (the_tree (ex_bos :: ex_body ++ [ex_eos])).
  split; [exact (block_one _ _ _ _ (proj1 ex_body_ok) ex_eos_ok (proj2 ex_body_ok) (proj1 (proj2 C62_content_ex)) eq_refl)|].
  split; [apply block_lines; vm_compute; reflexivity|]. split; vm_compute; reflexivity.
Qed.

(** Without the bound on secondary edges: of two secondary edges into one node only one is written. *)
Definition ex_two : tree :=
  build (lit "the") (lit "D")
    [OAbove 0 (lit "NP"); OPush (lit "dog") (lit "N"); OAbove 1 (lit "VROOT"); OPush (lit "barks") (lit "V");
     OAddSec 1 4 (Some (lit "X")); OAddSec 3 2 (Some (lit "Z")); OAddSec 1 2 (Some (lit "Y"))].
Definition reread (t : tree) : option tree :=
  match negra_write 3 t with Ret (s, _) => match negra_read (map Some (text_lines s)) with Ret [Ok t'] => Some t' | _ => None end | _ => None end.
Definition labelled (w : edgew) (t : tree) : bool := existsb (fun r => bool_decide (e_w r = w)) (edges t).
Lemma lost_edge t t' w : WF t -> labelled w t = true -> labelled w t' = false -> forall M, ~ same_tree t t' M.
Proof.
  intros W H1 H2 M S. apply existsb_exists in H1 as (r & Hr%elem_of_list_In & Hw%bool_decide_eq_true).
  destruct (go_ends _ (wf_graph _ W) r Hr) as [[x' Hx]%(st_left _ _ _ S) [y' Hy]%(st_left _ _ _ S)].
  destruct (proj1 (st_edge _ _ _ S _ _ _ _ w Hx Hy)) as (r' & Hr' & _ & _ & Hw'); [by exists r|].
  apply not_true_iff_false in H2. apply H2. apply existsb_exists. exists r'. split; [by apply elem_of_list_In|by apply bool_decide_eq_true].
Qed.
Lemma reread_some t t' : reread t = Some t' -> exists s c,
  negra_write 3 t = Ret (s, c) /\ negra_read (map Some (text_lines s)) = Ret [Ok t'].
Proof.
  unfold reread. destruct (negra_write 3 t) as [[s c]| |]; [|done|done]. intros H. exists s, c. split; [done|].
  destruct (negra_read _) as [[|[t0|] [|? ?]]| |]; try done. by injection H as ->.
Qed.
Theorem C70_two_refuted : exists t, WF t /\ writable t /\ exists s c t',
  negra_write 3 t = Ret (s, c) /\ negra_read (map Some (text_lines s)) = Ret [Ok t'] /\ forall M, ~ same_tree t t' M.
Proof.
  exists ex_two. assert (W : WF ex_two) by apply build_WF. split; [exact W|]. split; [apply writableb_ok; by vm_compute|].
  destruct (reread ex_two) as [t'|] eqn:E; [|by vm_compute in E].
  destruct (reread_some _ _ E) as (s & c & H1 & H2). exists s, c, t'. split; [exact H1|]. split; [exact H2|].
  apply (lost_edge _ _ (Secondary (Some (lit "Z"))) W); [by vm_compute|].
  assert (G : option_map (labelled (Secondary (Some (lit "Z")))) (reread ex_two) = Some false) by (vm_compute; reflexivity).
  rewrite E in G. by injection G.
Qed.
Print Assumptions C70_secondary.
Print Assumptions C70_reread.
Print Assumptions C70_two_refuted.
