(** Reading back what the NEGRA writer wrote. *)
From Coq Require Import Lia.
From Verif Require Import NegraModel TreeSpec BaseProofs SpanProofs ShapeProofs GraphProofs SortProofs TreeOps RoseProofs IsoRose PtbRound NegraSpec NegraWrite NegraStep NegraRead NegraWF NegraAccept NegraRound NegraRound2 NegraRound3.

Lemma has_feat_fun f key v v' : has_feat f key v -> has_feat f key v' -> v = v'.
Proof. unfold has_feat. congruence. Qed.
Lemma has_feat_ex f key : exists v, has_feat f key v.
Proof. by eexists. Qed.

Definition term_kept (a b : terminal) : Prop :=
  t_form a = t_form b /\ t_pos a = t_pos b /\ t_lemma a = t_lemma b /\ t_span a = t_span b /\
  forall m, has_feat (t_feats a) (lit "morph") m <-> has_feat (t_feats b) (lit "morph") m.
Definition nt_kept (a b : nonterminal) : Prop :=
  nt_label a = nt_label b /\ nt_span a = nt_span b /\
  forall m, has_feat (nt_feats a) (lit "node_annotation") m <-> has_feat (nt_feats b) (lit "node_annotation") m.

Lemma term_back_kept a b : term_back a b -> t_span a = t_span b -> term_kept a b.
Proof.
  intros (H1 & H2 & H3 & m & H4 & H5) H6. split_and!; try done. intros m'. rewrite H5. split.
  - intros H. rewrite (has_feat_fun _ _ _ _ H H4). destruct m; unfold has_feat, morph_feats; [|done]. by rewrite lookup_insert.
  - intros H. assert (m' = m) as ->; [|done]. rewrite H. destruct m; unfold morph_feats; [|done]. by rewrite lookup_insert.
Qed.
Lemma nt_back_kept a b : nt_back a b -> nt_span a = nt_span b -> nt_kept a b.
Proof.
  intros (H1 & m & H4 & H5) H6. split_and!; try done. intros m'. rewrite H5. split.
  - intros H. rewrite (has_feat_fun _ _ _ _ H H4). destruct m; unfold has_feat, ann_feats; [|done]. by rewrite lookup_insert.
  - intros H. assert (m' = m) as ->; [|done]. rewrite H. destruct m; unfold ann_feats; [|done]. by rewrite lookup_insert.
Qed.

(** The tree [t'] is the tree [t] after writing and reading, with sentence number [k]. *)
Definition back (t t' : tree) (k : nat) (meta : option str) (M : nat -> nat -> Prop) : Prop :=
  WF t' /\ M (tr_root t) (tr_root t') /\
  (forall x, is_Some (nodes t !! x) -> exists y, M x y) /\ (forall y, is_Some (nodes t' !! y) -> exists x, M x y) /\
  (forall x y y', M x y -> M x y' -> y = y') /\ (forall x x' y, M x y -> M x' y -> x = x') /\
  (forall x y, M x y ->
    match nodes t !! x, nodes t' !! y with
    | Some (T a), Some (T c) => term_back a c /\ t_span a = t_span c
    | Some (NT a), Some (NT c) =>
        if decide (x = tr_root t) then nt_label a = nt_label c /\ nt_feats c = nt_feats (root_nt k meta) else nt_back a c
    | _, _ => False
    end) /\
  (forall r y, r ∈ edges t -> is_primary (e_w r) = true -> M (e_src r) y ->
    exists r', r' ∈ edges t' /\ is_primary (e_w r') = true /\ e_src r' = y /\ M (e_tgt r) (e_tgt r') /\
      edge_label (e_w r) = edge_label (e_w r')) /\
  (forall r' x, r' ∈ edges t' -> is_primary (e_w r') = true -> M x (e_src r') ->
    exists r, r ∈ edges t /\ is_primary (e_w r) = true /\ e_src r = x /\ M (e_tgt r) (e_tgt r') /\
      edge_label (e_w r) = edge_label (e_w r')).

Lemma negra_round t c : WF t -> writable t -> (N.of_nat c < usize_bound)%N ->
  exists ls c' k meta t' M,
    negra_write c t = Ret (unlines (ls ++ [[]]), c') /\ sid_of t c (print_nat k) c' /\
    (forall l, l ∈ ls ++ [[]] -> clean l) /\
    (exists pre eos, ls = pre ++ [eos] /\ is_eos eos) /\
    (exists nt, nodes t !! tr_root t = Some (NT nt) /\ has_feat (nt_feats nt) (lit "metadata") meta) /\
    negra_read (map Some ls) = Ret [Ok t'] /\ back t t' k meta M.
Proof.
  intros W A Hc. destruct (wr_root t A) as (nt & Hnt & Hlab & Hann & Hsid & Hmeta).
  destruct (negra_write_ok t c nt W Hnt) as (sid & c' & header & words & tl & nts & nl & Hw & Hs & Hh & HS & HT & HN & Hlen & HL).
  { intros r H1 H2. by apply (wr_sec t A). }
  assert (exists k, sid = print_nat k /\ (N.of_nat k < usize_bound)%N) as (k & -> & Hk).
  { destruct Hs as (w & v & Hw' & Hv & Hsv). assert (w = NT nt) as -> by congruence. destruct v as [s|].
    - destruct Hsv as [-> _]. destruct (Hsid s Hv) as (k & Hk & ->). eauto.
    - destruct Hsv as [-> _]. eauto. }
  destruct Hh as (w & meta & Hw' & Hm & Hh). assert (w = NT nt) as -> by congruence. cbn [node_feats] in Hm.
  assert (Hm' : forall m, meta = Some m -> m <> [] /\ 10%N ∉ m /\ trim m = m) by (intros m ->; by apply Hmeta).
  pose proof (written_complete t nts words tl nl W A HN HS HT Hlen HL header k meta Hk Hm' Hh) as HC.
  pose proof (bottom_up_written t nts words tl nl W A HN HS HT Hlen HL) as HB.
  destruct (run_complete _ _ _ HC) as [t' Hrun].
  destruct (header_back (print_nat k) header meta (print_nat_word k) Hm' Hh) as [Etr Hcl].
  destruct (footer_back (print_nat k) (print_nat_word k)) as (He1 & He2 & He3).
  assert (Hbos : is_bos header). { exists (32%N :: print_nat k ++ match meta with Some m => lit "  " ++ m | None => [] end). rewrite Etr. done. }
  assert (Hpl : Forall plain_line (tl ++ nl)) by apply HC.
  destruct (run_sentence header (tl ++ nl) (lit "#EOS " ++ print_nat k) Hbos Hpl He1) as [E|(als & b & Hst & E)].
  { by pose proof (eq_trans (eq_sym E) Hrun). }
  pose proof (eq_trans (eq_sym E) Hrun) as Hrun'. apply bind_Ret in Hrun' as (res & Hres & [= ->]).
  pose proof Hst as (_ & _ & id & meta' & b0 & Hho & Hf & Hsteps).
  rewrite Etr, (header_parse k header meta Hk Hm' Hh) in Hho. injection Hho as <- <-.
  assert (O : ordered als). { eapply bottom_up_ordered; [by eapply steps_lines|done]. }
  destruct (started_BI _ _ _ _ Hst O) as (id & meta' & L & Hho & _ & HI).
  rewrite Etr, (header_parse k header meta Hk Hm' Hh) in Hho. injection Hho as <- <-.
  destruct (try_into_tree_spec b (trim (lit "#EOS " ++ print_nat k)) (bi_B0 _ _ _ _ HI)) as [_ Hfin]; [by apply starts_eos|].
  destruct (Hfin t' Hres) as [_ Hfin']. destruct (BI_finished _ _ _ _ _ HI O Hfin') as [W' _].
  exists (header :: (tl ++ nl) ++ [lit "#EOS " ++ print_nat k]), c', k, meta, t', (twin t nts words b t').
  split_and!.
  - rewrite Hw. do 3 f_equal. cbn [app]. f_equal. by rewrite <- !app_assoc.
  - done.
  - intros l. rewrite elem_of_app, elem_of_cons, elem_of_app, !elem_of_list_singleton.
    assert (clean []). { split; [set_solver|]. intros s E'. by destruct s. }
    intros [[->|[Hl| ->]]| ->]; try done.
    apply elem_of_list_lookup in Hl as [i Hl]. apply (body_row t nts words tl nl HT Hlen) in Hl as [n Hrow].
    destruct (row_says t nts words tl nl W A HN HS HT HL i n l Hrow) as (r & pid & sec & _ & _ & _ & _ & _ & _ & Hcl2 & _). done.
  - by exists (header :: tl ++ nl), (lit "#EOS " ++ print_nat k).
  - eauto.
  - rewrite negra_read_run. cbn [map]. rewrite map_app. exact Hrun.
  - split_and!.
    + done.
    + by eapply twin_root.
    + intros x Hx. destruct (decide (x = tr_root t)) as [->|Hne]; [eexists; by eapply twin_root|].
      destruct (node_row t nts words tl nl W HN HS HT Hlen x Hx Hne) as (i & l & Hrow).
      edestruct (row_back t nts words tl nl W A HN HS HT Hlen HL b0 b als k meta L t' Hf Hsteps HI Hfin' i x l Hrow)
        as (r & n' & p' & e & _ & _ & _ & Ht & _). eauto.
    + by eapply (twin_onto t nts words tl nl W A HN HS HT Hlen HL b0 b als k meta L t').
    + by eapply (twin_fun t nts words A HN HS b als k meta L t').
    + by eapply (twin_inj t nts words A HN HS b als k meta L t').
    + by eapply (twin_node t nts words tl nl W A HN HS HT Hlen HL b0 b als k meta L t').
    + by eapply (twin_fwd t nts words tl nl W A HN HS HT Hlen HL b0 b als k meta L t').
    + by eapply (twin_bwd t nts words tl nl W A HN HS HT Hlen HL b0 b als k meta L t').
Qed.

Lemma back_rose t t' k meta M r r' : WF t -> writable t -> back t t' k meta M -> Reads t r -> Reads t' r' ->
  rose_rel term_kept nt_kept eq r r'.
Proof.
  intros W A (W' & Hr & _ & _ & _ & _ & Hn & Hf & Hb) D D'.
  eapply (rose_rel_impl (fun a b => term_back a b /\ t_span a = t_span b) term_kept
    (fun a b => (nt_label a = nt_label b /\ forall m, has_feat (nt_feats a) (lit "node_annotation") m <-> has_feat (nt_feats b) (lit "node_annotation") m)
       /\ nt_span a = nt_span b) nt_kept eq eq); [| | |].
  - intros a b [? ?]. by apply term_back_kept.
  - intros a b [[? ?] ?]. done.
  - done.
  - eapply (corr_rose t t' M); try done. intros x y HM. specialize (Hn x y HM).
    destruct (nodes t !! x) as [[a|a]|] eqn:Ea; [| |done]; destruct (nodes t' !! y) as [[c|c]|]; try done.
    case_decide as Ex.
    + destruct Hn as [E1 E2]. split; [done|]. intros m. rewrite E2. subst x.
      destruct (wr_root t A) as (nt & Hnt & _ & Hann & _). assert (nt = a) as -> by congruence.
      assert (G : has_feat (nt_feats (root_nt k meta)) (lit "node_annotation") None) by (destruct meta; by vm_compute).
      split; intros H; [by rewrite (has_feat_fun _ _ _ _ H Hann)|by rewrite (has_feat_fun _ _ _ _ H G)].
    + assert (G : nt_kept a (nt_set_span c (nt_span a))).
      { apply nt_back_kept; [|done]. destruct Hn as (E1 & m & E2 & E3). split; [done|]. by exists m. }
      destruct G as (G1 & _ & G3). done.
Qed.
