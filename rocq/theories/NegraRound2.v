(** Reading back what the NEGRA writer wrote: the sentence is complete. *)
From Coq Require Import Lia.
From Verif Require Import NegraModel TreeSpec BaseProofs SpanProofs ShapeProofs GraphProofs SortProofs TreeOps RoseProofs NegraSpec NegraWrite NegraStep NegraRead NegraWF NegraAccept NegraRound.

Lemma trim_left_head s c s' : trim_left s = c :: s' -> is_white c = false.
Proof. induction s as [|x s IH]; simpl; [done|]. destruct (is_white x) eqn:E; [done|]. by intros [= -> _]. Qed.
Lemma trim_last s : s <> [] -> trim s = s -> exists d s', s = s' ++ [d] /\ is_white d = false.
Proof.
  unfold trim. intros Hne E. destruct (trim_left (rev (trim_left s))) as [|d r] eqn:Er; [by rewrite <- E in Hne|].
  exists d, (rev r). split; [|by eapply trim_left_head]. rewrite <- E. done.
Qed.
Lemma trim_space s : trim (32%N :: s) = trim s.
Proof. done. Qed.
Lemma header_back sid header meta : word sid -> (forall m, meta = Some m -> m <> [] /\ 10%N ∉ m /\ trim m = m) ->
  header = lit "#BOS " ++ sid ++ match meta with Some m => lit "  " ++ m | None => [] end ->
  trim header = header /\ clean header.
Proof.
  intros Hs Hm ->. assert (Hl : exists d s', lit "#BOS " ++ sid ++ match meta with Some m => lit "  " ++ m | None => [] end = s' ++ [d] /\ is_white d = false).
  { destruct meta as [m|].
    - destruct (Hm m eq_refl) as (H1 & H2 & H3). destruct (trim_last m H1 H3) as (d & m' & -> & Hd).
      exists d, (lit "#BOS " ++ sid ++ lit "  " ++ m'). split; [by rewrite !app_assoc|done].
    - destruct (word_last sid Hs) as (d & s' & -> & Hd). exists d, (lit "#BOS " ++ s'). rewrite app_nil_r, app_assoc. done. }
  destruct Hl as (d & s' & E & Hd). split; [|split].
  - by eapply (trim_fix 35%N (lit "BOS " ++ sid ++ match meta with Some m => lit "  " ++ m | None => [] end)).
  - rewrite !not_elem_of_app. split_and!.
    + by vm_compute; set_solver.
    + intros Hin. destruct Hs as [_ Hs]. rewrite Forall_forall in Hs. apply Hs in Hin. done.
    + destruct meta as [m|]; [|set_solver]. rewrite not_elem_of_app. split; [vm_compute; set_solver|]. by apply Hm.
  - intros s2 E2. rewrite E in E2. apply app_inj_tail in E2 as [_ ->]. done.
Qed.
Lemma header_parse k header meta : (N.of_nat k < usize_bound)%N ->
  (forall m, meta = Some m -> m <> [] /\ 10%N ∉ m /\ trim m = m) ->
  header = lit "#BOS " ++ print_nat k ++ match meta with Some m => lit "  " ++ m | None => [] end ->
  header_of header = Some (k, meta).
Proof.
  intros Hk Hm ->. unfold header_of.
  change (lit "#BOS " ++ print_nat k ++ match meta with Some m => lit "  " ++ m | None => [] end)
    with (lit "#BOS" ++ 32%N :: print_nat k ++ match meta with Some m => lit "  " ++ m | None => [] end).
  rewrite cut_white_app by (by repeat constructor). cbn [cut_white]. rewrite (proj2 (conj I eq_refl) : is_white 32%N = true).
  cbn [snd]. rewrite cut_white_app by (apply print_nat_word).
  destruct meta as [m|].
  - change (lit "  " ++ m) with (32%N :: 32%N :: m). cbn [cut_white]. rewrite (proj2 (conj I eq_refl) : is_white 32%N = true).
    cbn [fst snd]. rewrite app_nil_r, parse_print_nat by done. destruct (Hm m eq_refl) as (_ & _ & E).
    simpl. rewrite trim_space, E. done.
  - simpl. by rewrite app_nil_r, parse_print_nat.
Qed.
Lemma footer_back sid : word sid -> is_eos (lit "#EOS " ++ sid) /\ fields_of (lit "#EOS " ++ sid) !! 1 = Some sid /\ clean (lit "#EOS " ++ sid).
Proof.
  intros Hs. assert (Hsp : spaced [lit "#EOS"; sid] (lit "#EOS " ++ sid)).
  { apply (spaced_more (lit "#EOS") 1 [sid] sid); [lia|constructor]. }
  assert (HF : Forall word [lit "#EOS"; sid]).
  { repeat constructor; try done; apply Hs. }
  split_and!.
  - exists (32%N :: sid). by rewrite (spaced_trim _ _ Hsp HF).
  - unfold fields_of. rewrite (spaced_trim _ _ Hsp HF), (spaced_fields _ _ Hsp HF). done.
  - exact (spaced_clean _ _ Hsp HF).
Qed.

Lemma parse_readable k l a : parse_line k (trim l) = Some a -> readable l.
Proof.
  intros Ha. pose proof (parse_line_pid _ _ _ Ha) as Ep. pose proof (parse_line_own _ _ _ Ha) as Eo.
  pose proof (parse_line_sec _ _ _ Ha) as Es. split; [by rewrite Ep|]. split.
  - rewrite Es. unfold parse_line, parse_fields, edge_part in Ha.
    change (split_whitespace (trim l)) with (fields_of l) in Ha.
    destruct (fields_of l) as [|f0 [|f1 [|f2 [|f3 [|f4 [|f5 fs]]]]]]; try done.
    cbn [lookup list_lookup drop] in *. rewrite drop_0 in Ha. destruct (parse_usize f5) as [x|]; [|done].
    destruct (opt_fields fs) as [sec'|] eqn:Eop; [|done].
    assert (line_sec a = sec') as ->.
    { destruct (starts_with (lit "#") (trim l)).
      - destruct (parse_usize (tail f0)); [|done]. destruct (split_char 61%N f2); [done|]. by injection Ha as <-.
      - by injection Ha as <-. }
    destruct fs as [|p fs]; [by left|]. right. simpl in Eop. destruct (starts_percent p) eqn:Epc.
    + left. destruct p as [|c p]; [done|]. simpl in Epc. apply N.eqb_eq in Epc as ->. by exists p.
    + right. destruct (head fs); [|done]. destruct (parse_usize _); [|done]. injection Eop as <-. by eexists.
  - intros [s E]. rewrite Eo. unfold parse_line, parse_fields, edge_part in Ha. rewrite E in Ha.
    assert (starts_with (lit "#") (35%N :: s) = true) as Esw by (apply is_prefix_spec; by exists s).
    rewrite Esw in Ha. repeat case_match; try done; simplify_eq; by eexists.
Qed.

Section back.
  Context (t : tree) (nts words : list nat) (tl nl : list str).
  Hypothesis (W : WF t) (A : writable t) (HN : numbering t nts) (HS : sentence t words).
  Hypothesis (HT : Forall2 (term_line t nts) words tl) (Hlen : length nl = length nts).
  Hypothesis (HL : forall i n l, nts !! i = Some n -> nl !! i = Some l -> nt_line t nts (500 + i) n l).

  (** Line [i] of the sentence is [l] and belongs to node [n]. *)
  Definition row (i n : nat) (l : str) : Prop :=
    words !! i = Some n /\ tl !! i = Some l \/
    exists j, i = length words + j /\ nts !! j = Some n /\ nl !! j = Some l.
  Lemma body_row i l : (tl ++ nl) !! i = Some l <-> exists n, row i n l.
  Proof using HT Hlen.
    clear W A HN HS HL. pose proof (Forall2_length _ _ _ HT) as Hl. rewrite lookup_app_Some. split.
    - intros [Hi|[Hge Hi]].
      + destruct (Forall2_lookup_r _ _ _ _ _ HT Hi) as (n & Hn & _). exists n. by left.
      + assert (is_Some (nts !! (i - length tl))) as [n Hn].
        { apply lookup_lt_is_Some. rewrite <- Hlen. by eapply lookup_lt_Some. }
        exists n. right. exists (i - length tl). split; [lia|done].
    - intros (n & [[H1 H2]|(j & -> & H1 & H2)]); [by left|right]. split; [lia|]. by replace (length words + j - length tl) with j by lia.
  Qed.
  Lemma row_nonroot i n l : row i n l -> n <> tr_root t.
  Proof using A HN HS.
    intros [[Hi _]|(j & _ & Hj & _)].
    - apply HS in Hi as (tm & Hn & _). destruct (wr_root t A) as (nt & Hr & _). congruence.
    - apply elem_of_list_lookup_2, HN in Hj as [? _]. done.
  Qed.
  Lemma node_row n : is_Some (nodes t !! n) -> n <> tr_root t -> exists i l, row i n l.
  Proof using HN HS HT Hlen W.
    intros [[nt|tm] Hn] Hne.
    - assert (n ∈ nts) as [j Hj]%elem_of_list_lookup by (apply HN; eauto).
      assert (is_Some (nl !! j)) as [l Hl]. { apply lookup_lt_is_Some. rewrite Hlen. by eapply lookup_lt_Some. }
      exists (length words + j), l. right. eauto.
    - destruct (to_pos _ _ (wf_terms _ W) n tm Hn) as (i & Hlt & Hi).
      assert (Hw : words !! i = Some n) by (apply HS; by exists tm).
      destruct (Forall2_lookup_l _ _ _ _ _ HT Hw) as (l & Hl & _). exists i, l. left. eauto.
  Qed.
  Lemma row_fun i i' n l l' : row i n l -> row i' n l' -> i = i'.
  Proof using HN HS.
    intros [[H1 _]|(j & -> & H1 & _)] [[H2 _]|(j' & -> & H2 & _)].
    - apply HS in H1, H2. destruct H1 as (tm & H1 & E1), H2 as (tm' & H2 & E2). assert (tm' = tm) as -> by congruence.
      rewrite E1 in E2. by injection E2.
    - apply HS in H1 as (tm & H1 & _). apply elem_of_list_lookup_2, HN in H2 as (_ & nt & H2). congruence.
    - apply HS in H2 as (tm & H2 & _). apply elem_of_list_lookup_2, HN in H1 as (_ & nt & H1). congruence.
    - f_equal. destruct HN as [Hnd _]. by eapply NoDup_lookup.
  Qed.

  (** What line [i] says. *)
  Definition says (i n : nat) (l : str) : Prop :=
    exists r pid sec, r ∈ edges t /\ is_primary (e_w r) = true /\ e_tgt r = n /\ id_of t nts (e_src r) pid /\
      sec_ok t nts n sec /\ plain_line l /\ clean l /\
      ((exists tm morph, words !! i = Some n /\ nodes t !! n = Some (T tm) /\ has_feat (t_feats tm) (lit "morph") morph /\
         forall k, parse_line k (trim l) =
           Some (TLine (mk_term (t_form tm) (t_pos tm) (t_lemma tm) (morph_feats morph) (span_of k)) (edge_label (e_w r)) pid sec)) \/
       (exists j nt ann, i = length words + j /\ nts !! j = Some n /\ nodes t !! n = Some (NT nt) /\
         has_feat (nt_feats nt) (lit "node_annotation") ann /\
         forall k, parse_line k (trim l) = Some (NLine (500 + j) (nt_label nt) ann (edge_label (e_w r)) pid sec))).
  Lemma row_says i n l : row i n l -> says i n l.
  Proof using W A HN HS HT HL.
    intros Hrow. pose proof (row_nonroot _ _ _ Hrow) as Hne. destruct Hrow as [[Hn Hl]|(j & -> & Hn & Hl)].
    - pose proof (Forall2_lookup_lr _ _ _ _ _ _ HT Hn Hl) as Htl.
      destruct (term_line_parse t nts W A HN n l Htl) as (tm & morph & r & pid & sec & H1 & H2 & H3 & H4 & H5 & H6 & H7 & H8 & H9 & H10).
      exists r, pid, sec. split_and!; try done. left. by exists tm, morph.
    - assert (Hid : id_of t nts n (500 + j)) by (right; eauto).
      destruct (nt_line_parse t nts W A HN (500 + j) n l) as (nt & ann & r & pid & sec & H1 & H2 & H3 & H4 & H5 & H6 & H7 & H8 & H9 & H10);
        [by eapply id_of_bound|done|by apply HL|].
      exists r, pid, sec. split_and!; try done. right. by exists j, nt, ann.
  Qed.
  Lemma row_ids i n l : row i n l -> exists r pid, r ∈ edges t /\ is_primary (e_w r) = true /\ e_tgt r = n /\
    id_of t nts (e_src r) pid /\ parent_id l = Some pid /\ plain_line l /\ readable l /\
    (forall id, sec_id l = Some id -> exists r2, r2 ∈ edges t /\ is_primary (e_w r2) = false /\ id_of t nts (e_src r2) id) /\
    own_id l = (if decide (i < length words) then None else Some (500 + (i - length words))).
  Proof using W A HN HS HT Hlen HL.
    intros Hrow. destruct (row_says _ _ _ Hrow) as (r & pid & sec & H1 & H2 & H3 & H4 & H5 & H6 & H7 & H8).
    exists r, pid. assert (exists a, parse_line 0 (trim l) = Some a /\ line_pid a = pid /\ line_sec a = sec /\
      line_own a = (if decide (i < length words) then None else Some (500 + (i - length words)))) as (a & Ha & Hp & Hs & Ho).
    { destruct H8 as [(tm & morph & Hw & _ & _ & Hk)|(j & nt & ann & -> & _ & _ & _ & Hk)]; (eexists; split_and!; [apply Hk|done|done|]).
      - apply lookup_lt_Some in Hw. rewrite decide_True by done. done.
      - rewrite decide_False by lia. simpl. do 2 f_equal. lia. }
    pose proof (parse_line_pid _ _ _ Ha) as Ep. pose proof (parse_line_own _ _ _ Ha) as Eo. pose proof (parse_line_sec _ _ _ Ha) as Es.
    rewrite Hp in Ep. split_and!; try done.
    - by eapply parse_readable.
    - intros id Hid. rewrite Es, Hs in Hid. destruct sec as [[lab k]|]; [|done]. simpl in Hid. injection Hid as <-.
      destruct H5 as (r2 & G1 & G2 & G3 & G4 & _). by exists r2.
    - by rewrite Eo.
  Qed.

  Lemma words_nonempty : words <> [].
  Proof using W A HS.
    intros E. destruct HS as [_ H]. destruct (wr_root t A) as (nt & Hnt & _). destruct (wf_nts _ W _ _ Hnt) as [Hok Hc].
    apply span_ok_start, Hc in Hok as (n & _ & Hn). apply H in Hn. by rewrite E in Hn.
  Qed.
  Lemma bottom_up_written : bottom_up (tl ++ nl).
  Proof using W A HN HS HT Hlen HL.
    split_and!.
    - intros i j l l' id [n Hi]%body_row [n' Hj]%body_row Ho Ho'.
      destruct (row_ids _ _ _ Hi) as (_ & _ & _ & _ & _ & _ & _ & _ & _ & _ & E).
      destruct (row_ids _ _ _ Hj) as (_ & _ & _ & _ & _ & _ & _ & _ & _ & _ & E').
      rewrite E in Ho. rewrite E' in Ho'. repeat case_decide; try done. simplify_eq. lia.
    - intros l [i [n Hi]%body_row]%elem_of_list_lookup.
      destruct (row_ids _ _ _ Hi) as (_ & _ & _ & _ & _ & _ & _ & _ & _ & _ & E). rewrite E. by case_decide.
    - intros i j l l' id [n Hi]%body_row [n' Hj]%body_row Ho Hp.
      destruct (row_ids _ _ _ Hi) as (_ & _ & _ & _ & _ & _ & _ & _ & _ & _ & E).
      destruct (row_ids _ _ _ Hj) as (r & pid & H1 & H2 & H3 & H4 & H5 & _).
      rewrite E in Ho. case_decide; [done|]. injection Ho as Hid. assert (pid = id) as -> by congruence.
      destruct Hi as [[Hi _]|(k & -> & Hi & _)]; [apply lookup_lt_Some in Hi; lia|].
      replace (length words + k - length words) with k in Hid by lia.
      assert (Hsrc : e_src r = n). { eapply id_of_inj; [done|]. right. exists k. split; [done|lia]. }
      destruct Hj as [[Hj _]|(k' & -> & Hj & _)]; [apply lookup_lt_Some in Hj; lia|].
      assert (k' < k); [|lia]. destruct HN as (_ & _ & Hord). apply (Hord k k' n n'); [done|done|]. by exists r.
  Qed.
  Lemma written_complete header k meta : (N.of_nat k < usize_bound)%N ->
    (forall m, meta = Some m -> m <> [] /\ 10%N ∉ m /\ trim m = m) ->
    header = lit "#BOS " ++ print_nat k ++ match meta with Some m => lit "  " ++ m | None => [] end ->
    complete header (tl ++ nl) (lit "#EOS " ++ print_nat k).
  Proof using W A HN HS HT Hlen HL.
    intros Hk Hm Hh. destruct (header_back (print_nat k) header meta (print_nat_word k) Hm Hh) as [Etr _].
    destruct (footer_back (print_nat k) (print_nat_word k)) as (He1 & He2 & _).
    destruct bottom_up_written as (Hb1 & Hb2 & Hb3).
    pose proof (Forall2_length _ _ _ HT) as Hl.
    assert (Hparent : forall n p, PE (edges t) p n -> exists i l pid, row i n l /\ parent_id l = Some pid /\ id_of t nts p pid).
    { intros n p Hp. assert (is_Some (nodes t !! n)) by (by eapply (sh_live _ _ _ (wf_shape _ W))).
      destruct (node_row n) as (i & l & Hrow); [done| |].
      { intros ->. by apply (sh_root_top _ _ _ (wf_shape _ W)) in Hp. }
      destruct (row_ids _ _ _ Hrow) as (r & pid & H1 & H2 & H3 & H4 & H5 & _). exists i, l, pid. split_and!; [done|done|].
      assert (PE (edges t) (e_src r) n) by (by exists r). by rewrite (PE_parent_unique (wf_shape _ W) p (e_src r) n). }
    split_and!.
    - exists [], 32%N, (print_nat k), match meta with Some m => lit "  " ++ m | None => [] end, k. split_and!; try done.
      + rewrite Etr. by rewrite Hh at 1.
      + apply print_nat_word.
      + destruct meta as [m|]; [right; by exists 32%N, (32%N :: m)|by left].
      + by apply parse_print_nat.
    - apply Forall_lookup. intros i l [n Hi]%body_row. destruct (row_ids _ _ _ Hi) as (r & pid & _ & _ & _ & _ & _ & H & _). done.
    - apply Forall_lookup. intros i l [n Hi]%body_row. destruct (row_ids _ _ _ Hi) as (r & pid & _ & _ & _ & _ & _ & _ & H & _). done.
    - split.
      + pose proof words_nonempty. intros [E _]%app_eq_nil. rewrite E in Hl. by destruct words.
      + intros l id [i [n Hi]%body_row]%elem_of_list_lookup Hs.
        destruct (row_ids _ _ _ Hi) as (_ & _ & _ & _ & _ & _ & _ & _ & _ & H & _).
        destruct (H id Hs) as (r2 & G1 & G2 & G3). destruct (wr_sec t A r2 G1 G2) as [[nt Hnt] _].
        destruct (sh_inner _ _ _ (wf_shape _ W) _ _ Hnt) as [c Hc]. destruct (Hparent c _ Hc) as (i' & l' & pid & Hr & Hp & Hid).
        right. exists l'. split; [eapply elem_of_list_lookup_2, body_row; eauto|]. by rewrite Hp, (id_of_fun t nts HN _ _ _ Hid G3).
    - intros i j l l' [n Hi]%body_row [n' Hj]%body_row [o Ho] Ho'.
      destruct (row_ids _ _ _ Hi) as (_ & _ & _ & _ & _ & _ & _ & _ & _ & _ & E).
      destruct (row_ids _ _ _ Hj) as (_ & _ & _ & _ & _ & _ & _ & _ & _ & _ & E').
      rewrite E in Ho. rewrite E' in Ho'. repeat case_decide; try done. lia.
    - done.
    - intros i l id Hi Ho. split.
      { intros ->. apply (Hb2 l); [|done]. by eapply elem_of_list_lookup_2. }
      pose proof Hi as [n Hrow]%body_row.
      destruct (row_ids _ _ _ Hrow) as (_ & _ & _ & _ & _ & _ & _ & _ & _ & _ & E).
      rewrite E in Ho. case_decide; [done|]. injection Ho as Hid.
      destruct Hrow as [[Hr _]|(k' & -> & Hr & _)]; [apply lookup_lt_Some in Hr; lia|].
      assert (exists nt, nodes t !! n = Some (NT nt)) as [nt Hn] by (apply elem_of_list_lookup_2, HN in Hr; tauto).
      destruct (sh_inner _ _ _ (wf_shape _ W) _ _ Hn) as [c Hc]. destruct (Hparent c _ Hc) as (j & l' & pid & Hrj & Hp & Hidp).
      assert (pid = id) as ->. { eapply (id_of_fun t nts HN); [exact Hidp|]. right. exists k'. split; [done|lia]. }
      assert (Hj : (tl ++ nl) !! j = Some l') by (apply body_row; eauto).
      exists j, l'. split_and!; [|done|done]. apply (Hb3 (length words + k') j l l' id); try done. rewrite E. f_equal. lia.
    - intros l id [i [n Hi]%body_row]%elem_of_list_lookup Hp Hid.
      destruct (row_ids _ _ _ Hi) as (r & pid & H1 & H2 & H3 & H4 & H5 & _). assert (pid = id) as -> by congruence.
      destruct H4 as [[_ ?]|(j & Hj & ->)]; [done|].
      assert (is_Some (nl !! j)) as [l' Hl']. { apply lookup_lt_is_Some. rewrite Hlen. by eapply lookup_lt_Some. }
      assert (Hrow : row (length words + j) (e_src r) l') by (right; eauto).
      exists l'. split; [eapply elem_of_list_lookup_2, body_row; eauto|].
      destruct (row_ids _ _ _ Hrow) as (_ & _ & _ & _ & _ & _ & _ & _ & _ & _ & ->). rewrite decide_False by lia. f_equal. lia.
  Qed.
End back.
