(** Property C48: the round trip through CONLL-X sentences. *)
From Coq Require Import Lia ZArith.
From Verif Require Import ConllModel TreeSpec BaseProofs SpanProofs FeatProofs ShapeProofs GraphProofs SortProofs EditProofs
  CollapseProofs RestoreProofs RoseSpec RoseProofs TreeOps EncSpec EncConv EncTree EncTree2 DecPure ItProofs DecGraph ExpProofs
  Api PtbModel PtbPrint PropsTree PropsEnc PropsDec PropsConll ConllProofs.

(** ** Admissible trees *)
(** Characters with a meaning in the text of tags and features. *)
Definition reserved (c : char) : Prop := c ∈ [plus_sign; tilde; 124%N; 58%N].
Definition good_label (s : str) : Prop := s <> [] /\ 95%N ∉ s /\ forall c, reserved c -> c ∉ s.
(** Features that can be written as text (C08), without the key ["unary_chain"]. *)
Definition good_feats (o : option features) : Prop :=
  match o with
  | None => True
  | Some m => feats_ok m /\ m !! lit "unary_chain" = None
  end.
Definition admissible (t : tree) : Prop :=
  forall n w, nodes t !! n = Some w ->
    match w with
    | NT nt => good_label (nt_label nt) /\ default ∅ (nt_feats nt) !! lit "unary_chain" = None
    | T tm => good_feats (t_feats tm)
    end.
(** Same form, tag and position; same label and span. *)
Definition word_kept (a b : terminal) : Prop := t_form a = t_form b /\ t_pos a = t_pos b /\ t_span a = t_span b.
Definition inner_kept (a b : nonterminal) : Prop := nt_label a = nt_label b /\ nt_span a = nt_span b.

(** ** Equal shapes *)
Lemma shape_leaf_spans r : forall r', shape r = shape r' -> map t_span (leaves r) = map t_span (leaves r').
Proof.
  induction r as [tm|nt cs IH] using rose_ind'; intros [tm'|nt' cs'] E; try done; simpl in E |- *.
  - by injection E as _ _ ->.
  - injection E as _ E. revert cs' E. induction cs as [|c cs IHc]; intros [|c' cs'] E; try done. simpl in E |- *. injection E as E1 E2.
    apply Forall_cons in IH as [IH0 IH]. rewrite !map_app. f_equal; [by apply IH0|by apply IHc].
Qed.
Lemma shape_rel t1 t2 : WF t1 -> WF t2 ->
  forall n1 r1, Den (nodes t1) (edges t1) n1 r1 -> forall n2 r2, Den (nodes t2) (edges t2) n2 r2 -> shape r1 = shape r2 ->
  rose_rel word_kept inner_kept (fun _ _ => True) r1 r2.
Proof.
  intros W1 W2 n1 r1 D1. induction D1 as [n1 tm H1|n1 nt l cs H1 Hl HS HF] using Den_ind'; intros n2 r2 D2 E.
  - inversion D2; subst; simpl in E; [|done]. injection E as E1 E2 E3. by constructor.
  - pose proof D2 as D2'. inversion D2' as [|? nt2 l2 cs2 H2 Hl2 HS2 HF2]; subst; simpl in E; [done|]. 
    pose proof (shape_leaf_spans (RNode nt cs) (RNode nt2 cs2) E) as Hlv. injection E as El Ec. constructor.
    + split; [done|]. pose proof W1 as [G1 Sh1 Tm1 Nt1 _]. pose proof W2 as [G2 Sh2 Tm2 Nt2 _].
      change (node_span (NT nt) = node_span (NT nt2)).
      destruct (node_span_ok _ _ _ _ _ _ Sh1 Tm1 Nt1 H1) as [O1 C1]. destruct (node_span_ok _ _ _ _ _ _ Sh2 Tm2 Nt2 H2) as [O2 C2].
      apply span_ext; [done|done|]. intros i. rewrite C1, C2.
      assert (D1 : Den (nodes t1) (edges t1) n1 (RNode nt cs)) by (econstructor; [done|done|done|]; eapply Forall2_impl; [exact HF|]; naive_solver).
      rewrite (Den_yields _ _ _ W1 D1), (Den_yields _ _ _ W2 D2).
      assert (Hm : forall l : list terminal, map t_idx l = map sp_start (map t_span l)) by (intros; by rewrite map_map).
      by rewrite !Hm, Hlv.
    + apply Forall2_same_length_lookup.
      assert (HL : length cs = length cs2) by (by apply (f_equal length) in Ec; rewrite !map_length in Ec).
      split; [done|]. intros i c d Hc Hd. split; [done|].
      apply Forall2_lookup_r with (i := i) (y := d) in HF2 as (e2 & He2 & _ & Hd2); [|done].
      apply (Forall2_lookup_r _ _ _ _ _ HF) in Hc as Hc'. destruct Hc' as (e1 & He1 & _ & _ & IHc).
      apply (IHc _ _ Hd2). apply (f_equal (fun m => m !! i)) in Ec. rewrite !list_lookup_fmap, Hc, Hd in Ec. by injection Ec.
Qed.

(** ** Characters of tags *)
Definition clean (s : str) : Prop := forall c, reserved c -> c ∉ s.
Lemma clean_app a b : clean a -> clean b -> clean (a ++ b).
Proof. intros H1 H2 c Hc. rewrite elem_of_app. intros [H|H]; [by apply (H1 c)|by apply (H2 c)]. Qed.
Lemma clean_us : clean (lit "_").
Proof. intros c Hc H. unfold reserved in Hc. change (lit "_") with [95%N] in H. apply elem_of_list_singleton in H as ->. 
  unfold plus_sign, tilde in Hc. set_solver.
Qed.
Lemma clean_join ls : (forall s, s ∈ ls -> clean s) -> clean (Base.join (lit "_") ls).
Proof.
  induction ls as [|s ls IH]; intros H; [intros c _; simpl; set_solver|]. destruct ls as [|s' ls].
  - simpl. apply H. set_solver.
  - change (Base.join (lit "_") (s :: s' :: ls)) with (s ++ lit "_" ++ Base.join (lit "_") (s' :: ls)).
    apply clean_app; [apply H; set_solver|]. apply clean_app; [apply clean_us|]. apply IH. set_solver.
Qed.
Lemma join_not_nil ls : ls <> [] -> (forall s, s ∈ ls -> s <> []) -> Base.join (lit "_") ls <> [].
Proof.
  destruct ls as [|s [|s' ls]]; intros Hne H; [done|simpl; apply H; set_solver|].
  change (Base.join (lit "_") (s :: s' :: ls)) with (s ++ lit "_" ++ Base.join (lit "_") (s' :: ls)).
  specialize (H s ltac:(set_solver)). by destruct s.
Qed.
Lemma clean_chars c : (c = 126 \/ c = 124 \/ c = 58 \/ c = 43)%N -> reserved c.
Proof. unfold reserved, plus_sign, tilde. set_solver. Qed.
Definition tag_clean (s : str) : Prop := tilde ∉ s /\ 124%N ∉ s /\ 58%N ∉ s.
Lemma clean_tag_clean s : clean s -> tag_clean s.
Proof. intros H. split_and!; apply H, clean_chars; unfold tilde; tauto. Qed.
Lemma tag_clean_app a b : tag_clean a -> tag_clean b -> tag_clean (a ++ b).
Proof. unfold tag_clean. rewrite !elem_of_app. tauto. Qed.
Lemma abs_tag_clean a : clean (ab_label a) -> tag_clean (abs_to_string a) /\ abs_to_string a <> lit "NONE".
Proof.
  intros H. unfold abs_to_string. split.
  - apply tag_clean_app; [by apply clean_tag_clean|]. apply tag_clean_app.
    + split_and!; apply (bool_decide_unpack _); by vm_compute.
    + unfold tag_clean, tilde. split_and!; intros Hin%print_nat_digits; lia.
  - intros E. assert (Hin : plus_sign ∈ lit "NONE") by (rewrite <- E; set_solver). revert Hin. apply (bool_decide_unpack _). by vm_compute.
Qed.
Lemma print_Z_tag_clean z : tag_clean (print_Z z).
Proof.
  unfold print_Z, tag_clean, tilde. destruct z as [|p|p]; rewrite ?elem_of_cons; split_and!; intros H.
  all: try (destruct H as [H|H]; [lia|]). all: apply print_nat_digits in H; lia.
Qed.
Lemma rel_tag_clean a : clean (rel_label a) -> rel_label a <> lit "NONE" -> tag_clean (rel_to_string a) /\ rel_to_string a <> lit "NONE".
Proof.
  intros H Hn. destruct a as [o l|l]; simpl rel_label in *; cbn [rel_to_string]; [|split; [by apply clean_tag_clean|done]]. split.
  - apply tag_clean_app; [by apply clean_tag_clean|]. apply tag_clean_app; [|apply print_Z_tag_clean].
    split_and!; apply (bool_decide_unpack _); by vm_compute.
  - intros E. assert (Hin : plus_sign ∈ lit "NONE") by (rewrite <- E; set_solver). revert Hin. apply (bool_decide_unpack _). by vm_compute.
Qed.

(** ** The collapsed tree *)
Lemma decodable_of t : WF t -> (forall n nt c, nodes t !! n = Some (NT nt) -> ~ only (edges t) n c) ->
  (forall n nt, nodes t !! n = Some (NT nt) -> 95%N ∉ nt_label nt) ->
  forall n r, Den (nodes t) (edges t) n r -> decodable r.
Proof.
  intros W Hu Hl. apply (Den_ind' (nodes t) (edges t) (fun n r => decodable r)); [done|].
  intros n nt l cs Hn H2 H3 H4. apply decodable_node. split_and!; [|by eapply Hl|].
  - rewrite <- (Forall2_length _ _ _ H4). destruct l as [|e [|e' l]]; [exfalso|exfalso|simpl; lia].
    + destruct (sh_inner _ _ _ (wf_shape _ W) n nt Hn) as (c & e & H5 & H6 & H7 & _).
      assert (e ∈ []) by (by apply H2). set_solver.
    + apply (Hu n nt (e_tgt e) Hn). destruct (proj1 (H2 e) ltac:(set_solver)) as (H5 & H6 & H7). split; [by exists e|].
      intros c (e' & G1 & G2 & G3 & <-). assert (e' ∈ [e]) as ->%elem_of_list_singleton by (by apply H2). done.
  - apply Forall_forall. intros c [i Hi]%elem_of_list_lookup. by destruct (Forall2_lookup_r _ _ _ _ _ H4 Hi) as (? & _ & _ & _ & ?).
Qed.
Lemma small_sub t t' : (forall n, is_Some (nodes t' !! n) -> is_Some (nodes t !! n)) -> small t -> small t'.
Proof.
  intros H Hs. unfold small in *.
  assert (Hle : size (dom (nodes t')) <= size (dom (nodes t))).
  { apply subseteq_size. intros n Hn. apply elem_of_dom. apply H. by apply elem_of_dom. }
  rewrite !size_dom in Hle. lia.
Qed.
Record collapsed (t : tree) (r : rose) (t1 : tree) (r1 : rose) : Prop := {
  co_eq : collapse_unary_chains t (lit "_") = Ret (t1, Ok ());
  co_wf : WF t1;
  co_proj : is_projective t1 = true;
  co_n : tr_nterm t1 = tr_nterm t;
  co_reads : Reads t1 r1;
  co_shape : shape r = expand (lit "_") r1;
  co_dec : decodable r1;
  co_small : small t -> small t1;
  co_feats : forall n tm, nodes t1 !! n = Some (T tm) -> feats_ok (default ∅ (t_feats tm));
  co_anc : forall a u, (Some a, u) ∈ rose_enc r1 -> clean (ab_label a) /\ ab_label a <> [] /\
     ((forall n nt, nodes t !! n = Some (NT nt) -> nt_label nt <> lit "NONE") -> ab_label a <> lit "NONE");
  co_chain : forall o u, (o, Some u) ∈ rose_enc r1 -> clean u /\ u <> []
}.
Lemma feats_ok_insert (m : features) k v : feats_ok m -> feat_str_ok k -> feat_str_ok v -> feats_ok (<[k := Some v]> m).
Proof.
  intros Hm Hk Hv k' v' [[<- <-]|[_ H]]%lookup_insert_Some; [done|]. by apply Hm.
Qed.
Lemma chain_in_default (o : option features) :
  chain_in o = match default ∅ o !! lit "unary_chain" with Some (Some c) => Some c | _ => None end.
Proof. unfold chain_in. generalize (lit "unary_chain"). intros k. destruct o as [m|]; simpl; [done|]. by rewrite lookup_empty. Qed.
Lemma unary_key_ok : feat_str_ok (lit "unary_chain").
Proof. split; apply (bool_decide_unpack _); by vm_compute. Qed.
Lemma collapsed_ok t r : WF t -> is_projective t = true -> admissible t -> Reads t r -> exists t1 r1, collapsed t r t1 r1.
Proof.
  intros W Hp Ha Hr.
  assert (Hnc : forall n w, nodes t !! n = Some w -> no_chain w).
  { intros n w Hn. specialize (Ha n w Hn). unfold no_chain, chain_feat. change unary_chain with (lit "unary_chain").
    destruct w as [nt|tm]; cbn [node_feats]; [apply Ha|]. destruct (t_feats tm) as [m|]; [apply Ha|apply lookup_empty]. }
  assert (Hlab : forall n nt, nodes t !! n = Some (NT nt) -> good_label (nt_label nt)).
  { intros n nt Hn. apply (Ha n _ Hn). }
  destruct (collapse_reads 95%N [] t r W Hnc) as (t1 & r1 & H1 & W1 & Hp1 & Hn1 & Hr1 & Hs1 & Hsub & Hu & HN); [|done|].
  { intros n nt Hn. by destruct (Hlab n nt Hn) as (_ & ? & _). }
  exists t1, r1.
  assert (Hnode : forall n w, nodes t1 !! n = Some w -> exists w0 ls, nodes t !! n = Some w0 /\ looks w w0 /\
      (forall s, s ∈ ls -> good_label s) /\
      chain_in (node_feats w) = match ls with [] => None | _ => Some (Base.join (lit "_") ls) end /\
      (is_terminal w0 = true -> feats_ok (default ∅ (node_feats w0)) /\ feats_ok (default ∅ (node_feats w)))).
  { intros n w Hw. destruct (HN n w Hw) as (w0 & ls & Hw0 & Hlk & Hls & Hf). exists w0, ls.
    assert (Hg : forall s, s ∈ ls -> good_label s). { intros s (m & nt & Hm & ->)%Hls. by eapply Hlab. }
    split_and!; [done|done|done| |].
    - pose proof (Hnc n w0 Hw0) as Hc0. unfold no_chain, chain_feat in Hc0. change unary_chain with (lit "unary_chain") in *.
      rewrite chain_in_default. destruct ls as [|l ls]; rewrite Hf; [by rewrite Hc0|]. cbn [default from_option id].
      by rewrite lookup_insert.
    - intros Ht. assert (F0 : feats_ok (default ∅ (node_feats w0))).
      { specialize (Ha n w0 Hw0). destruct w0 as [|tm]; [done|]. cbn [node_feats]. destruct (t_feats tm) as [m|]; [apply Ha|].
        intros k v Hk. simpl in Hk. by rewrite lookup_empty in Hk. }
      split; [done|]. destruct ls as [|l ls]; rewrite Hf; [done|]. apply feats_ok_insert; [done|apply unary_key_ok|].
      destruct (clean_tag_clean _ (clean_join (l :: ls) (fun s Hin => proj2 (proj2 (Hg s Hin))))) as (_ & ? & ?). done. }
  assert (Hjoin : forall ls, ls <> [] -> (forall s, s ∈ ls -> good_label s) -> clean (Base.join (lit "_") ls) /\ Base.join (lit "_") ls <> []).
  { intros ls Hne Hg. split; [apply clean_join; intros s Hin; by destruct (Hg s Hin) as (_ & _ & ?)|apply join_not_nil; [done|]; intros s Hin; by destruct (Hg s Hin) as (? & _)]. }
  assert (Hlab1 : forall n nt, nodes t1 !! n = Some (NT nt) -> good_label (nt_label nt)).
  { intros n nt Hn. destruct (Hnode n _ Hn) as (w0 & ls & Hw0 & Hlk & _). destruct w0 as [nt0|]; [|done]. simpl in Hlk. rewrite Hlk. by eapply Hlab. }
  constructor; try done.
  - by apply Hp1.
  - apply (decodable_of t1 W1 Hu) with (n := tr_root t1); [|done]. intros n nt Hn. by destruct (Hlab1 n nt Hn) as (_ & ? & _).
  - by apply small_sub.
  - intros n tm Hn. destruct (Hnode n _ Hn) as (w0 & ls & Hw0 & Hlk & _ & _ & HF). destruct w0; [done|]. by apply HF.
  - intros a u Hin. unfold rose_enc in Hin. apply elem_of_zip_l in Hin. apply elem_of_app in Hin as [Hin|Hin]; [|set_solver].
    apply elem_of_list_fmap in Hin as (a' & [= <-] & Hin). apply gaps_label in Hin as (nt & Hnt & ->).
    apply (Reads_rnodes t1 r1 _ W1 Hr1) in Hnt as [n Hn]. pose proof (Hlab1 n nt Hn) as (L1 & L2 & L3).
    destruct (Hnode n _ Hn) as (w0 & ls & Hw0 & Hlk & Hg & Hch & _). cbn [node_feats] in Hch. unfold full_label. rewrite Hch.
    destruct ls as [|l ls].
    + split_and!; [done|done|]. intros Hno. destruct w0 as [nt0|]; [|done]. simpl in Hlk. rewrite Hlk. by eapply Hno.
    + destruct (Hjoin (l :: ls) ltac:(done) Hg) as [J1 J2]. split_and!.
      * apply clean_app; [done|]. apply clean_app; [apply clean_us|done].
      * intros E. apply app_eq_nil in E as [E _]. done.
      * intros _ E. assert (Hin : 95%N ∈ lit "NONE"). { rewrite <- E. apply elem_of_app. right. apply elem_of_app. left. change (lit "_") with [95%N]. set_solver. }
        revert Hin. apply (bool_decide_unpack _). by vm_compute.
  - intros o u Hin. unfold rose_enc in Hin. apply elem_of_zip_r in Hin. apply elem_of_list_fmap in Hin as (tm & E & Hin).
    apply leaves_rnodes, (Reads_rnodes t1 r1 _ W1 Hr1) in Hin as [n Hn].
    destruct (Hnode n _ Hn) as (w0 & ls & Hw0 & Hlk & Hg & Hch & _). cbn [node_feats] in Hch. rewrite Hch in E.
    destruct ls as [|l ls]; [done|]. assert (u = Base.join (lit "_") (l :: ls)) as -> by congruence. by apply Hjoin.
Qed.

(** ** Reading the tokens of the annotated tree *)
Lemma tokens_read {A} key (show : A -> str) try_from t1 t2 (e : list (option A * option str)) r1 toks :
  WF t1 -> is_projective t1 = true -> Reads t1 r1 ->
  annotates t1 t2 key (fun i => entry_text show <$> e !! i) -> sentence_of t2 toks -> length e = tr_nterm t1 ->
  feat_str_ok key -> (forall n tm, nodes t1 !! n = Some (T tm) -> feats_ok (default ∅ (t_feats tm))) ->
  (forall o c, (o, Some c) ∈ e -> clean c /\ c <> []) ->
  (forall a u, (Some a, u) ∈ e -> tag_clean (show a) /\ show a <> lit "NONE" /\ try_from (show a) = Ok a) ->
  read_tokens key try_from 0 toks = Ok (e, map plain (leaves r1)).
Proof.
  intros W Hp Hr (W2 & _ & _ & Hn2 & _ & Han) [HL HT] He Hkey Hfe Hch Hanc.
  pose proof (Reads_positions t1 r1 W Hp Hr) as HP. assert (HLr : length (leaves r1) = tr_nterm t1).
  { apply (f_equal length) in HP. by rewrite map_length, seq_length in HP. }
  assert (Hi : forall i k, toks !! i = Some k -> exists n tm x s, nodes t1 !! n = Some (T tm) /\ term_pos (nodes t1) n i /\
     e !! i = Some x /\ s = entry_text show x /\ carries k (mk_term (t_form tm) (t_pos tm) (t_lemma tm) (Some (<[key := Some s]> (default ∅ (t_feats tm)))) (t_span tm))).
  { intros i k Hk. apply lookup_lt_Some in Hk as Hlt. rewrite HL, Hn2 in Hlt.
    destruct (to_surj _ _ (wf_terms _ W) i Hlt) as [n Hn]. pose proof Hn as (tm & Htm & Hsp).
    destruct (Han n tm i Htm Hn) as (s & Hs & Hn'). destruct (e !! i) as [x|] eqn:Ex; [|done]. simpl in Hs. injection Hs as <-.
    destruct (HT i n _ Hn' Hsp) as (k' & Hk' & Hc). rewrite Hk in Hk'. injection Hk' as <-.
    exists n, tm, x, (entry_text show x). split_and!; try done. }
  rewrite (read_tokens_ok key try_from toks e 0).
  - do 2 f_equal. apply list_eq_same_length with (n := tr_nterm t1).
    + by rewrite map_length.
    + by rewrite imap_length, HL.
    + intros i x y Hlt Hx Hy. rewrite list_lookup_imap in Hx. destruct (toks !! i) as [k|] eqn:Ek; [|done]. simpl in Hx. injection Hx as <-.
      destruct (Hi i k Ek) as (n & tm & x & s & Htm & Hpos & _ & _ & (Hf & _ & Hpo & _)).
      rewrite list_lookup_fmap, (leaf_at t1 r1 i n tm W Hp Hr Hpos Htm) in Hy. simpl in Hy. injection Hy as <-.
      unfold plain. simpl in Hf, Hpo. rewrite Hf, Hpo. simpl. f_equal. destruct Hpos as (tm' & Htm' & Hs). rewrite Htm in Htm'. injection Htm' as <-.
      unfold t_idx. by rewrite Hs.
  - apply Forall2_same_length_lookup. split; [by rewrite HL, Hn2, He|]. intros i k x Hk Hx.
    destruct (Hi i k Hk) as (n & tm & x' & s & Htm & Hpos & Hx' & -> & (_ & _ & _ & Hfs)).
    rewrite Hx in Hx'. injection Hx' as <-. simpl in Hfs. destruct Hfs as (s & Hks & -> & _).
    apply elem_of_list_lookup_2 in Hx.
    assert (Hent : feat_str_ok (entry_text show x)).
    { assert (Happ : forall a b, feat_str_ok a -> feat_str_ok b -> feat_str_ok (a ++ b)) by (unfold feat_str_ok; intros a b; rewrite !elem_of_app; tauto).
      assert (Hw : forall a, tag_clean a -> feat_str_ok a) by (intros a (_ & ? & ?); done).
      unfold entry_text. apply Happ.
      - destruct x as [[a|] u]; cbn [fst]; [apply Hw; by destruct (Hanc a u Hx)|]. split; apply (bool_decide_unpack _); by vm_compute.
      - destruct x as [o [c|]]; cbn [snd]; [|split; set_solver]. apply Happ.
        + split; apply (bool_decide_unpack _); by vm_compute.
        + apply Hw, clean_tag_clean. by destruct (Hch o c Hx). }
    eapply (read_tag_ok show); [exact Hks| |apply lookup_insert| |].
    + apply feats_ok_insert; [by eapply Hfe|done|done].
    + intros c Hc. destruct x as [o u]. simpl in Hc. subst u. destruct (Hch o c Hx) as [H1 H2]. split; [done|]. by apply clean_tag_clean.
    + intros a Hc. destruct x as [o u]. simpl in Hc. subst o. destruct (Hanc a u Hx) as (H1 & H2 & H3). split_and!; [apply H1|done|done].
Qed.

(** ** C48: the round trip

    Collapsing the unary chains, annotating the tags, converting to a sentence and reading that sentence
    gives back nesting, labels, forms, tags and all positions. *)
Theorem C48_absolute t r :
  WF t -> is_projective t = true -> small t -> admissible t -> Reads t r ->
  exists t1 t2 l t' r', collapse_unary_chains t (lit "_") = Ret (t1, Ok ()) /\ annotate_absolute t1 = Ret (t2, Ok ()) /\
    to_conllx t2 = Ret l /\ into_conllx t2 = Ret l /\ from_conllx_absolute l = Ret (Ok t') /\
    WF t' /\ is_projective t' = true /\ tr_nterm t' = tr_nterm t /\ Reads t' r' /\
    rose_rel word_kept inner_kept (fun _ _ => True) r r'.
Proof.
  intros W Hp Hsm Ha Hr. destruct (collapsed_ok t r W Hp Ha Hr) as (t1 & r1 & C). pose proof (co_wf _ _ _ _ C) as W1.
  pose proof (co_proj _ _ _ _ C) as Hp1. pose proof (co_reads _ _ _ _ C) as Hr1.
  destruct (proj2 (C53_annotate_absolute t1 W1) Hp1) as (e & t2 & He & Ht2 & Han).
  pose proof (encode_absolute_rose t1 r1 W1 Hp1 Hr1) as He'. rewrite He in He'. injection He' as ->.
  destruct (C49_to_conllx t2) as (l & Hl & Hl' & Hsent); [apply Han|].
  destruct (decode_restore_ok t1 r1 W1 Hp1 Hr1 (co_dec _ _ _ _ C)) as (t' & r' & Hd & W' & Hp' & Hn' & Hr' & Hs').
  exists t1, t2, l, t', r'. split_and!; try done.
  - apply (co_eq _ _ _ _ C).
  - unfold from_conllx_absolute, ABS_KEY. rewrite (tokens_read (lit "abs_ancestor") abs_to_string abs_try_from t1 t2 (rose_enc r1) r1 l); try done.
    + pose proof (Reads_positions t1 r1 W1 Hp1 Hr1) as HP. rewrite rose_enc_len by apply (co_dec _ _ _ _ C).
      apply (f_equal length) in HP. by rewrite map_length, seq_length in HP.
    + split; apply (bool_decide_unpack _); by vm_compute.
    + apply (co_feats _ _ _ _ C).
    + apply (co_chain _ _ _ _ C).
    + intros a u Hin. destruct (co_anc _ _ _ _ C a u Hin) as (H1 & H2 & _). destruct (abs_tag_clean a H1) as [H3 H4]. split_and!; [apply H3..|done|].
      apply C47_absolute; [apply H1, clean_chars; unfold plus_sign; tauto|].
      pose proof (proj2 (encode_absolute_depths t1 _ W1 He) (co_small _ _ _ _ C Hsm) a u Hin) as Hd'. pose proof bounds_pos. lia.
  - rewrite Hn'. apply (co_n _ _ _ _ C).
  - apply (shape_rel t t' W W' _ _ Hr _ _ Hr'). rewrite Hs'. apply (co_shape _ _ _ _ C).
Qed.
Print Assumptions C48_absolute.

(** The same with relative tags.  A root labelled [NONE] is not distinguished from a missing tag. *)
Lemma rel_from_abs_entries e : forall prev r, rel_from_abs e prev = Ret r ->
  Forall2 (fun x y => x.2 = y.2 /\ match x.1, y.1 with
     | None, None => True
     | Some a, Some b => rel_label b = ab_label a /\ match b with RRegular o _ => (- Z.of_N isize_bound <= o < Z.of_N isize_bound)%Z | _ => True end
     | _, _ => False end) e r.
Proof.
  induction e as [|[[a|] u] e IH]; intros prev r; cbn [rel_from_abs]; [intros [= <-]; constructor| |].
  - destruct (isize_chk _) as [d| |] eqn:Ed; cbn [mbind outcome_bind]; try done.
    destruct (rel_from_abs e _) as [r'| |] eqn:Er; cbn [mbind outcome_bind]; try done. intros [= <-]. constructor; [|by eapply IH].
    split; [done|]. cbn [fst]. destruct (Nat.eqb _ 1); [done|]. split; [done|]. unfold isize_chk in Ed.
    destruct (_ && _)%bool eqn:Eb; [|done]. injection Ed as <-. apply andb_true_iff in Eb as [E1%Z.leb_le E2%Z.ltb_lt]. done.
  - destruct (rel_from_abs e _) as [r'| |] eqn:Er; cbn [mbind outcome_bind]; try done. intros [= <-]. constructor; [|by eapply IH]. done.
Qed.
Theorem C48_relative t r :
  WF t -> is_projective t = true -> small t -> admissible t ->
  (forall n nt, nodes t !! n = Some (NT nt) -> nt_label nt <> lit "NONE") -> Reads t r ->
  exists t1 t2 l t' r', collapse_unary_chains t (lit "_") = Ret (t1, Ok ()) /\ annotate_relative t1 = Ret (t2, Ok ()) /\
    to_conllx t2 = Ret l /\ into_conllx t2 = Ret l /\ from_conllx_relative l = Ret (Ok t') /\
    WF t' /\ is_projective t' = true /\ tr_nterm t' = tr_nterm t /\ Reads t' r' /\
    rose_rel word_kept inner_kept (fun _ _ => True) r r'.
Proof.
  intros W Hp Hsm Ha Hno Hr. destruct (collapsed_ok t r W Hp Ha Hr) as (t1 & r1 & C). pose proof (co_wf _ _ _ _ C) as W1.
  pose proof (co_proj _ _ _ _ C) as Hp1. pose proof (co_reads _ _ _ _ C) as Hr1. pose proof (co_small _ _ _ _ C Hsm) as Hsm1.
  destruct (proj2 (C53_annotate_relative t1 W1 Hsm1) Hp1) as (q & t2 & Hq & Ht2 & Han).
  pose proof (encode_absolute_rose t1 r1 W1 Hp1 Hr1) as He.
  destruct (C42_encode_relative t1 W1 Hsm1) as [(? & _)|(_ & e & q' & He' & Hq' & Hqq)]; [congruence|].
  rewrite He in He'. injection He' as <-. rewrite Hq in Hqq. injection Hqq as <-.
  destruct (C43_encoded t1 _ W1 Hsm1 He) as (q' & Hq2 & Hconv). rewrite Hq' in Hq2. injection Hq2 as <-.
  pose proof (rel_from_abs_entries _ _ _ Hq') as HF.
  destruct (C49_to_conllx t2) as (l & Hl & Hl' & Hsent); [apply Han|].
  destruct (decode_restore_ok t1 r1 W1 Hp1 Hr1 (co_dec _ _ _ _ C)) as (t' & r' & Hd & W' & Hp' & Hn' & Hr' & Hs').
  exists t1, t2, l, t', r'. split_and!; try done.
  - apply (co_eq _ _ _ _ C).
  - unfold from_conllx_relative, REL_KEY. rewrite (tokens_read (lit "rel_ancestor") rel_to_string rel_try_from t1 t2 q r1 l); try done.
    + rewrite Hconv. cbn [mbind outcome_bind]. exact Hd.
    + pose proof (Reads_positions t1 r1 W1 Hp1 Hr1) as HP. rewrite <- (Forall2_length _ _ _ HF). rewrite rose_enc_len by apply (co_dec _ _ _ _ C).
      apply (f_equal length) in HP. by rewrite map_length, seq_length in HP.
    + split; apply (bool_decide_unpack _); by vm_compute.
    + apply (co_feats _ _ _ _ C).
    + intros o u [i Hi]%elem_of_list_lookup. destruct (Forall2_lookup_r _ _ _ _ _ HF Hi) as ([o' u'] & Hx & Hu & _). simpl in Hu. subst u'.
      apply elem_of_list_lookup_2 in Hx. by apply (co_chain _ _ _ _ C o').
    + intros b u [i Hi]%elem_of_list_lookup. destruct (Forall2_lookup_r _ _ _ _ _ HF Hi) as ([[a|] u'] & Hx & Hu & Hm); simpl in Hu, Hm; [|done].
      subst u'. destruct Hm as [Hlab Hb]. apply elem_of_list_lookup_2 in Hx.
      destruct (co_anc _ _ _ _ C a u Hx) as (H1 & H2 & H3). specialize (H3 Hno). rewrite <- Hlab in *.
      destruct (rel_tag_clean b H1 H3) as [H4 H5]. split_and!; [apply H4..|done|].
      apply C47_relative_partial; [apply H1, clean_chars; unfold plus_sign; tauto|done|done].
  - rewrite Hn'. apply (co_n _ _ _ _ C).
  - apply (shape_rel t t' W W' _ _ Hr _ _ Hr'). rewrite Hs'. apply (co_shape _ _ _ _ C).
Qed.
Print Assumptions C48_relative.

(** The hypotheses are met by (S (NP the dog) (VP barks) loudly), which has a unary node. *)
Lemma good_label_check s : bool_decide (s <> [] /\ 95%N ∉ s /\ Forall (fun c => c ∉ s) [plus_sign; tilde; 124%N; 58%N]) = true -> good_label s.
Proof. intros (H1 & H2 & H3)%bool_decide_eq_true. split_and!; try done. intros c Hc. rewrite Forall_forall in H3. by apply H3. Qed.
Lemma admissible_list t : Forall (fun x : nat * node => match x.2 with
    | NT nt => good_label (nt_label nt) /\ default ∅ (nt_feats nt) !! lit "unary_chain" = None
    | T tm => good_feats (t_feats tm) end) (map_to_list (nodes t)) -> admissible t.
Proof. intros H n w Hn. rewrite Forall_forall in H. apply (H (n, w)). by apply elem_of_map_to_list. Qed.
Ltac solve_admissible :=
  apply admissible_list; match goal with |- Forall _ ?l => let v := eval vm_compute in l in replace l with v by (vm_compute; reflexivity) end;
  repeat (apply Forall_cons; split); try apply Forall_nil; cbn [snd];
  first [exact I | split; [apply good_label_check; by vm_compute|by vm_compute]].
Example C48_ex : WF ex_proj /\ is_projective ex_proj = true /\ small ex_proj /\ admissible ex_proj /\
  (forall n nt, nodes ex_proj !! n = Some (NT nt) -> nt_label nt <> lit "NONE") /\ Reads ex_proj (rose_of ex_proj).
Proof.
  split_and!; [apply ex_proj_WF|by vm_compute|by vm_compute|solve_admissible| |apply rose_of_ok, ex_proj_WF].
  assert (H : Forall (fun x : nat * node => match x.2 with NT nt => nt_label nt <> lit "NONE" | _ => True end) (map_to_list (nodes ex_proj))).
  { match goal with |- Forall _ ?l => let v := eval vm_compute in l in replace l with v by (vm_compute; reflexivity) end.
    repeat (apply Forall_cons; split); try apply Forall_nil; cbn [snd]; first [exact I | by vm_compute]. }
  intros n nt Hn. rewrite Forall_forall in H. by apply (H (n, NT nt)), elem_of_map_to_list.
Qed.
(** The round trip, computed. *)
Definition round_abs (t : tree) : outcome (result tree) :=
  '(t, _) ← collapse_unary_chains t (lit "_"); '(t, _) ← annotate_absolute t; l ← to_conllx t; from_conllx_absolute l.
Definition round_rel (t : tree) : outcome (result tree) :=
  '(t, _) ← collapse_unary_chains t (lit "_"); '(t, _) ← annotate_relative t; l ← to_conllx t; from_conllx_relative l.
Definition shown (o : outcome (result tree)) : outcome (result str) :=
  r ← o; match r with Ok t => tree_to_string Simple t | Err => Ret Err end.
Example C48_round_ex :
  shown (round_abs ex_proj) = Ret (Ok (lit "(S (NP (D the) (N dog)) (VP (V barks)) (ADV loudly))")) /\
  shown (round_rel ex_proj) = Ret (Ok (lit "(S (NP (D the) (N dog)) (VP (V barks)) (ADV loudly))")).
Proof. split; vm_compute; reflexivity. Qed.

(** With relative tags the label [NONE] of the root is lost. *)
Theorem C48_none_refuted : exists t, WF t /\ is_projective t = true /\ small t /\ admissible t /\
  tree_to_string Simple t = Ret (Ok (lit "(NONE (D the) (N dog))")) /\
  shown (round_rel t) = Ret (Ok (lit "(DUMMY (D the) (N dog))")).
Proof.
  exists (build (lit "the") (lit "D") [OAbove 0 (lit "NONE"); OPush (lit "dog") (lit "N")]).
  split_and!; [apply build_WF|by vm_compute|by vm_compute|solve_admissible|by vm_compute|by vm_compute].
Qed.
Print Assumptions C48_none_refuted.
(** Reserved characters in labels: the text of the tag no longer determines the label. *)
Theorem C48_label_refuted : exists t, WF t /\ is_projective t = true /\ small t /\
  tree_to_string Simple t = Ret (Ok (lit "(A~B (D the) (N dog))")) /\ shown (round_abs t) = Ret Err.
Proof.
  exists (build (lit "the") (lit "D") [OAbove 0 (lit "A~B"); OPush (lit "dog") (lit "N")]).
  split_and!; [apply build_WF|by vm_compute|by vm_compute|by vm_compute|by vm_compute].
Qed.
Print Assumptions C48_label_refuted.
