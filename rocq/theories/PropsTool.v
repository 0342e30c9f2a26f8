(** C59: converting a treebank and converting it back. *)
From Coq Require Import Lia ZArith.
From Verif Require Import ConvModel TreeSpec RoseSpec RoseProofs BaseProofs SpanProofs ShapeProofs GraphProofs SortProofs NavProofs CollapseProofs
  Api EncTree2 PtbSpec PtbPrint PtbRound NegraSpec NegraRound PropsTree PropsDec2 PropsEnc PropsPtb PropsConll PropsConll2 PropsNegra PropsNegra2 Ordered
  EqProofs ConvSpec ConvProofs ConvPipe PropsTag PropsConv.

Local Arguments lit : simpl never.
(** No option but the output format. *)
Definition only_out (f : out_format) : options := mk_opts f false false false None None [] None None [] None.

(** ** Texts of related trees *)
Lemma rshow_rel f (RT : terminal -> terminal -> Prop) (RN : nonterminal -> nonterminal -> Prop) (RE : option str -> option str -> Prop) :
  (forall a b e e', RT a b -> RE e e' -> fmt_term f (t_form a) (t_pos a) e = fmt_term f (t_form b) (t_pos b) e') ->
  (forall a b e e', RN a b -> RE e e' -> fmt_inner f a e = fmt_inner f b e') ->
  forall r r' e e', rose_rel RT RN RE r r' -> RE e e' -> rshow f e r = rshow f e' r'.
Proof.
  intros HT HN. induction r as [tm|nt cs IH] using rose_ind'; intros r' e e' H HE; inversion H as [a b Hab|a b cs' ds Hab HF]; subst; cbn [rshow].
  - by apply HT.
  - assert (map (fun c => rshow f c.1 c.2) cs = map (fun c => rshow f c.1 c.2) ds) as ->; [|by rewrite (HN _ _ e e' Hab HE)].
    clear H Hab. revert ds HF. induction IH as [|c cs IHc _ IHcs]; intros ds HF; inversion HF as [|? d ? ds' [H1 H2] HF']; subst; [done|].
    simpl. f_equal; [by apply IHc|by apply IHcs].
Qed.
(** Trees with the same reading up to what the format shows are written as the same text. *)
Lemma same_text f t t' r r' (RT : terminal -> terminal -> Prop) (RN : nonterminal -> nonterminal -> Prop) (RE : option str -> option str -> Prop) :
  (forall a b e e', RT a b -> RE e e' -> fmt_term f (t_form a) (t_pos a) e = fmt_term f (t_form b) (t_pos b) e') ->
  (forall a b e e', RN a b -> RE e e' -> fmt_inner f a e = fmt_inner f b e') -> RE None None ->
  WF t -> WF t' -> is_projective t = true -> is_projective t' = true -> Reads t r -> Reads t' r' -> rose_rel RT RN RE r r' ->
  exists s, tree_to_string f t = Ret (Ok s) /\ tree_to_string f t' = Ret (Ok s).
Proof.
  intros HT HN HE W W' P P' R R' H. exists (rshow f None r).
  rewrite (tree_to_string_spec f t r W R), (tree_to_string_spec f t' r' W' R'), P, P'. split; [done|].
  by rewrite (rshow_rel f RT RN RE HT HN r r' None None H HE).
Qed.

(** ** Tags *)
Definition taggable (t : tree) : Prop := WF t /\ is_projective t = true /\ small t /\ admissible t.
Definition text_item (s : str) : item := Text (s ++ [10%N]).

Lemma convert_plain choose f pos t : (f = OConllx \/ f = ONegra \/ exists g, f = OBracket g) ->
  pos = None -> convert_tree choose (only_out f) pos t = Ret (Ok (t, None)).
Proof. by intros [-> |[-> |[g ->]]] ->. Qed.

Lemma write_texts choose f ts texts c :
  Forall2 (fun t s => tree_to_string f t = Ret (Ok s)) ts texts ->
  convert_all choose (only_out (OBracket f)) None c (map Ok ts) = Ret (map text_item texts, true).
Proof.
  intros H. revert choose. induction H as [|t s ts texts H _ IH]; intros choose; simpl; [done|].
  unfold ptb_write. rewrite H. simpl. rewrite IH. done.
Qed.

(** One tree and its tags: the tagged sentence is written, and the tree read from it has the same text. *)
Lemma tags_back choose1 choose2 out inp from (P : tree -> Prop) ts :
  (inp = IAbsolute \/ inp = IRelative) -> from = (match inp with IAbsolute => from_conllx_absolute | _ => from_conllx_relative end) ->
  (forall choose t, P t -> exists t2 l t' s, convert_tree choose (only_out out) None t = Ret (Ok (t2, None)) /\
     (forall c, write_tree out c t2 = Ret (Ok (Sentence l, c))) /\ from l = Ret (Ok t') /\
     tree_to_string Simple t = Ret (Ok s) /\ tree_to_string Simple t' = Ret (Ok s)) ->
  Forall P ts ->
  exists ss texts,
    convert_all choose1 (only_out out) None 0 (map Ok ts) = Ret (map Sentence ss, true) /\
    Forall2 (fun t s => tree_to_string Simple t = Ret (Ok s)) ts texts /\
    tool_sentences choose2 inp (only_out (OBracket Simple)) None ss = Ret (map text_item texts, true).
Proof.
  intros Hi Hfrom HT HF.
  assert (HX : exists ss texts ts', convert_all choose1 (only_out out) None 0 (map Ok ts) = Ret (map Sentence ss, true) /\
     mapO from ss = Ret (map Ok ts') /\
     Forall2 (fun t s => tree_to_string Simple t = Ret (Ok s)) ts texts /\ Forall2 (fun t s => tree_to_string Simple t = Ret (Ok s)) ts' texts).
  { revert choose1. induction HF as [|t ts Ht HF IH]; intros choose1.
    - by exists [], [], [].
    - destruct (IH (fun k => choose1 (S k))) as (ss & texts & ts' & H1 & H2 & H3 & H4).
      destruct (HT (choose1 0) t Ht) as (t2 & l & t' & s & E1 & E2 & E3 & T1 & T2).
      exists (l :: ss), (s :: texts), (t' :: ts'). split_and!; [| |by constructor|by constructor].
      + cbn [map convert_all]. rewrite E1. cbn [mbind outcome_bind]. change (o_out (only_out out)) with out. rewrite E2. cbn [mbind outcome_bind].
        by rewrite H1.
      + cbn [mapO map]. by rewrite E3, H2. }
  destruct HX as (ss & texts & ts' & H1 & H2 & H3 & H4). exists ss, texts. split_and!; [done|done|].
  unfold tool_sentences. assert (read_sentences inp ss = Ret (map Ok ts')) as ->. { subst from. destruct Hi as [-> | ->]; done. }
  cbn [mbind outcome_bind]. by apply write_texts.
Qed.
Lemma kept_text t t' r r' : WF t -> WF t' -> is_projective t = true -> is_projective t' = true -> Reads t r -> Reads t' r' ->
  rose_rel word_kept inner_kept (fun _ _ => True) r r' -> exists s, tree_to_string Simple t = Ret (Ok s) /\ tree_to_string Simple t' = Ret (Ok s).
Proof.
  intros W W' P P' Hr Hr' HR. apply (same_text Simple t t' r r' word_kept inner_kept (fun _ _ => True)); try done.
  - intros a b e e' (-> & -> & _) _. done.
  - intros a b e e' (Hl & _) _. done.
Qed.

(** A treebank of projective trees over admissible labels, written as absolute tags and read again,
    gives the bracketed texts of the original trees, in order. *)
Theorem C59_absolute choose1 choose2 ts :
  Forall taggable ts ->
  exists ss texts,
    convert_all choose1 (only_out OAbsolute) None 0 (map Ok ts) = Ret (map Sentence ss, true) /\
    Forall2 (fun t s => tree_to_string Simple t = Ret (Ok s)) ts texts /\
    tool_sentences choose2 IAbsolute (only_out (OBracket Simple)) None ss = Ret (map text_item texts, true).
Proof.
  apply (tags_back choose1 choose2 OAbsolute IAbsolute from_conllx_absolute taggable); [by left|done|].
  intros choose t (W & P & S & A). pose proof (rose_of_ok t W) as Hr. set (r := rose_of t) in *.
  destruct (C48_absolute t r W P S A Hr) as (t1 & t2 & l & t' & r' & E1 & E2 & E3 & _ & E4 & W' & P' & _ & Hr' & HR).
  destruct (kept_text t t' r r') as (s & T1 & T2); try done.
  exists t2, l, t', s. split_and!; try done.
  - unfold convert_tree, step_encode, next, or_exit. simpl. rewrite E1. simpl. rewrite E2. done.
  - intros c. unfold write_tree. by rewrite E3.
Qed.
Lemma ex_taggable : taggable ex_proj.
Proof. destruct C48_ex as (H1 & H2 & H3 & H4 & _). exact (conj H1 (conj H2 (conj H3 H4))). Qed.
Example C59_absolute_ex : Forall taggable [ex_proj; ex_proj] /\
  match convert_all (fun _ _ _ => 0) (only_out OAbsolute) None 0 (map Ok [ex_proj; ex_proj]) with
  | Ret ([Sentence l1; Sentence l2], true) => l1 = l2 /\ length l1 = 4 /\
      tool_sentences (fun _ _ _ => 0) IAbsolute (only_out (OBracket Simple)) None [l1; l2] =
      Ret ([text_item (lit "(S (NP (D the) (N dog)) (VP (V barks)) (ADV loudly))"); text_item (lit "(S (NP (D the) (N dog)) (VP (V barks)) (ADV loudly))")], true)
  | _ => False
  end.
Proof. split; [|by vm_compute]. apply Forall_cons. split; [apply ex_taggable|]. apply Forall_singleton, ex_taggable. Qed.
Print Assumptions C59_absolute.
Theorem C59_relative choose1 choose2 ts :
  Forall (fun t => taggable t /\ forall n nt, nodes t !! n = Some (NT nt) -> nt_label nt <> lit "NONE") ts ->
  exists ss texts,
    convert_all choose1 (only_out ORelative) None 0 (map Ok ts) = Ret (map Sentence ss, true) /\
    Forall2 (fun t s => tree_to_string Simple t = Ret (Ok s)) ts texts /\
    tool_sentences choose2 IRelative (only_out (OBracket Simple)) None ss = Ret (map text_item texts, true).
Proof.
  apply (tags_back choose1 choose2 ORelative IRelative from_conllx_relative); [by right|done|].
  intros choose t ((W & P & S & A) & HN). pose proof (rose_of_ok t W) as Hr. set (r := rose_of t) in *.
  destruct (C48_relative t r W P S A HN Hr) as (t1 & t2 & l & t' & r' & E1 & E2 & E3 & _ & E4 & W' & P' & _ & Hr' & HR).
  destruct (kept_text t t' r r') as (s & T1 & T2); try done.
  exists t2, l, t', s. split_and!; try done.
  - unfold convert_tree, step_encode, next, or_exit. simpl. rewrite E1. simpl. rewrite E2. done.
  - intros c. unfold write_tree. by rewrite E3.
Qed.
Example C59_relative_ex :
  Forall (fun t => taggable t /\ forall n nt, nodes t !! n = Some (NT nt) -> nt_label nt <> lit "NONE") [ex_proj].
Proof. apply Forall_singleton. split; [apply ex_taggable|]. apply C48_ex. Qed.
Print Assumptions C59_relative.

(** A node below [n] has a counterpart with the same span below [n']. *)
Lemma spans_below (RT : terminal -> terminal -> Prop) (RN : nonterminal -> nonterminal -> Prop) (RE : option str -> option str -> Prop) t t' (HN : forall a b, RN a b -> nt_span a = nt_span b) : WF t' -> forall r n, Den (nodes t) (edges t) n r ->
  forall r' n', Den (nodes t') (edges t') n' r' ->
  rose_rel RT RN RE r r' -> forall m' nt', rtc (PE (edges t')) n' m' -> nodes t' !! m' = Some (NT nt') ->
  exists m nt, nodes t !! m = Some (NT nt) /\ nt_span nt = nt_span nt'.
Proof.
  intros W' r. induction r as [tm|nt cs IH] using rose_ind'; intros n HD r' n' HD' HR m' nt' HP Hm'; inversion HR as [a b Hab|a b cs' ds Hab HF]; subst.
  - inversion HD' as [? ? Hn'|]; subst. apply rtc_inv in HP as [->|(c & Hc & HP)]; [congruence|].
    by destruct (sh_leaf _ _ _ (wf_shape _ W') _ _ c Hn').
  - inversion HD as [|? ? l ? Hn Hl _ HL]; subst. inversion HD' as [|? ? l' ? Hn' Hl' _ HL']; subst.
    apply rtc_inv in HP as [->|(c & Hc & HP)].
    { rewrite Hn' in Hm'. injection Hm' as <-. exists n, nt. auto. }
    destruct Hc as (e & He & Hp & <- & <-).
    assert (He' : e ∈ l') by (apply Hl'; done).
    apply elem_of_list_lookup in He' as [i Hi].
    destruct (Forall2_lookup_l _ _ _ i _ HL' Hi) as (d & Hd & _ & Dd).
    destruct (Forall2_lookup_r _ _ _ i _ HF Hd) as (c & Hc & _ & Rc).
    destruct (Forall2_lookup_r _ _ _ i _ HL Hc) as (e0 & He0 & _ & Dc).
    pose proof (Forall_lookup_1 _ _ _ _ IH Hc) as IHc. simpl in IHc.
    eapply IHc; eauto.
Qed.
Lemma spans_projective t t' r r' (RT : terminal -> terminal -> Prop) (RN : nonterminal -> nonterminal -> Prop) (RE : option str -> option str -> Prop) : (forall a b, RN a b -> nt_span a = nt_span b) ->
  WF t -> WF t' -> Reads t r -> Reads t' r' -> rose_rel RT RN RE r r' -> is_projective t = true -> is_projective t' = true.
Proof.
  intros HN W W' R R' HR P. apply proj_iff; [done|]. apply nogap_nt; [done|]. intros m' nt' Hm'.
  pose proof (sh_reach _ _ _ (wf_shape _ W') m' ltac:(eauto)) as HP.
  destruct (spans_below RT RN RE t t' HN W' r _ R r' _ R' HR m' nt' HP Hm') as (m & nt & Hm & E).
  pose proof (proj1 (proj_iff t W) P m _ Hm) as G. unfold gappy in *. simpl in *. by rewrite <- E.
Qed.

(** ** NEGRA *)
(** Everything that is written, as one text. *)
Definition file_of (its : list item) : str := concat (map (fun i => match i with Text s => s | Sentence _ => [] end) its).
Lemma annotation_of nt a : nt_annotation nt = a <-> has_feat (nt_feats nt) (lit "node_annotation") a.
Proof.
  unfold nt_annotation, has_feat, feats_get. change annotation_key with (lit "node_annotation").
  destruct (nt_feats nt) as [m|]; [|done]. destruct (m !! lit "node_annotation"); simpl; split; congruence.
Qed.
Lemma write_negra choose ts : forall c s c', PropsNegra2.written c ts s c' ->
  exists its, convert_all choose (only_out ONegra) None c (map Ok ts) = Ret (its, true) /\ file_of its = s /\ length its = length ts.
Proof.
  intros c s c' H. revert choose. induction H as [c|c t ts s c' s' c'' H _ IH]; intros choose.
  - by exists [].
  - destruct (IH (fun k => choose (S k))) as (its & H1 & H2 & H3). exists (Text s :: its). split_and!.
    + cbn [map convert_all]. rewrite convert_plain by (auto). cbn [mbind outcome_bind]. change (o_out (only_out ONegra)) with ONegra.
      unfold write_tree. rewrite H. cbn [mbind outcome_bind]. by rewrite H1.
    + simpl. by rewrite <- H2.
    + simpl. congruence.
Qed.
Theorem C59_negra choose1 choose2 f ts :
  Forall (fun t => WF t /\ writable t /\ is_projective t = true) ts -> (N.of_nat (length ts) < usize_bound)%N ->
  exists its texts,
    convert_all choose1 (only_out ONegra) None 0 (map Ok ts) = Ret (its, true) /\ length its = length ts /\
    Forall2 (fun t s => tree_to_string f t = Ret (Ok s)) ts texts /\
    tool_text choose2 INegra false (only_out (OBracket f)) None (map Some (text_lines (file_of its))) = Ret (map text_item texts, true).
Proof.
  intros HF HL. destruct (C40_stream ts 0) as (s & c' & ts' & Hw & Hr & HS).
  { eapply Forall_impl; [exact HF|]. naive_solver. }
  { done. }
  destruct (write_negra choose1 ts 0 s c' Hw) as (its & H1 & H2 & H3). exists its.
  assert (exists texts, Forall2 (fun t s => tree_to_string f t = Ret (Ok s)) ts texts /\ Forall2 (fun t s => tree_to_string f t = Ret (Ok s)) ts' texts) as (texts & T1 & T2).
  { clear - HF HS. revert HF. induction HS as [|t t' ts ts' (W' & r & r' & R & R' & HR) _ IH]; intros HF; [by exists []|].
    apply Forall_cons in HF as [(W & _ & P) HF]. destruct (IH HF) as (texts & T1 & T2).
    destruct (same_text f t t' r r' same_term same_nt eq) as (s & S1 & S2); try done.
    - intros a b e e' (-> & -> & _) ->. done.
    - intros a b e e' (Hl & _ & Ha) ->. assert (Hann : nt_annotation a = nt_annotation b).
      { apply annotation_of, Ha, annotation_of. done. }
      unfold fmt_inner. by rewrite Hl, Hann.
    - eapply (spans_projective t t' r r' same_term same_nt eq); try done. by intros a b (_ & H & _).
    - exists (s :: texts). split; by constructor. }
  exists texts. split_and!; try done. unfold tool_text, ConvModel.read_text. rewrite H2, Hr. cbn [mbind outcome_bind]. by apply write_texts.
Qed.
Definition ex_file : tree :=
  build (lit "the") (lit "D")
    [OAbove 0 (lit "NP"); OPush (lit "dog") (lit "N"); OAbove 1 (lit "VROOT"); OPush (lit "barks") (lit "V");
     OAbove 4 (lit "VP"); OEditEdge 0 (Some (lit "HD")); OEditNT 1 (lit "NP") (Some {[ lit "node_annotation" := Some (lit "subj") ]})].
Example C59_negra_ex : Forall (fun t => WF t /\ writable t /\ is_projective t = true) [ex_file; ex_file] /\
  tree_to_string TueBa ex_file = Ret (Ok (lit "(VROOT:--(NP=subj:--(D:HD the)(N:-- dog))(VP:--(V:-- barks)))")).
Proof.
  assert (H : WF ex_file /\ writable ex_file /\ is_projective ex_file = true).
  { split_and!; [apply build_WF|apply writableb_ok; by vm_compute|by vm_compute]. }
  split; [|by vm_compute]. apply Forall_cons. split; [exact H|]. apply Forall_singleton. exact H.
Qed.
Print Assumptions C59_negra.

(** ** Bracketed files *)
Lemma unblank_esc s : unblank s -> 10%N ∉ esc s.
Proof.
  intros H. induction H as [|c s Hc H IH]; [apply not_elem_of_nil|]. rewrite esc_cons, elem_of_app. intros [E|E]; [|done].
  destruct (decide (c = 40%N)); [vm_compute in E; set_solver|]. destruct (decide (c = 41%N)); [vm_compute in E; set_solver|]. apply elem_of_list_singleton in E as <-. apply Hc. set_solver.
Qed.
Lemma plain_nl no s : plain no s -> 10%N ∉ s.
Proof. intros H E. apply (proj1 (Forall_forall _ _) H) in E. apply E. set_solver. Qed.
Lemma join_nl sep l : 10%N ∉ sep -> Forall (fun s => 10%N ∉ s) l -> 10%N ∉ Base.join sep l.
Proof.
  intros Hs H. induction H as [|s l H1 H2 IH]; simpl; [apply not_elem_of_nil|]. destruct l as [|s' l]; [done|].
  rewrite !elem_of_app. naive_solver.
Qed.
Lemma rshow_nl f : forall r e, printable f e r -> 10%N ∉ rshow f e r.
Proof.
  assert (Hd : forall e, (forall s, e = Some s -> plain [] s) -> 10%N ∉ default (lit "--") e).
  { intros [s|] H; simpl; [by eapply plain_nl, H|]. vm_compute. set_solver. }
  induction r as [tm|nt cs IH] using rose_ind'; intros e H; inversion H as [? ? Ht|? ? ? Hn HF]; subst; cbn [rshow].
  - destruct Ht as (_ & H1 & H2 & H3). apply unblank_esc in H1, H2. unfold fmt_term. fold (esc (t_pos tm)) (esc (t_form tm)).
    destruct f; rewrite ?elem_of_app, !elem_of_list_singleton; try (naive_solver lia).
  - destruct Hn as [H1 H2]. rewrite !elem_of_app, !elem_of_list_singleton. intros [E|[E|E]]; [done| |done]. revert E.
    apply join_nl; [destruct f; vm_compute; set_solver|]. apply Forall_cons. split.
    + apply plain_nl in H1. unfold fmt_inner.
      assert (Ha : forall c, c <> 10%N -> (forall a, annotated nt a -> plain [] a) -> 10%N ∉ match nt_annotation nt with Some a => [c] ++ a | None => [] end).
      { intros c Hc Hx. destruct (nt_annotation nt) as [a|] eqn:Ea; [|apply not_elem_of_nil].
        rewrite elem_of_app, elem_of_list_singleton. intros [E|E]; [by subst|]. revert E. apply (plain_nl []), Hx. by apply annotated_spec. }
      destruct f.
      * rewrite elem_of_app. destruct H2 as [_ H2]. apply (Ha 45%N) in H2; [|done]. naive_solver.
      * done.
      * destruct H2 as [H2 H3]. apply (Ha 61%N) in H2; [|done]. apply Hd in H3. rewrite !elem_of_app, elem_of_list_singleton. naive_solver.
    + apply Forall_map. apply Forall_forall. intros c Hc. simpl.
      apply (proj1 (Forall_forall _ _) IH c Hc). by apply (proj1 (Forall_forall _ _) HF c Hc).
Qed.
Lemma rshow_ends f r e : exists s, rshow f e r = 40%N :: s ++ [41%N].
Proof.
  destruct r as [tm|nt cs]; cbn [rshow].
  - unfold fmt_term. fold (esc (t_pos tm)) (esc (t_form tm)). destruct f.
    1,2: exists (esc (t_pos tm) ++ [32%N] ++ esc (t_form tm)); by rewrite <- !(assoc_L (++)).
    exists (esc (t_pos tm) ++ [58%N] ++ default (lit "--") e ++ [32%N] ++ esc (t_form tm)). by rewrite <- !(assoc_L (++)).
  - by eexists.
Qed.

(** A line of written text is no comment and survives the splitting into lines. *)
Definition bracket_line (s : str) : Prop := 10%N ∉ s /\ (forall u, s <> u ++ [13%N]) /\ ~ comment s.
Lemma rshow_line f r e : printable f e r -> bracket_line (rshow f e r).
Proof.
  intros H. split; [by apply rshow_nl|]. destruct (rshow_ends f r e) as [s Hs]. rewrite Hs. split.
  - intros u E. change (40%N :: s ++ [41%N]) with ((40%N :: s) ++ [41%N]) in E. apply app_inj_tail in E as [_ E]. done.
  - intros [u E]. done.
Qed.
Lemma single_lines (parse : str -> result tree -> Prop) ss rs :
  Forall bracket_line ss -> single_results parse Err (map Some ss) rs -> Forall2 parse ss rs.
Proof.
  intros H. revert rs. induction H as [|s ss (_ & _ & Hs) H IH]; intros rs HR; inversion HR; subst; [constructor|done|].
  constructor; [done|by apply IH].
Qed.
Lemma file_of_texts texts : file_of (map text_item texts) = unlines texts.
Proof. unfold file_of, unlines. by rewrite map_map. Qed.

(** A treebank written in format [f], one tree per line, and read again in that format: in the
    TueBa format nothing is lost that any of the formats shows; in the other formats nothing is lost
    that the simple format shows. *)
Theorem C59_brackets choose1 choose2 f g ts :
  Forall (fun t => WF t /\ is_projective t = true /\ exists r, Reads t r /\ PtbSpec.fits f None r) ts -> f = TueBa \/ g = Simple ->
  exists its texts,
    convert_all choose1 (only_out (OBracket f)) None 0 (map Ok ts) = Ret (its, true) /\
    Forall2 (fun t s => tree_to_string g t = Ret (Ok s)) ts texts /\
    tool_text choose2 (IBracket f) false (only_out (OBracket g)) None (map Some (text_lines (file_of its))) = Ret (map text_item texts, true).
Proof.
  intros HF Hfg.
  assert (exists fs texts ts', Forall2 (fun t s => tree_to_string f t = Ret (Ok s)) ts fs /\ Forall bracket_line fs /\
     Forall2 (fun s t => string_to_tree f s = Ret (Ok t)) fs ts' /\
     Forall2 (fun t s => tree_to_string g t = Ret (Ok s)) ts texts /\ Forall2 (fun t s => tree_to_string g t = Ret (Ok s)) ts' texts)
    as (fs & texts & ts' & H1 & H2 & H3 & H4 & H5).
  { induction HF as [|t ts (W & P & r & R & F) HF IH]; [by exists [], [], []|].
    destruct IH as (fs & texts & ts' & H1 & H2 & H3 & H4 & H5).
    destruct (ptb_round f t r W P R F) as (s & t' & r' & S1 & S2 & W' & P' & R' & HR).
    destruct (same_text g t t' r r' term_kept (nt_kept f) (edge_kept f)) as (s' & S3 & S4); try done.
    - intros a b e e' (-> & -> & _) HE. destruct Hfg as [-> | ->]; [|done]. by rewrite HE.
    - intros a b e e' (Hl & _ & Ha) HE. destruct Hfg as [-> | ->]; [|unfold fmt_inner; done].
      rewrite HE. unfold fmt_inner. assert (nt_annotation a = nt_annotation b) as ->; [|by rewrite Hl].
      apply option_eq. intros x. by rewrite <- !annotated_spec.
    - destruct f; done.
    - exists (s :: fs), (s' :: texts), (t' :: ts'). split_and!; constructor; try done.
      rewrite (tree_to_string_spec f t r W R), P in S1. injection S1 as <-. apply rshow_line. by apply fits_printable. }
  exists (map text_item fs), texts. split_and!; [by apply write_texts|done|].
  unfold tool_text, ConvModel.read_text. rewrite file_of_texts, text_lines_unlines.
  2: { intros l Hl. apply (proj1 (Forall_forall _ _) H2) in Hl as (A & B & _). done. }
  destruct (C37_single f (map Some fs)) as (rs & -> & HR). apply single_lines in HR; [|done].
  assert (rs = map Ok ts') as ->.
  { clear - H3 HR. revert rs HR. induction H3 as [|s t fs ts' H _ IH]; intros rs HR; inversion HR as [|? r ? rs' HX HY]; subst; [done|].
    simpl. f_equal; [congruence|by apply IH]. }
  cbn [mbind outcome_bind]. by apply write_texts.
Qed.
Example C59_brackets_ex f :
  Forall (fun t => WF t /\ is_projective t = true /\ exists r, Reads t r /\ PtbSpec.fits f None r) [ex_tueba; ex_tueba].
Proof.
  assert (H : WF ex_tueba /\ is_projective ex_tueba = true /\ exists r, Reads ex_tueba r /\ PtbSpec.fits f None r).
  { split_and!; [apply ex_tueba_WF|apply (ex_fits f)|]. exists (rose_of ex_tueba). split; [apply rose_of_ok, ex_tueba_WF|apply ex_fits]. }
  apply Forall_cons. split; [exact H|]. apply Forall_singleton. exact H.
Qed.
Print Assumptions C59_brackets.
(** Through the PTB format annotations change: they gain a hyphen. *)
Theorem C59_ptb_refuted : exists choose t its texts, WF t /\ is_projective t = true /\ (exists r, Reads t r /\ PtbSpec.fits PTB None r) /\
  convert_all choose (only_out (OBracket PTB)) None 0 [Ok t] = Ret (its, true) /\
  tool_text choose (IBracket PTB) false (only_out (OBracket PTB)) None (map Some (text_lines (file_of its))) = Ret (texts, true) /\
  its = [text_item (lit "(S (NP-subj (D the) (N dog)) (VP (V barks)))")] /\ texts = [text_item (lit "(S (NP--subj (D the) (N dog)) (VP (V barks)))")].
Proof.
  exists (fun _ _ _ => 0), ex_tueba, [text_item (lit "(S (NP-subj (D the) (N dog)) (VP (V barks)))")], [text_item (lit "(S (NP--subj (D the) (N dog)) (VP (V barks)))")].
  split_and!; [apply ex_tueba_WF|apply (ex_fits PTB)| |by vm_compute|by vm_compute|done|done].
  exists (rose_of ex_tueba). split; [apply rose_of_ok, ex_tueba_WF|apply ex_fits].
Qed.
Print Assumptions C59_ptb_refuted.
