(** C61: the conversion tool from its input text to its output. *)
From Coq Require Import Lia ZArith.
From Verif Require Import ModModel EncModel Api ConvModel TreeSpec RoseSpec RoseProofs BaseProofs GraphProofs NavProofs Ordered EncTree2 AnnotProofs PropsMod2 PropsMod3 PtbSpec PtbBuild PtbRound ShapeProofs NegraStep
  PropsTree PropsMod PropsPtb PropsNegra ConllProofs ConvSpec ConvProofs ConvPipe PropsTag PropsConv SecProofs PropsSec PropsTotal.
Local Arguments lit : simpl never.

(** ** Secondary edges of the trees that readers deliver *)
(** [only g]: a graph without secondary edges. *)
Definition only (g : graph) : Prop := graph_ok g /\ forall r, sec r -> r ∉ g_edges g.
Lemma only_grow g g' : only g -> grow g g' -> only g'.
Proof. intros [G H] [G' _ H']. split; [done|]. intros r S Hr. by apply (H r S), (H' r S). Qed.
Lemma only_shrink g g' : only g -> shrink g g' -> only g'.
Proof. intros [G H] [G' _ H']. split; [done|]. intros r S Hr. by apply (H' r S) in Hr as [Hr%H _]. Qed.
Lemma only_empty : only graph_empty.
Proof. split; [apply graph_empty_ok|]. intros r _. apply not_elem_of_nil. Qed.
Lemma only_sec_inner t : only (tr_graph t) -> sec_inner t.
Proof. intros [_ H] r [Hr S]. by apply H in Hr. Qed.

Lemma parse_grow f a : forall g k g' k' sp n e, graph_ok g -> parse_value f a g k = Ret (g', k', (sp, n, e)) ->
  grow g g' /\ is_primary e = true /\ live g' n.
Proof.
  induction a as [label form|label cs IH] using ast_ind'; intros g k g' k' sp n e G.
  - cbn [parse_value]. destruct (process_label f label) as [[tag edge] ann]. destruct (add_node g _) as [g1 m] eqn:Ea.
    intros [= <- <- <- <- <-]. apply add_node_grow in Ea as [H1 H2]; done.
  - cbn [parse_value]. destruct (process_label f label) as [[lab edge] ann].
    destruct (add_node g _) as [g1 m] eqn:Ea. apply add_node_grow in Ea as [H1 L1]; [|done].
    intros ([[[g2 k2] lower] upper] & Hgo & H)%bind_inv.
    assert (H2 : grow g1 g2).
    { clear H. assert (HG : graph_ok g1) by apply H1. clear H1 L1 G g. revert HG Hgo. generalize 0 at 2. generalize 0. generalize g1 k. generalize true.
      induction cs as [|c cs IHcs]; intros first g3 k3 lo up HG; [intros [= <- <- <- <-]; by apply grow_refl|].
      apply Forall_cons in IH as [IHc IH]. intros ([[g4 k4] [[sp' child] edge']] & H1 & H2)%bind_inv.
      destruct (IHc _ _ _ _ _ _ _ HG H1) as (A1 & A2 & _). apply bind_inv in H2 as ([g5 e'] & H2 & H3).
      apply add_edge_flat in H2 as [A3 _]; [|apply A1|done]. eapply grow_trans; [exact A1|]. eapply grow_trans; [apply flat_grow, A3|].
      eapply IHcs; [done|apply A3|exact H3]. }
    apply bind_inv in H as (sp' & _ & H). apply bind_inv in H as (w & Hw & H). apply bind_inv in H as (nt' & _ & H).
    injection H as <- <- <- <- <-.
    assert (L2 : live g2 m) by (by apply H2). pose proof (set_node_flat g2 m (NT (nt_set_span nt' sp')) (gr_ok _ _ H2) L2) as F.
    split; [eapply grow_trans; [exact H1|]; eapply grow_trans; [exact H2|by apply flat_grow]|]. split; [done|]. by apply (fl_dom _ _ F).
Qed.
Lemma string_only f s t : string_to_tree f s = Ret (Ok t) -> only (tr_graph t).
Proof.
  unfold string_to_tree. intros ([a|] & _ & H)%bind_inv; [|done]. apply bind_inv in H as ([[g k] [[sp n] e]] & H1 & H2).
  injection H2 as <-. apply parse_grow in H1 as [H1 _]; [|apply graph_empty_ok]. by eapply only_grow; [apply only_empty|].
Qed.
Lemma descend_common_grow k : forall g cur i p idx g' cur', graph_ok g -> descend_common g cur i k p idx = Ret (g', cur') -> grow g g'.
Proof.
  induction k as [|k IH]; intros g cur i p idx g' cur' G; cbn [descend_common]; [intros [= <- <-]; by apply grow_refl|].
  destruct (if Nat.ltb p i then None else _) as [c|]; [by apply IH|].
  destruct (add_node g _) as [g1 m] eqn:Ea. apply add_node_grow in Ea as [H0 _]; [|done]. intros ([g2 e] & H1 & H2)%bind_inv.
  apply add_edge_flat in H1 as [H1 _]; [|apply H0|done]. eapply grow_trans; [exact H0|]. eapply grow_trans; [apply flat_grow, H1|].
  eapply IH; [apply H1|done].
Qed.
Lemma decode_loop_only nt : forall l idx g root prev pn g' r, only g -> decode_loop nt l idx g root prev pn = Ret (g', r) -> only g'.
Proof.
  induction l as [|[[a u] tm] l IH]; intros idx g root prev pn g' r HO; cbn [decode_loop]; [by intros [= <- <-]|].
  destruct (add_node g _) as [g1 term] eqn:Ea. apply add_node_grow in Ea as [H1 _]; [|apply HO]. apply (only_grow _ _ HO) in H1. clear HO.
  destruct a as [a|].
  - intros ([g2 cur] & E1 & H)%bind_inv. apply bind_inv in H as (wc & E2 & H). apply bind_inv in H as (tgt & E3 & H).
    apply bind_inv in H as ([g3 e] & E4 & H). apply bind_inv in H as (pn' & E5 & H).
    apply descend_common_grow in E1; [|apply H1]. apply (only_grow _ _ H1) in E1.
    assert (L : live g2 cur) by (unfold live; destruct (g_nodes g2 !! cur); [eauto|done]).
    pose proof (set_node_flat g2 cur (relabel wc (ab_label a)) (proj1 E1) L) as F. apply flat_grow in F. apply (only_grow _ _ E1) in F.
    apply add_edge_flat in E4 as [E4 _]; [|apply F|done]. apply flat_grow in E4. apply (only_grow _ _ F) in E4. exact (IH _ _ _ _ _ _ _ E4 H).
  - destruct (Nat.eqb nt 1).
    + destruct (remove_node_g g1 root) as [g2 o] eqn:Er. intros [= <- <-]. apply remove_node_shrink in Er; [|apply H1]. by eapply only_shrink.
    + intros ([g2 e] & E4 & H)%bind_inv. apply add_edge_flat in E4 as [E4 _]; [|apply H1|done]. apply flat_grow in E4.
      apply (only_grow _ _ H1) in E4. exact (IH _ _ _ _ _ _ _ E4 H).
Qed.
Lemma decode_only e terms t : EncModel.decode e terms = Ret t -> only (tr_graph t).
Proof.
  unfold EncModel.decode. destruct (add_node graph_empty _) as [g r] eqn:Ea. intros ([g' r'] & H1 & H2)%bind_inv.
  apply add_node_grow in Ea as [Ea _]; [|apply graph_empty_ok]. apply (only_grow _ _ only_empty) in Ea.
  apply decode_loop_only in H1; [|done]. apply reset_flat in H2; [|apply H1]. apply flat_grow in H2. by eapply only_grow.
Qed.
Lemma decode_restore_only e terms t : decode_restore e terms = Ret (Ok t) -> only (tr_graph t).
Proof.
  unfold decode_restore. intros (t1 & H1 & H)%bind_inv. apply decode_only in H1. apply bind_inv in H as ([t2 r] & H2 & H).
  destruct r; [|done]. injection H as <-. apply restore_grow in H2; [|apply H1]. by eapply only_grow.
Qed.
Lemma from_conllx_only l t : from_conllx_absolute l = Ret (Ok t) \/ from_conllx_relative l = Ret (Ok t) -> only (tr_graph t).
Proof.
  unfold from_conllx_absolute, from_conllx_relative. intros [H|H].
  - destruct (read_tokens _ _ _ _) as [[e terms]|]; [|done]. by eapply decode_restore_only.
  - destruct (read_tokens _ _ _ _) as [[e terms]|]; [|done]. apply bind_inv in H as (r & _ & H). apply bind_inv in H as (e' & _ & H).
    by eapply decode_restore_only.
Qed.
Lemma mapO_in {A B} (g : A -> outcome B) ss : forall rs y, mapO g ss = Ret rs -> y ∈ rs -> exists l, l ∈ ss /\ g l = Ret y.
Proof.
  induction ss as [|s ss IH]; intros rs y H Ht; simpl in H; [simplify_eq; by apply elem_of_nil in Ht|].
  destruct (g s) as [r| |] eqn:E; try done. simpl in H. destruct (mapO g ss) as [rs'| |]; try done. simpl in H. simplify_eq.
  apply elem_of_cons in Ht as [<-|Ht]; [exists s; split; [by left|done]|]. destruct (IH _ _ eq_refl Ht) as (l & ? & ?). exists l. split; [by right|done].
Qed.
Lemma single_in {R} (parse : str -> R -> Prop) err ls rs y : single_results parse err ls rs -> y ∈ rs ->
  y = err \/ exists l, Some l ∈ ls /\ parse l y.
Proof.
  induction 1 as [|l ls rs _ _ IH|l ls r rs _ Hp _ IH|ls rs _ IH]; intros Hy.
  - by apply elem_of_nil in Hy.
  - destruct (IH Hy) as [?|(l' & ? & ?)]; [by left|right]. exists l'. split; [by right|done].
  - apply elem_of_cons in Hy as [->|Hy]; [right; exists l; split; [by left|done]|].
    destruct (IH Hy) as [?|(l' & ? & ?)]; [by left|right]. exists l'. split; [by right|done].
  - apply elem_of_cons in Hy as [->|Hy]; [by left|]. destruct (IH Hy) as [?|(l' & ? & ?)]; [by left|right]. exists l'. split; [by right|done].
Qed.
Lemma multi_in {R} (parse : str -> R -> Prop) err ls rs y : multi_results parse err ls rs -> y ∈ rs ->
  y = err \/ exists l, parse l y.
Proof.
  induction 1 as [|l ls rs _ _ IH|g ls r rs _ Hp _ IH|ls rs _ IH|g ls rs _ _ IH|g _]; intros Hy; try (by apply elem_of_nil in Hy); auto;
    apply elem_of_cons in Hy as [->|Hy]; eauto.
Qed.
Lemma ptb_only f m ls rs t : ptb_read f m ls = Ret rs -> Ok t ∈ rs -> exists s, string_to_tree f s = Ret (Ok t).
Proof.
  intros H Ht. destruct m.
  - destruct (C37_single f ls) as (rs' & H' & HS). rewrite H in H'. injection H' as <-.
    destruct (single_in _ _ _ _ _ HS Ht) as [?|(l & _ & ?)]; [done|eauto].
  - apply (proj2 (C37_multi_partial f ls)) in H. by destruct (multi_in _ _ _ _ _ H Ht).
Qed.
(** C61: the secondary edges of a tree that a reader delivers start at nonterminals; only the NEGRA
    reader delivers any. *)
Theorem C61_readers :
  (forall f m ls rs t, read_text f m ls = Ret rs -> Ok t ∈ rs -> sec_inner t /\ (f <> INegra -> forall r, ~ sec_edge t r)) /\
  (forall f ss rs t, read_sentences f ss = Ret rs -> Ok t ∈ rs -> forall r, ~ sec_edge t r).
Proof.
  assert (HO : forall t, only (tr_graph t) -> forall r, ~ sec_edge t r) by (intros t [_ H] r [Hr S]; by apply (H r S)).
  split.
  - intros [| | |f] m ls rs t H Ht; simpl in H; [simplify_eq; by apply elem_of_nil in Ht..| |].
    + split; [|done]. intros r [Hr S]. by apply (C41_read_guard ls rs t H Ht).
    + destruct (ptb_only _ _ _ _ _ H Ht) as [s Hs]. apply string_only in Hs. split; [by apply only_sec_inner|intros _; by apply HO].
  - intros [| | |f] ss rs t H Ht; simpl in H; [| |simplify_eq; by apply elem_of_nil in Ht..];
      destruct (mapO_in _ _ _ _ H Ht) as (l & _ & Hl); apply HO, (from_conllx_only l); auto.
Qed.
Print Assumptions C61_readers.

(** ** Bracketed text *)
(** The texts of the trees of a file, in order: every line, or every balanced group of lines; [None]
    where a line cannot be read. *)
Definition texts (multiline : bool) (ls gs : list (option str)) : Prop :=
  (if multiline then multi_results (fun s g => g = Some s) None ls gs
   else single_results (fun s g => g = Some s) None ls gs).
Lemma texts_single ls : exists gs, texts false ls gs.
Proof.
  unfold texts. induction ls as [|[l|] ls [gs IH]]; [exists []; constructor| |exists (None :: gs); by constructor].
  assert (comment l \/ ~ comment l) as [HC|HC].
  { destruct l as [|x l]; [right; by intros [s ?]|]. destruct (decide (x = 37%N)) as [->|]; [left; by exists l|right; by intros [s [= ? ?]]]. }
  - exists gs. by constructor.
  - exists (Some l :: gs). by constructor.
Qed.
Definition result_of (f : ptb_format) (g : option str) (r : result tree) : Prop :=
  match g with Some s => string_to_tree f s = Ret r | None => r = Err end.
Lemma texts_read f m ls gs : texts m ls gs ->
  exists rs, read_text (IBracket f) m ls = Ret rs /\ Forall2 (result_of f) gs rs.
Proof.
  assert (HS : forall s, exists r, string_to_tree f s = Ret r) by (intros s; destruct (C31_language f s) as (r & ? & _); eauto).
  unfold texts. simpl. destruct m; intros H.
  - assert (exists rs, multi_results (fun s r => string_to_tree f s = Ret r) Err ls rs /\ Forall2 (result_of f) gs rs) as (rs & H1 & H2).
    { induction H as [|l ls rs HC _ IH|g ls r rs HG -> _ IH|ls rs _ IH|g ls rs HG _ IH|g HG].
      - exists []. split; constructor.
      - destruct IH as (rs' & ? & ?). exists rs'. split; [by constructor|done].
      - destruct IH as (rs' & ? & ?). destruct (HS (concat g)) as [r Hr]. exists (r :: rs'). split; [by constructor|by constructor].
      - destruct IH as (rs' & ? & ?). exists (Err :: rs'). split; [by constructor|by constructor].
      - destruct IH as (rs' & ? & ?). exists (Err :: rs'). split; [by constructor|by constructor].
      - exists []. split; [by constructor|constructor]. }
    exists rs. split; [|done]. by apply C37_multi_partial.
  - destruct (C37_single f ls) as (rs & H1 & H2). exists rs. split; [done|]. clear H1. revert rs H2.
    induction H as [|l ls gs HC _ IH|l ls r gs HC -> _ IH|ls gs _ IH]; intros rs' H2; inversion H2; subst; try done; try (by apply IH); constructor; try done; by apply IH.
Qed.

(** *** Sizes *)
Fixpoint asize (a : ast) : nat :=
  match a with APre _ _ => 1 | ANode _ cs => S (sum_list_with asize cs) end.
Lemma G_asize : forall a s, G a s -> 2 * asize a <= length s.
Proof.
  apply (G_mut (fun a s => 2 * asize a <= length s) (fun cs s => 2 * sum_list_with asize cs <= length s)).
  - intros. simpl. rewrite !app_length. simpl. lia.
  - intros. simpl. rewrite !app_length. simpl. lia.
  - intros. simpl. lia.
  - intros. simpl. rewrite !app_length. lia.
Qed.
Lemma rnodes_asize f : forall a e r, ast_rose f a e r -> length (rnodes r) = asize a.
Proof.
  induction a as [label form|label cs IH] using ast_ind'; intros e r H; inversion H as [|? ? ? ? ? ? ds ? ? ? HF]; subst; [done|].
  simpl. f_equal. clear H. induction HF as [|c d cs ds Hc HF IHF]; [done|]. apply Forall_cons in IH as [IHc IH].
  simpl. rewrite app_length, (IHc _ _ Hc). f_equal. by apply IHF.
Qed.
Lemma asize_words : forall a, length (words a) <= asize a.
Proof.
  induction a as [label form|label cs IH] using ast_ind'; simpl; [lia|]. apply le_S. induction IH as [|c cs Hc _ IH]; simpl; [lia|].
  rewrite app_length. lia.
Qed.
Lemma Den_ids N es n r : Den N es n r -> exists l : list nat, length l = length (rnodes r) /\
  forall m, (forall a tm c, N !! a = Some (T tm) -> ~ PE es a c) -> Dom es n m -> m ∈ l.
Proof.
  revert n r. apply (Den_ind' N es (fun n r => exists l : list nat, length l = length (rnodes r) /\
    forall m, (forall a tm c, N !! a = Some (T tm) -> ~ PE es a c) -> Dom es n m -> m ∈ l)).
  - intros n tm Hn. exists [n]. split; [done|]. intros m H HD. apply rtc_inv in HD as [<-|(c & Hc & _)]; [by left|]. by apply (H n tm c) in Hc.
  - intros n nt es0 cs Hn Hl _ HF. assert (exists l : list nat, length l = length (concat (map (fun c => rnodes c.2) cs)) /\
      forall r m, r ∈ es0 -> (forall a tm c, N !! a = Some (T tm) -> ~ PE es a c) -> Dom es (e_tgt r) m -> m ∈ l) as (l & HL & HI).
    { clear Hl. induction HF as [|r c es0 cs (_ & _ & l1 & HL1 & HI1) HF (l2 & HL2 & HI2)].
      - exists []. split; [done|]. intros r m Hr. by apply elem_of_nil in Hr.
      - exists (l1 ++ l2). split; [simpl; rewrite !app_length; congruence|]. intros r' m Hr HT HD. apply elem_of_app.
        apply elem_of_cons in Hr as [->|Hr]; [left; apply HI1; eauto|right; by eapply HI2]. }
    exists (n :: l). split; [simpl; congruence|]. intros m HT HD. apply rtc_inv in HD as [<-|(c & Hc & HD)]; [by left|]. right.
    destruct Hc as (r & Hr & Pr & Hs & <-). by apply (HI r); [apply Hl|..].
Qed.
Lemma Reads_size t r : WF t -> Reads t r -> size (nodes t) <= length (rnodes r).
Proof.
  intros W D. destruct (Den_ids _ _ _ _ D) as (l & <- & HI). rewrite <- size_dom.
  assert (HS : dom (nodes t) ⊆ (list_to_set l : gset nat)).
  { intros n Hn%elem_of_dom. apply elem_of_list_to_set, HI; [apply (sh_leaf _ _ _ (wf_shape _ W))|]. by apply (sh_reach _ _ _ (wf_shape _ W)). }
  apply subseteq_size in HS. etransitivity; [exact HS|]. clear. induction l as [|n l IH]; [done|].
  simpl. rewrite size_union_alt, size_singleton. apply le_n_S. etransitivity; [|exact IH]. apply subseteq_size. set_solver.
Qed.

(** Labels of inner nodes. *)
Inductive inner_label (f : ptb_format) : ast -> str -> Prop :=
| il_here label cs lab e ann : label_of f label lab e ann -> inner_label f (ANode label cs) lab
| il_below label cs c lab : c ∈ cs -> inner_label f c lab -> inner_label f (ANode label cs) lab.
Lemma inner_rose f : forall a e r lab, ast_rose f a e r -> inner_label f a lab -> exists nt, NT nt ∈ rnodes r /\ nt_label nt = lab.
Proof.
  induction a as [label form|label cs IH] using ast_ind'; intros e r lab H HI; [by inversion HI|].
  inversion H as [|label0 cs0 lab0 e0 ann nt ds HL HN _ HF]; subst. inversion HI as [? ? ? ? ? HL'|? ? c ? Hc HI']; subst.
  - destruct (label_of_fun _ _ _ _ _ _ _ _ HL HL') as [? _]. exists nt. split; [by left|done].
  - apply elem_of_list_lookup in Hc as [i Hc]. destruct (Forall2_lookup_l _ _ _ _ _ HF Hc) as (d & Hd & HD).
    rewrite Forall_lookup in IH. destruct (IH i c Hc _ _ _ HD HI') as (nt' & Hnt & <-). exists nt'. split; [|done]. simpl. right.
    apply elem_of_list_In, in_concat. exists (rnodes d.2). split; [|by apply elem_of_list_In].
    apply in_map_iff. exists d. split; [done|]. apply elem_of_list_In. by eapply elem_of_list_lookup_2.
Qed.
(** What is asked of the text of a tree: with [--reattach] two words, for NEGRA output two words or an
    inner node that is not removed.  The length is below 2^63 in every execution: no allocation is
    larger. *)
Definition text_ok (f : ptb_format) (o : options) (s : str) : Prop :=
  forall a, bracketed a s ->
    (o_reattach o <> None -> 2 <= length (words a)) /\
    (o_out o = ONegra -> 2 <= length (words a) \/ exists lab, inner_label f a lab /\ ~ (o_dummies o = true /\ lab = lit "DUMMY")) /\
    (o_out o = ORelative -> (Z.of_nat (length s) < 2 ^ 63)%Z).
Lemma bracketed_size a s : bracketed a s -> asize a + length (words a) <= length s.
Proof.
  intros (b1 & s0 & b2 & -> & _ & _ & H%G_asize). pose proof (asize_words a). rewrite !app_length. lia.
Qed.
Lemma text_convertible f o s t : text_ok f o s -> string_to_tree f s = Ret (Ok t) ->
  convertible o t /\ (o_out o = ONegra -> ~ bare_after o t /\ sec_inner t).
Proof.
  intros HT H. destruct (C32_parsed f s t H) as (a & e & r & HB & W & HR & HA & HWd & HI & _).
  destruct (HT a HB) as (H1 & H2 & H3). assert (HN : tr_nterm t = length (words a)).
  { rewrite <- HWd, map_length. apply (f_equal length) in HI. by rewrite map_length, seq_length in HI. }
  split; [split; [done|]; split; [by eapply string_to_tree_ordered|]; split; [by rewrite HN|]|].
  - intros E. specialize (H3 E). apply bracketed_size in HB. pose proof (Reads_size t r W HR) as HS. rewrite (rnodes_asize _ _ _ _ HA) in HS.
    change (Z.of_N isize_bound) with (2 ^ 63)%Z. lia.
  - intros E. split; [|by eapply only_sec_inner, string_only]. intros [HN1 HB1]. destruct (H2 E) as [?|(lab & Hl & HD)]; [lia|].
    destruct (inner_rose f a e r lab HA Hl) as (nt & Hnt & <-). apply (Reads_rnodes t r _ W HR) in Hnt as [n Hn]. by apply HD, (HB1 n).
Qed.

(** C61: for every bracketed file in every format and mode, with every choice of options, the tool
    writes a result or stops with an error, and does not panic or hang.  Item [i] belongs to text [i],
    which is a bracketed tree; sentences that are written have its words in order. *)
Theorem C61_brackets_partial choose f m o pos ls gs :
  (forall i, picks (choose i)) -> texts m ls gs -> (forall s, Some s ∈ gs -> text_ok f o s) ->
  exists its ok, tool_text choose (IBracket f) m o pos ls = Ret (its, ok) /\
    (ok = true <-> length its = length gs) /\ length its <= length gs /\
    forall i it, its !! i = Some it -> exists s a, gs !! i = Some (Some s) /\ bracketed a s /\
      (o_out o = OConllx \/ tags_out o -> exists ks, it = Sentence ks /\ map k_form ks = words a).
Proof.
  intros HC HT HO. destruct (texts_read f m ls gs HT) as (rs & HR & HF). unfold tool_text. rewrite HR. simpl.
  assert (HV : forall t, Ok t ∈ rs -> convertible o t /\ (o_out o = ONegra -> ~ bare_after o t /\ sec_inner t)).
  { intros t [i Ht]%elem_of_list_lookup. destruct (Forall2_lookup_r _ _ _ _ _ HF Ht) as ([s|] & Hs & H); [|done].
    apply (text_convertible f o s); [apply HO; by eapply elem_of_list_lookup_2|done]. }
  destruct (C57_total_partial rs choose o pos 0 HC HV) as (its & ok & Hits). exists its, ok. split; [done|].
  destruct (C57_stream rs _ _ _ _ _ _ Hits) as (H1 & H2 & H3 & _). rewrite (Forall2_length _ _ _ HF). split; [done|]. split; [done|].
  intros i it Hi. destruct (H3 i it Hi) as (t & t' & pos' & ci & ci' & Ht & Hc & Hw).
  destruct (Forall2_lookup_r _ _ _ _ _ HF Ht) as ([s|] & Hs & H); [|done]. simpl in H.
  destruct (C32_parsed f s t H) as (a & e & r & HB & W & HD & HA & HWd & HI & _). exists s, a. split; [done|]. split; [done|].
  intros HS. destruct (HV t) as [HV1 _]; [by eapply elem_of_list_lookup_2|].
  destruct (C55_sentence _ _ _ _ _ _ ci (HC i) HV1 Hc HS) as (ks & Hk & HL & Hks). rewrite Hw in Hk. injection Hk as -> ->.
  exists ks. split; [done|]. rewrite <- HWd. apply list_eq_same_length with (length ks).
  - by rewrite !map_length, HL, <- (seq_length (tr_nterm t) 0), <- HI, map_length.
  - by rewrite map_length.
  - intros j x y Hj Hx Hy. change (map k_form ks) with (k_form <$> ks) in Hx. change (map t_form (leaves r)) with (t_form <$> leaves r) in Hy. apply list_lookup_fmap_inv in Hx as (k & -> & Hk). apply list_lookup_fmap_inv in Hy as (tm & -> & Htm).
    assert (HIj : map t_idx (leaves r) !! j = Some (t_idx tm)) by (by rewrite list_lookup_fmap, Htm).
    rewrite HI in HIj. apply lookup_seq in HIj as [HIj Hlt]. simpl in HIj.
    apply elem_of_list_lookup_2, leaves_rnodes, (Reads_rnodes t r _ W HD) in Htm as [n Hn].
    destruct (term_pos_of _ _ _ _ (wf_terms _ W) Hn) as (_ & _ & Hp).
    rewrite HIj in Hp. destruct (Hks n tm j Hn Hp) as (k' & Hk' & HF' & _). rewrite Hk in Hk'. by injection Hk' as <-.
Qed.
Print Assumptions C61_brackets_partial.

(** *** Bracketed output *)
(** Without [--insert] and [--pos] no label is new. *)
Definition labels_kept (t t' : tree) : Prop :=
  (forall n nt', nodes t' !! n = Some (NT nt') ->
     exists nt, nodes t !! n = Some (NT nt) /\ nt_label nt' = nt_label nt /\ nt_feats nt' = nt_feats nt) /\
  (forall n tm', nodes t' !! n = Some (T tm') ->
     exists tm, nodes t !! n = Some (T tm) /\ t_form tm' = t_form tm /\ t_pos tm' = t_pos tm).
Lemma lk_refl t : labels_kept t t.
Proof. split; eauto. Qed.
Lemma lk_trans a b c : labels_kept a b -> labels_kept b c -> labels_kept a c.
Proof.
  intros [A1 A2] [B1 B2]. split.
  - intros n nt (x & Hx & E1 & E2)%B1. apply A1 in Hx as (y & Hy & E3 & E4). exists y. split; [done|]. split; congruence.
  - intros n tm (x & Hx & E1 & E2)%B2. apply A2 in Hx as (y & Hy & E3 & E4). exists y. split; [done|]. split; congruence.
Qed.
Lemma lk_sub t t' : (forall n w, nodes t' !! n = Some w -> nodes t !! n = Some w) -> labels_kept t t'.
Proof. intros H. split; [intros n nt Hn%H|intros n tm Hn%H]; eauto. Qed.
Lemma lk_nts t t' : (forall n nt, nodes t' !! n = Some (NT nt) <-> nodes t !! n = Some (NT nt)) ->
  (forall n, nodes t' !! n = None <-> nodes t !! n = None) ->
  (forall n tm tm', nodes t !! n = Some (T tm) -> nodes t' !! n = Some (T tm') -> t_form tm' = t_form tm /\ t_pos tm' = t_pos tm) ->
  labels_kept t t'.
Proof.
  intros H1 H2 H3. split; [intros n nt Hn%H1; eauto|]. intros n tm' Hn. destruct (nodes t !! n) as [[nt|tm]|] eqn:E.
  - apply H1 in E. congruence.
  - exists tm. split; [done|]. by eapply H3.
  - apply H2 in E. congruence.
Qed.
Lemma lk_proj o t t' : spec_proj o t t' -> labels_kept t t'.
Proof.
  unfold spec_proj. destruct (o_proj o); [|intros ->; apply lk_refl]. intros [[_ ->]|(_ & v & u & _ & HP & HS)]; [apply lk_refl|].
  assert (labels_kept t u).
  { destruct HP as (_ & _ & _ & _ & (H1 & H2 & H3) & _). split; [|intros n tm Hn%H1; eauto].
    intros n nt' Hn. destruct (nodes t !! n) as [[nt|tm]|] eqn:E.
    - destruct (H2 n nt E) as [s Hs]. rewrite Hs in Hn. injection Hn as <-. eauto.
    - apply H1 in E. congruence.
    - apply H3 in E. congruence. }
  destruct (o_sec o); [|by subst]. destruct HS as (HS & _). eapply lk_trans; [done|]. apply lk_sub. intros n w. by rewrite (ps_nodes _ _ HS).
Qed.
Lemma lk_edited o t t' : WF t -> (o_parent o <> None -> ~ bare t') -> o_insert o = None -> edited o None t t' -> labels_kept t t'.
Proof.
  intros W HB EI (t1 & t2 & t3 & t4 & t5 & t6 & t7 & H1 & H2 & H3 & H4 & H5 & H6 & H7 & H8).
  assert (L1 : labels_kept t t1).
  { destruct (o_dummies o); [|subst; apply lk_refl]. destruct H1 as (_ & _ & H1 & _). apply lk_sub. intros n w Hn. by apply H1. }
  assert (W1 : WF t1) by (destruct (o_dummies o); [apply H1|by subst]).
  assert (L2 : labels_kept t1 t2) by (by eapply lk_proj). simpl in H3. subst t3.
  assert (W2 : WF t2).
  { unfold spec_proj in H2. destruct (o_proj o); [|by subst]. destruct H2 as [[_ ->]|(_ & v & u & _ & HP & HS)]; [done|].
    destruct (o_sec o); [by apply HS|]. subst. apply HP. }
  assert (labels_kept t2 t4 /\ WF t4) as [L4 W4].
  { unfold spec_reattach in H4. destruct (o_reattach o) as [p|]; simpl in H4; [|subst; split; [apply lk_refl|done]].
    destruct H4 as (f & _ & W4 & _ & _ & HT & _ & HN & _). split; [|done]. split; [done|]. intros n tm Hn%HT. eauto. }
  assert (labels_kept t4 t5 /\ WF t5) as [L5 W5].
  { destruct (o_ids o) as [s|]; simpl in H5; [|subst; split; [apply lk_refl|done]].
    destruct H5 as (W5 & _ & _ & _ & A1 & A2 & A3 & _). split; [|done]. apply lk_nts; [done|done|].
    intros n tm tm' Hn Hn'. destruct (A3 n tm Hn) as [Hx Hy].
    destruct (pick_spec t4 (fun t p => Nat.eqb (tr_root t) p || label_test (label_matches s) t p)%bool n W4 ltac:(eauto)) as [_ HP].
    assert (Hf : forall p, ((tr_root t4 =? p) || label_test (label_matches s) t4 p)%bool = true <-> id_node t4 s p).
    { intros p. unfold id_node. rewrite orb_true_iff, Nat.eqb_eq, (label_test_spec (in_set s)) by apply matches_set. naive_solver. }
    destruct (pick _ _ _) as [p|].
    - destruct (Hx p) as [i Hi]; [|rewrite Hi in Hn'; by simplify_eq].
      destruct HP as (A & B & C). split_and!; [done|by apply Hf|]. intros q Hq ?%Hf. by apply C.
    - rewrite Hy in Hn'; [by simplify_eq|]. intros q Hq ?%Hf. by apply (HP q). }
  assert (labels_kept t5 t6 /\ WF t6) as [L6 W6].
  { destruct (o_filter o) as [s|]; simpl in H6; [|subst; split; [apply lk_refl|done]].
    destruct H6 as (W6 & _ & _ & H6 & _). split; [|done]. apply lk_sub. intros n w Hn. by apply H6. }
  unfold spec_insert in H7. rewrite EI in H7. simpl in H7. subst t7.
  assert (L8 : labels_kept t6 t').
  { destruct (o_parent o) as [k|]; simpl in H8; [|subst; apply lk_refl].
    destruct H8 as (W8 & E & R & K & A1 & A2 & A3). apply lk_nts; [done|done|].
    intros n tm tm' Hn Hn'. assert (HB6 : ~ bare t6).
    { intros [x Hx]. apply HB; [done|]. unfold bare. rewrite R. destruct (nodes t' !! tr_root t6) as [[nt|y]|] eqn:Ey; [|eauto|].
      - apply A1 in Ey. congruence.
      - apply A2 in Ey. congruence. }
    destruct (not_bare_parent t6 W6 HB6 n tm Hn) as [p Hp].
    destruct (sh_live _ _ _ (wf_shape _ W6) _ _ Hp) as [[w Hw] _]. rewrite (A3 n tm p w Hn Hp Hw) in Hn'. by simplify_eq. }
  eapply lk_trans; [exact L1|]. eapply lk_trans; [exact L2|]. eapply lk_trans; [exact L4|]. eapply lk_trans; [exact L5|].
  eapply lk_trans; [exact L6|exact L8].
Qed.

Inductive has_label : ast -> str -> Prop :=
| hl_pre l form : has_label (APre l form) l
| hl_here l cs : has_label (ANode l cs) l
| hl_below l cs c l' : c ∈ cs -> has_label c l' -> has_label (ANode l cs) l'.
(** No label is empty once edge labels and annotations are cut off. *)
Definition solid (f : ptb_format) (a : ast) : Prop :=
  forall l lab e ann, has_label a l -> label_of f l lab e ann -> lab <> [].
Lemma G_labels : forall a s, G a s -> forall l, has_label a l -> word l.
Proof.
  apply (G_mut (fun a s => forall l, has_label a l -> word l) (fun cs s => forall c l, c ∈ cs -> has_label c l -> word l)).
  - intros label form b1 b2 b3 ? ? ? ? ? ? l H. inversion H; by subst.
  - intros label cs b1 body ? ? ? ? IH l H. inversion H; subst; [done|]. by eapply IH.
  - intros b ? c l Hc. by apply elem_of_nil in Hc.
  - intros a cs b s s' ? ? IH ? IHs c l Hc. apply elem_of_cons in Hc as [->|Hc]; [by apply IH|by apply IHs].
Qed.
Lemma G_words : forall a s, G a s -> forall w, w ∈ words a -> word w.
Proof.
  apply (G_mut (fun a s => forall w, w ∈ words a -> word w) (fun cs s => forall c w, c ∈ cs -> w ∈ words c -> word w)).
  - intros label form b1 b2 b3 ? ? ? ? ? ? w. simpl. by intros ->%elem_of_list_singleton.
  - intros label cs b1 body ? ? ? ? IH w. simpl. intros Hw%elem_of_list_In. apply in_concat in Hw as (l & Hl & Hw).
    apply in_map_iff in Hl as (c & <- & Hc). apply (IH c); by apply elem_of_list_In.
  - intros b ? c l Hc. by apply elem_of_nil in Hc.
  - intros a cs b s s' ? ? IH ? IHs c l Hc. apply elem_of_cons in Hc as [->|Hc]; [by apply IH|by apply IHs].
Qed.
Lemma cut_plain c s p q : cut c s p q -> PtbSpec.plain [] s -> PtbSpec.plain [] p /\ forall x, q = Some x -> PtbSpec.plain [] x.
Proof.
  intros [s0 _|p0 q0 _] H; [done|]. unfold PtbSpec.plain in H. rewrite Forall_app, Forall_cons in H. destruct H as (H1 & _ & H2). split; [done|].
  by intros x [= <-].
Qed.
Lemma field_plain c q p : field c q p -> (forall x, q = Some x -> PtbSpec.plain [] x) -> forall x, p = Some x -> PtbSpec.plain [] x.
Proof. intros [|s p0 q0 HC] H x E; [done|]. injection E as <-. exact (proj1 (cut_plain _ _ _ _ HC (H s eq_refl))). Qed.
Lemma label_plain f l lab e ann : label_of f l lab e ann -> PtbSpec.plain [] l -> PtbSpec.plain [] lab /\ forall x, ann = Some x -> PtbSpec.plain [] x.
Proof.
  intros H HP. destruct H as [l|l _|a b _|l tag o1 e lab o2 ann C1 F1 C2 F2]; [done|done| |].
  - unfold PtbSpec.plain in HP. rewrite Forall_app, Forall_cons in HP. destruct HP as (H1 & H0 & H2). split; [done|]. intros x [= <-]. by apply Forall_cons.
  - destruct (cut_plain _ _ _ _ C1 HP) as [HT _]. destruct (cut_plain _ _ _ _ C2 HT) as [HL H2]. split; [done|]. by apply (field_plain _ _ _ F2).
Qed.
Lemma word_plain' s : word s -> PtbSpec.plain [] s.
Proof. intros [_ H]. done. Qed.
(** The strings of a node of a tree that was read. *)
Definition node_fine (w : node) : Prop :=
  match w with
  | NT nt => PtbSpec.plain [] (nt_label nt) /\ nt_label nt <> [] /\ forall x, annotated nt x -> PtbSpec.plain [] x
  | T tm => word (t_form tm) /\ PtbSpec.plain [] (t_pos tm) /\ t_pos tm <> []
  end.
Lemma rose_fine f : forall a e r, ast_rose f a e r -> (forall l, has_label a l -> word l) -> (forall w, w ∈ words a -> word w) -> solid f a ->
  forall w, w ∈ rnodes r -> node_fine w.
Proof.
  induction a as [label form|label cs IH] using ast_ind'; intros e r H HL HW HS w Hw.
  - inversion H as [label0 form0 tag e0 ann tm Hl Hf Hp _ _|]; subst. apply elem_of_list_singleton in Hw as ->. simpl.
    destruct (label_plain _ _ _ _ _ Hl (word_plain' _ (HL _ (hl_pre _ _)))) as [H1 _]. split; [apply HW; by left|]. split; [done|].
    by eapply HS; [apply hl_pre|].
  - inversion H as [|label0 cs0 lab e0 ann nt ds Hl Hn Hf HF]; subst. simpl in Hw. apply elem_of_cons in Hw as [->|Hw].
    + destruct (label_plain _ _ _ _ _ Hl (word_plain' _ (HL _ (hl_here _ _)))) as [H1 H2]. simpl. split; [done|]. split; [by eapply HS; [apply hl_here|]|].
      intros x (m & Hm & Hx). rewrite Hf in Hm. destruct ann as [y|]; [|done]. injection Hm as <-. apply H2.
      rewrite lookup_singleton in Hx. by injection Hx as ->.
    + apply elem_of_list_In, in_concat in Hw as (l & Hl2 & Hw). apply in_map_iff in Hl2 as (d & <- & Hd%elem_of_list_In). apply elem_of_list_In in Hw.
      apply elem_of_list_lookup in Hd as [i Hd]. destruct (Forall2_lookup_r _ _ _ _ _ HF Hd) as (c & Hc & HD).
      rewrite Forall_lookup in IH. apply elem_of_list_lookup_2 in Hc as Hin. apply (IH i c Hc _ _ HD); [| | |done].
      * intros x Hx. apply HL. by eapply hl_below.
      * intros x Hx. apply HW. simpl. apply elem_of_list_In, in_concat. exists (words c). split; [|by apply elem_of_list_In].
        apply in_map_iff. exists c. split; [done|]. by apply elem_of_list_In.
      * intros x lab' e' ann' Hx. apply HS. by eapply hl_below.
Qed.
Lemma plain_unblank s : PtbSpec.plain [] s -> unblank s.
Proof. intros H. unfold unblank. eapply Forall_impl; [exact H|]. intros c. rewrite app_nil_r. set_solver. Qed.
Lemma fine_printable g : g <> TueBa -> forall r e, (forall w, w ∈ rnodes r -> node_fine w) -> printable g e r.
Proof.
  intros HG. induction r as [tm|nt cs IH] using rose_ind'; intros e H.
  - constructor. destruct (H (T tm)) as ([H1 H2] & H3 & H4); [by left|]. split; [done|]. split; [by apply plain_unblank|].
    split; [by apply plain_unblank|]. by destruct g.
  - constructor.
    + destruct (H (NT nt)) as (H1 & H2 & H3); [by left|]. split; [done|]. by destruct g.
    + rewrite Forall_lookup in *. intros i c Hc. apply (IH i c Hc). intros w Hw. apply H. simpl. right.
      apply elem_of_list_In, in_concat. exists (rnodes c.2). split; [|by apply elem_of_list_In]. apply in_map_iff. exists c. split; [done|].
      apply elem_of_list_In. by eapply elem_of_list_lookup_2.
Qed.
Lemma forms_kept t t' r r' : WF t -> WF t' -> Reads t r -> Reads t' r' ->
  map t_idx (leaves r) = seq 0 (tr_nterm t) -> map t_idx (leaves r') = seq 0 (tr_nterm t) ->
  (forall n tm', nodes t' !! n = Some (T tm') -> exists tm, nodes t !! n = Some (T tm) /\ t_form tm' = t_form tm /\ t_span tm' = t_span tm) ->
  map t_form (leaves r') = map t_form (leaves r).
Proof.
  intros W W' D D' HI HI' HT. apply list_eq_same_length with (tr_nterm t).
  - by rewrite map_length, <- (seq_length (tr_nterm t) 0), <- HI, map_length.
  - by rewrite map_length, <- (seq_length (tr_nterm t) 0), <- HI', map_length.
  - intros j x y Hj Hx Hy. change (map t_form (leaves r')) with (t_form <$> leaves r') in Hx. change (map t_form (leaves r)) with (t_form <$> leaves r) in Hy.
    apply list_lookup_fmap_inv in Hx as (tm' & -> & Htm'). apply list_lookup_fmap_inv in Hy as (tm & -> & Htm).
    assert (E : t_idx tm = j).
    { assert (HIj : map t_idx (leaves r) !! j = Some (t_idx tm)) by (by rewrite list_lookup_fmap, Htm). rewrite HI in HIj. by apply lookup_seq in HIj as [? _]. }
    assert (E' : t_idx tm' = j).
    { assert (HIj : map t_idx (leaves r') !! j = Some (t_idx tm')) by (by rewrite list_lookup_fmap, Htm'). rewrite HI' in HIj. by apply lookup_seq in HIj as [? _]. }
    apply elem_of_list_lookup_2, leaves_rnodes, (Reads_rnodes t r _ W D) in Htm as [n Hn].
    apply elem_of_list_lookup_2, leaves_rnodes, (Reads_rnodes t' r' _ W' D') in Htm' as [n' Hn'].
    destruct (HT _ _ Hn') as (tm2 & Hn2 & -> & ES). f_equal.
    assert (n' = n) as ->; [|congruence].
    destruct (term_pos_of _ _ _ _ (wf_terms _ W) Hn) as (P1 & _ & _). destruct (term_pos_of _ _ _ _ (wf_terms _ W) Hn2) as (P2 & _ & _).
    eapply (to_inj _ _ (wf_terms _ W)); [exact P2|]. assert (t_idx tm2 = j) as -> by (unfold t_idx in *; by rewrite <- ES). by rewrite E in P1.
Qed.
Lemma escaped_plain s s' : word s -> escaped s s' -> s' = s.
Proof.
  intros [_ H]. induction 1 as [|s s' _ _|s s' _ _|c s s' _ _ _ IH]; [done|..]; apply Forall_cons in H as [Hc H].
  - exfalso. apply Hc. set_solver.
  - exfalso. apply Hc. set_solver.
  - f_equal. by apply IH.
Qed.
Lemma convert_labels choose o t t' pos' : picks choose -> convertible o t -> o_insert o = None -> ~ tags_out o ->
  convert_tree choose o None t = Ret (Ok (t', pos')) -> labels_kept t t'.
Proof.
  intros HC HV EI HO Hconv. pose proof HV as (W & O & HR & HM). destruct (convert_ok choose o None t HC W O HR HM) as [H1 H2].
  destruct (bad_input_dec o None t) as [HN|HN]; [unfold bad_input in HN; by rewrite H1 in Hconv|].
  destruct (H2 HN) as (tags & t1 & HT & HE & K1 & HB1 & _ & _ & E1).
  destruct E1 as (t2 & Hc & HS & _); [by intros [? _]|]. rewrite Hconv in Hc. injection Hc as <- _.
  assert (t' = t1) as -> by (unfold spec_encode in HS; unfold tags_out in HO; destruct (o_out o); naive_solver).
  assert (tags = None) as -> by (by destruct tags).
  eapply lk_edited; [done| |done|exact HE]. intros HP [HB]%HB1. apply HN. right. split; [by right|]. by split.
Qed.
(** C61: from brackets to brackets.  The written text is a bracketed tree with the same words. *)
Theorem C61_bracket_output_partial choose f g m o ls gs its ok :
  (forall i, picks (choose i)) -> texts m ls gs -> (forall s, Some s ∈ gs -> text_ok f o s) ->
  o_out o = OBracket g -> g <> TueBa -> o_insert o = None -> (forall s a, Some s ∈ gs -> bracketed a s -> solid f a) ->
  tool_text choose (IBracket f) m o None ls = Ret (its, ok) ->
  forall i it, its !! i = Some it -> exists s a s' a', gs !! i = Some (Some s) /\ bracketed a s /\
    it = Text s' /\ bracketed a' s' /\ words a' = words a.
Proof.
  intros HC HT HO EO HG EI HS H i it Hi. destruct (texts_read f m ls gs HT) as (rs & HR & HF). unfold tool_text in H. rewrite HR in H. simpl in H.
  destruct (C57_stream rs _ _ _ _ _ _ H) as (_ & _ & H3 & _). destruct (H3 i it Hi) as (t & t' & pos' & ci & ci' & Ht & Hc & Hw). simpl in Hc.
  destruct (Forall2_lookup_r _ _ _ _ _ HF Ht) as ([s|] & Hs & Hr); [|done]. simpl in Hr. apply elem_of_list_lookup_2 in Hs as Hin.
  destruct (C32_parsed f s t Hr) as (a & e & r & HB & W & HD & HA & HWd & HI & _).
  destruct (text_convertible f o s t (HO s Hin) Hr) as [HV _]. specialize (HS s a Hin HB).
  destruct (C55_words (choose i) o None t (HC i) HV) as (res & Hres & HX). rewrite Hc in Hres. injection Hres as <-.
  destruct (HX _ _ eq_refl) as (W' & _ & _ & HK & HX1 & HX2). clear HX.
  destruct (convert_labels (choose i) o t t' pos' (HC i) HV EI) as [LN LT]; [unfold tags_out; rewrite EO; by intros [|]|done|].
  rewrite EO in Hw. simpl in Hw. unfold next, ptb_write in Hw.
  destruct (tree_to_string g t') as [[x|]| |] eqn:Ex; simpl in Hw; try done. injection Hw as <- <-.
  assert (HP' : is_projective t' = true).
  { destruct (C36_fails g t' W') as (res & Hres & Hiff). rewrite Ex in Hres. injection Hres as <-. apply C09_projective; [done|].
    destruct (is_projective t') eqn:E; [by apply C09_projective|]. exfalso. assert (Ok x = @Err str); [|done]. apply Hiff. rewrite <- C09_projective by done. by rewrite E. }
  destruct (Reads_total t' W') as [r' HD']. pose proof HB as (b1 & s0 & b2 & _ & _ & _ & HGr).
  assert (HFine : forall w, w ∈ rnodes r' -> node_fine w).
  { intros w [n Hn]%(Reads_rnodes t' r' _ W' HD'). pose proof (rose_fine f a e r HA (G_labels a s0 HGr) (G_words a s0 HGr) HS) as HFr.
    destruct w as [nt'|tm'].
    - destruct (LN n nt' Hn) as (nt & Hnt & E1 & E2). destruct (HFr (NT nt)) as (F1 & F2 & F3); [apply (Reads_rnodes t r _ W HD); eauto|].
      simpl. rewrite E1. split; [done|]. split; [done|]. intros y (m0 & Hm & Hy). apply F3. exists m0. by rewrite <- E2.
    - destruct (LT n tm' Hn) as (tm & Htm & E1 & E2). destruct (HFr (T tm)) as (F1 & F2 & F3); [apply (Reads_rnodes t r _ W HD); eauto|].
      simpl. by rewrite E1, E2. }
  destruct (C36_text_partial g t' r' W' HP' HD' (fine_printable g HG r' None HFine)) as (x' & a' & Ex' & HB' & _ & HE & HI').
  rewrite Ex in Ex'. injection Ex' as <-. exists s, a, (x ++ [10%N]), a'. split; [done|]. split; [done|]. split; [done|]. split.
  - destruct HB' as (c1 & y & c2 & -> & HB1 & HB2 & HGy). exists c1, y, (c2 ++ [10%N]). rewrite <- !app_assoc. split; [done|]. split; [done|]. split; [|done].
    apply Forall_app. split; [done|]. apply Forall_cons. split; [set_solver|constructor].
  - rewrite <- HWd. rewrite HK in HI'. rewrite <- (forms_kept t t' r r' W W' HD HD' HI HI').
    + assert (HW : forall w, w ∈ map t_form (leaves r') -> word w).
      { intros w Hw. apply elem_of_list_In, in_map_iff in Hw as (tm & <- & Htm%elem_of_list_In%leaves_rnodes). by destruct (HFine _ Htm). }
      clear - HE HW. revert HW. induction HE as [|y z l l' Hyz HE IH]; intros HW; [done|]. f_equal; [|apply IH; intros; apply HW; by right].
      apply escaped_plain; [apply HW; by left|done].
    + intros n tm' Hn. destruct (HX2 n tm' Hn) as [tm Htm]. destruct (HX1 n tm Htm) as (tm2 & Hn2 & F1 & _ & F2). rewrite Hn in Hn2. injection Hn2 as <-. eauto.
Qed.
Print Assumptions C61_bracket_output_partial.

(** C61: a file of bracketed trees is converted completely, in every mode and to every output. *)
Theorem C61_complete_partial choose f m o ls gs :
  (forall i, picks (choose i)) -> texts m ls gs -> (forall s, Some s ∈ gs -> text_ok f o s) ->
  o_reattach o = None -> Forall (fun g => exists s a, g = Some s /\ bracketed a s /\
    (o_insert o <> None \/ o_parent o <> None -> 2 <= length (words a) \/ exists lab, inner_label f a lab /\ ~ (o_dummies o = true /\ lab = lit "DUMMY"))) gs ->
  exists its, tool_text choose (IBracket f) m o None ls = Ret (its, true) /\ length its = length gs.
Proof.
  intros HC HT HO ER HB. destruct (C61_brackets_partial choose f m o None ls gs HC HT HO) as (its & ok & H & HL & HL2 & _).
  destruct ok; [exists its; split; [done|by apply HL]|]. exfalso. clear HL.
  destruct (texts_read f m ls gs HT) as (rs & HR & HF). unfold tool_text in H. rewrite HR in H. simpl in H.
  destruct (C57_stream rs _ _ _ _ _ _ H) as (_ & _ & _ & H4). destruct (H4 eq_refl) as (x & Hx & HX). clear H4. simpl in HX.
  destruct (Forall2_lookup_r _ _ _ _ _ HF Hx) as (g & Hg & Hgx). destruct (Forall_lookup_1 _ _ _ _ HB Hg) as (s & a & -> & Ha & Hp). simpl in Hgx.
  apply elem_of_list_lookup_2 in Hg as Hin. destruct HX as [->|(t & -> & HX)].
  { destruct (C31_language f s) as (r & Hr & Hiff). rewrite Hgx in Hr. injection Hr as <-. destruct (proj2 Hiff) as [? ?]; [by exists a|done]. }
  destruct (text_convertible f o s t (HO s Hin) Hgx) as [HV HNg]. destruct (C32_parsed f s t Hgx) as (a' & e & r & Ha' & W & HD & HA & HWd & HI & HP).
  pose proof (C31_unique _ _ _ Ha Ha') as ->. apply C09_projective in HP; [|done].
  assert (HN : ~ bad_input o None t).
  { intros [[]|[Hop [HB1 HB2]]]. destruct (Hp Hop) as [Hl|(lab & Hl & HDm)].
    - rewrite <- HWd, map_length in Hl. apply (f_equal length) in HI. rewrite map_length, seq_length in HI. lia.
    - destruct (inner_rose f a' e r lab HA Hl) as (nt & Hnt & <-). apply (Reads_rnodes t r _ W HD) in Hnt as [n Hn]. by apply HDm, (HB2 n). }
  assert (o_out o = ONegra \/ o_out o <> ONegra) as [EO|EO] by (destruct (o_out o); auto).
  - destruct (C55_convert (choose (length its)) o None t (HC _) HV) as [_ HC2]. destruct (HC2 HN) as (tags & t1 & _ & _ & _ & _ & HC3).
    destruct HC3 as (t' & Ht' & _); [unfold tags_out; rewrite EO; by intros [[|] _]|]. rewrite Ht' in HX. destruct HX as [?|(t2 & p2 & ci & [= <- <-] & Hw)]; [done|].
    rewrite EO in Hw. simpl in Hw. by destruct (negra_write ci t') as [[? ?]| |].
  - destruct HX as [Hc|(t2 & p2 & ci & Hc & Hw)].
    + destruct (C56_written (choose (length its)) o None t 0 (HC _) HV ER (or_intror HP) HN EO) as (t' & it & Hc' & _). congruence.
    + destruct (C56_written (choose (length its)) o None t ci (HC _) HV ER (or_intror HP) HN EO) as (t' & it & Hc' & Hw'). simplify_eq. rewrite Hc in Hc'. simplify_eq. by rewrite Hw in Hw'.
Qed.
Print Assumptions C61_complete_partial.
(** In the simple format no label is empty. *)
Lemma solid_simple a s : bracketed a s -> solid Simple a.
Proof.
  intros (b1 & s0 & b2 & _ & _ & _ & HG) l lab e ann Hl HL. destruct (G_labels a s0 HG l Hl) as [Hne _]. by inversion HL; subst.
Qed.

(** *** Cases *)
Lemma two_words f o s : match string_to_tree f s with Ret (Ok t) => (1 <? tr_nterm t)%nat | _ => true end = true ->
  (Z.of_nat (length s) < 2 ^ 63)%Z -> text_ok f o s.
Proof.
  intros H HZ a Ha. destruct (C31_language f s) as (r & Hr & Hiff). destruct (proj2 Hiff) as [t ->]; [eauto|]. rewrite Hr in H.
  destruct (C32_parsed f s t Hr) as (a' & e & r & Ha' & _ & _ & _ & HW & HI & _). rewrite (C31_unique _ _ _ Ha Ha').
  apply Nat.ltb_lt in H. rewrite <- HW, map_length. apply (f_equal length) in HI. rewrite map_length, seq_length in HI. split; [lia|]. split; [lia|done].
Qed.
Definition ex_lines : list (option str) := [Some (lit "% trees"); Some (lit "(S (NP (D the) (N dog)) (V barks))"); Some (lit " (DUMMY (V go) (P on) )")].
Definition ex_texts : list (option str) := [Some (lit "(S (NP (D the) (N dog)) (V barks))"); Some (lit " (DUMMY (V go) (P on) )")].
Lemma ex_texts_ok : texts false ex_lines ex_texts.
Proof.
  unfold texts, ex_lines. apply sr_comment; [by exists (lit " trees")|]. apply sr_line; [by intros [s [=]]|done|]. apply sr_line; [by intros [s [=]]|done|]. constructor.
Qed.
Lemma ex_text_ok f o s : Some s ∈ ex_texts -> text_ok f o s.
Proof.
  intros Hs. assert (s = lit "(S (NP (D the) (N dog)) (V barks))" \/ s = lit " (DUMMY (V go) (P on) )") as [-> | ->] by (unfold ex_texts in Hs; set_solver).
  - apply two_words; [destruct f; by vm_compute|by vm_compute].
  - apply two_words; [destruct f; by vm_compute|by vm_compute].
Qed.
Definition ex_toks (m : outcome (list item * bool)) : list (list str) * bool :=
  match m with Ret (its, ok) => (map (fun i => match i with Sentence ks => map k_form ks | Text s => [s] end) its, ok) | _ => ([], false) end.
(** All options at once: the words of both trees are written as tagged sentences. *)
Example C61_brackets_ex : picks ex_choose /\ texts false ex_lines ex_texts /\ (forall s, Some s ∈ ex_texts -> text_ok PTB (ex_opts ORelative) s) /\
  ex_toks (tool_text (fun _ => ex_choose) (IBracket PTB) false (ex_opts ORelative) None ex_lines) =
    ([[lit "the"; lit "dog"; lit "barks"]; [lit "go"; lit "on"]], true).
Proof.
  split; [apply ex_choose_picks|]. split; [apply ex_texts_ok|]. split; [intros s; apply ex_text_ok|]. by vm_compute.
Qed.
Definition ex_opts3 (out : out_format) : options := mk_opts out true true true None (Some (Positive {[ lit "NP" ]})) (lit "id") (Some (Negative {[ lit "X" ]})) None [] (Some (lit "parent")).
Example C61_bracket_output_ex :
  (forall s, Some s ∈ ex_texts -> text_ok Simple (ex_opts3 (OBracket PTB)) s) /\ (forall s a, Some s ∈ ex_texts -> bracketed a s -> solid Simple a) /\
  ex_toks (tool_text (fun _ => ex_choose) (IBracket Simple) false (ex_opts3 (OBracket PTB)) None ex_lines) =
    ([[lit "(S (NP (D the) (N dog)) (V barks))" ++ [10%N]]; [lit "(DUMMY (V go) (P on))" ++ [10%N]]], true).
Proof.
  split; [intros s; apply ex_text_ok|]. split; [intros s a _; apply solid_simple|]. by vm_compute.
Qed.
Example C61_complete_ex : o_reattach (ex_opts3 ONegra) = None /\ o_parent (ex_opts3 ONegra) <> None /\
  Forall (fun g => exists s a, g = Some s /\ bracketed a s /\ (o_insert (ex_opts3 ONegra) <> None \/ o_parent (ex_opts3 ONegra) <> None ->
    2 <= length (words a) \/ exists lab, inner_label Simple a lab /\ ~ (o_dummies (ex_opts3 ONegra) = true /\ lab = lit "DUMMY"))) ex_texts.
Proof.
  assert (H : forall s, match string_to_tree Simple s with Ret (Ok t) => (1 <? tr_nterm t)%nat | _ => false end = true ->
    exists s' a, Some s = Some s' /\ bracketed a s' /\ 2 <= length (words a)).
  { intros s H. destruct (string_to_tree Simple s) as [[t|]| |] eqn:E; try done.
    destruct (C32_parsed Simple s t E) as (a' & e & r & Ha' & _ & _ & _ & HW & HI & _). exists s, a'. split; [done|]. split; [done|].
    apply Nat.ltb_lt in H. rewrite <- HW, map_length. apply (f_equal length) in HI. rewrite map_length, seq_length in HI. lia. }
  split; [done|]. split; [done|]. unfold ex_texts. repeat (apply Forall_cons; split; [|]); [| |constructor].
  - destruct (H (lit "(S (NP (D the) (N dog)) (V barks))")) as (s' & a & ? & ? & ?); [by vm_compute|]. exists s', a. auto.
  - destruct (H (lit " (DUMMY (V go) (P on) )")) as (s' & a & ? & ? & ?); [by vm_compute|]. exists s', a. auto.
Qed.
(** What [text_ok] excludes: a tree without an inner node written as NEGRA panics, and one word with
    [--reattach] hangs. *)
Theorem C61_text_refuted : exists choose o o' l l', picks choose /\
  tool_text (fun _ => choose) (IBracket Simple) false o None [Some l] = Panic /\
  tool_text (fun _ => choose) (IBracket Simple) false o' None [Some l'] = Diverge.
Proof.
  exists ex_choose, (mk_opts ONegra false false false None None [] None None [] None),
    (mk_opts (OBracket Simple) false false false (Some (lit "$")) None [] None None [] None), (lit "(A a)"), (lit "(S ($. .))").
  split; [apply ex_choose_picks|]. split; by vm_compute.
Qed.
Print Assumptions C61_text_refuted.
