(** C71: the NEGRA text of a tree does not depend on node numbers, and writing is stable. *)
From Coq Require Import Lia.
From Verif Require Import NegraModel Api TreeSpec BaseProofs SpanProofs ShapeProofs GraphProofs SortProofs TreeOps RoseProofs NegraSpec NegraWrite NegraRound NegraRound4
  PropsNegra PropsNegra2 PropsRead PropsReadWF NegraWritable PropsNegraStable.
Local Arguments lit : simpl never.

(** ** Specification *)
(** The secondary edges into one node agree. *)
Definition sec_one (t : tree) : Prop := forall r r', r ∈ edges t -> r' ∈ edges t ->
  is_primary (e_w r) = false -> is_primary (e_w r') = false -> e_tgt r = e_tgt r' -> e_src r = e_src r' /\ e_w r = e_w r'.

(** ** Proofs *)
Section same.
  Context (t t' : tree) (M : nat -> nat -> Prop).
  Hypothesis (W : WF t) (W' : WF t') (S : same_tree t t' M) (O : sec_one t).

  Lemma m_left x : is_Some (nodes t !! x) -> exists x', M x x'.
  Proof using S. apply (st_left _ _ _ S). Qed.
  Lemma m_iff x y x' y' : M x x' -> M y y' -> x = y <-> x' = y'.
  Proof using S. intros H1 H2. split; [intros <-; by eapply (st_fun _ _ _ S)|intros <-; by eapply (st_inj _ _ _ S)]. Qed.
  Lemma m_term x x' : M x x' -> node_is_term t x = node_is_term t' x'.
  Proof using S. unfold node_is_term. intros [(a & b & -> & -> & _)|(a & b & -> & -> & _)]%(st_node _ _ _ S); done. Qed.
  Lemma m_PE x y x' y' : M x x' -> M y y' -> PE (edges t) x y <-> PE (edges t') x' y'.
  Proof using S.
    intros Hx Hy. split.
    - intros (r & H1 & H2 & H3 & H4). destruct (proj1 (st_edge _ _ _ S x y x' y' (e_w r) Hx Hy)) as (r' & G1 & G2 & G3 & G4); [by exists r|].
      exists r'. by rewrite G4.
    - intros (r & H1 & H2 & H3 & H4). destruct (proj2 (st_edge _ _ _ S x y x' y' (e_w r) Hx Hy)) as (r' & G1 & G2 & G3 & G4); [by exists r|].
      exists r'. by rewrite G4.
  Qed.
  Lemma m_children f f' p p' : M p p' -> (forall x x', M x x' -> f x = f' x') ->
    forallb (fun c => f (fst c)) (children t p) = forallb (fun c => f' (fst c)) (children t' p').
  Proof using S W W'.
    intros Hp Hf. apply eq_true_iff_eq. rewrite (children_all t f p), (children_all t' f' p'). split.
    - intros H c' Hc'. destruct (sh_live _ _ _ (wf_shape _ W') _ _ Hc') as [_ [c Hc]%(st_right _ _ _ S)].
      rewrite <- (Hf c c' Hc). apply H. by apply (m_PE _ _ _ _ Hp Hc).
    - intros H c Hc. destruct (sh_live _ _ _ (wf_shape _ W) _ _ Hc) as [_ [c' Hc']%(st_left _ _ _ S)].
      rewrite (Hf c c' Hc'). apply H. by apply (m_PE _ _ _ _ Hp Hc').
  Qed.

  Definition same_link (o o' : option (nat * nat)) : Prop :=
    match o, o' with
    | Some (p, e), Some (p', e') => M p p' /\ edge_at t e = edge_at t' e'
    | None, None => True
    | _, _ => False
    end.
  Lemma edge_at_rec u r : WF u -> r ∈ edges u -> edge_at u (e_id r) = Ret (e_w r).
  Proof using. intros Wu Hr. unfold edge_at. by rewrite (proj2 (find_edge_Some _ _ r (wf_graph _ Wu)) (conj Hr eq_refl)). Qed.
  Lemma m_parent x x' : M x x' -> same_link (parent t x) (parent t' x').
  Proof using S W W'.
    intros Hx. unfold same_link. destruct (parent t x) as [[p e]|] eqn:E.
    - apply parent_Some in E as (r & H1 & H2 & H3 & H4 & H5); [|apply W].
      destruct (proj1 (go_ends _ (wf_graph _ W) r H1)) as [w Hw]. rewrite H3 in Hw. destruct (m_left p) as [p' Hp]; [eauto|].
      destruct (proj1 (st_edge _ _ _ S p x p' x' (e_w r) Hp Hx)) as (r' & G1 & G2 & G3 & G4); [by exists r|].
      assert (parent t' x' = Some (p', e_id r')) as ->. { apply parent_Some; [apply W'|]. exists r'. by rewrite G4. }
      split; [done|]. rewrite <- H5, (edge_at_rec t r W H1), (edge_at_rec t' r' W' G1). congruence.
    - destruct (parent t' x') as [[p' e']|] eqn:E'; [|done].
      apply parent_Some in E' as (r & H1 & H2 & H3 & H4 & H5); [|apply W'].
      assert (Hpe : PE (edges t') p' x') by (by exists r).
      destruct (sh_live _ _ _ (wf_shape _ W') _ _ Hpe) as [[p Hp]%(st_right _ _ _ S) _].
      apply (m_PE _ _ _ _ Hp Hx) in Hpe. rewrite parent_None in E by apply W. by apply E in Hpe.
  Qed.
  Lemma sec_Some u n p e : secondary_parent u n = Some (p, e) ->
    exists r, r ∈ edges u /\ is_primary (e_w r) = false /\ e_src r = p /\ e_tgt r = n /\ e_id r = e.
  Proof using.
    unfold secondary_parent, in_edges. intros (r & Hr & [= -> ->])%fmap_Some. exists r.
    apply head_Some_elem_of in Hr. rewrite !elem_of_list_filter in Hr. tauto.
  Qed.
  Lemma sec_None u n r : secondary_parent u n = None -> r ∈ edges u -> is_primary (e_w r) = false -> e_tgt r <> n.
  Proof using.
    unfold secondary_parent, in_edges. intros H Hr Hp E. destruct (filter _ (filter _ _)) as [|y l] eqn:F; [|done].
    assert (Hin : r ∈ @nil erec); [|by apply elem_of_nil in Hin]. rewrite <- F. by rewrite !elem_of_list_filter.
  Qed.
  Lemma m_secondary x x' : M x x' -> same_link (secondary_parent t x) (secondary_parent t' x').
  Proof using S W W' O.
    intros Hx. unfold same_link.
    assert (Back : forall r', r' ∈ edges t' -> is_primary (e_w r') = false -> e_tgt r' = x' ->
      exists r, r ∈ edges t /\ is_primary (e_w r) = false /\ e_tgt r = x /\ M (e_src r) (e_src r') /\ e_w r = e_w r').
    { intros r' H1 H2 H3. destruct (proj1 (go_ends _ (wf_graph _ W') r' H1)) as [w Hw].
      destruct (proj1 (st_right _ _ _ S (e_src r'))) as [p Hp]; [eauto|].
      destruct (proj2 (st_edge _ _ _ S p x (e_src r') x' (e_w r') Hp Hx)) as (r & G1 & G2 & G3 & G4); [by exists r'|].
      exists r. split_and!; [done|congruence|done|by rewrite G2|done]. }
    destruct (secondary_parent t x) as [[p e]|] eqn:E, (secondary_parent t' x') as [[p' e']|] eqn:E'; [| | |done].
    - apply sec_Some in E as (r & H1 & H2 & H3 & H4 & H5). apply sec_Some in E' as (r' & H1' & H2' & H3' & H4' & H5').
      destruct (Back r' H1' H2' H4') as (r0 & G1 & G2 & G3 & G4 & G5). destruct (O r r0 H1 G1 H2 G2) as [Es Ew]; [congruence|].
      rewrite <- H3, <- H3', Es. split; [done|]. rewrite <- H5, <- H5', (edge_at_rec t r W H1), (edge_at_rec t' r' W' H1'). congruence.
    - apply sec_Some in E as (r & H1 & H2 & H3 & H4 & H5).
      destruct (proj1 (go_ends _ (wf_graph _ W) r H1)) as [w Hw]. destruct (m_left (e_src r)) as [p' Hp]; [eauto|].
      destruct (proj1 (st_edge _ _ _ S (e_src r) x p' x' (e_w r) Hp Hx)) as (r' & G1 & G2 & G3 & G4); [by exists r|].
      by destruct (sec_None _ _ r' E' G1); [congruence|].
    - apply sec_Some in E' as (r' & H1' & H2' & H3' & H4' & H5').
      destruct (Back r' H1' H2' H4') as (r0 & G1 & G2 & G3 & G4 & G5). by destruct (sec_None _ _ r0 E G1 G2).
  Qed.

  Definition same_seen (v v' : gset nat) : Prop := forall x x', M x x' -> x ∈ v <-> x' ∈ v'.
  Definition same_ids (d d' : gmap nat str) : Prop := forall x x', M x x' -> d !! x = d' !! x'.
  Lemma seen_add v v' x x' : M x x' -> same_seen v v' -> same_seen ({[x]} ∪ v) ({[x']} ∪ v').
  Proof using S. intros Hx H y y' Hy. rewrite !elem_of_union, !elem_of_singleton, (H y y' Hy), (m_iff y x y' x' Hy Hx). done. Qed.
  Lemma ids_add d d' x x' s : M x x' -> same_ids d d' -> same_ids (<[x := s]> d) (<[x' := s]> d').
  Proof using S.
    intros Hx H y y' Hy. destruct (decide (x = y)) as [->|Hne].
    - assert (y' = x') as -> by (by eapply (st_fun _ _ _ S)). by rewrite !lookup_insert.
    - rewrite !lookup_insert_ne; [by apply H| |done]. intros ->. by apply Hne; eapply (st_inj _ _ _ S).
  Qed.

  Lemma m_start ws ws' : Forall2 M ws ws' -> forall q q' v v', Forall2 M q q' -> same_seen v v' ->
    Forall2 M (foldl (queue_step t) (q, v) ws).1 (foldl (queue_step t') (q', v') ws').1 /\
    same_seen (foldl (queue_step t) (q, v) ws).2 (foldl (queue_step t') (q', v') ws').2.
  Proof using S W W'.
    induction 1 as [|x x' ws ws' Hx H IH]; intros q q' v v' Hq Hv; [done|]. cbn [foldl].
    pose proof (m_parent x x' Hx) as Hp. unfold queue_step at 2 4 6 8. cbn [fst snd]. unfold same_link in Hp.
    destruct (parent t x) as [[p e]|], (parent t' x') as [[p' e']|]; try done.
    - destruct Hp as [Hp _]. rewrite (m_children (node_is_term t) (node_is_term t') p p' Hp m_term).
      destruct (forallb _ _); apply IH; try done; try (by apply seen_add). by apply Forall2_app; [|constructor].
    - apply IH; [done|by apply seen_add].
  Qed.

  Lemma m_number f f' : forall q q' v v' c d d' n n' ids nts ids' nts', Forall2 M q q' -> same_seen v v' -> same_ids d d' -> Forall2 M n n' ->
    number_nts f t q v c d n = Ret (ids, nts) -> number_nts f' t' q' v' c d' n' = Ret (ids', nts') ->
    same_ids ids ids' /\ Forall2 M nts nts'.
  Proof using S W W'.
    revert f'. induction f as [|f IH]; intros f' q q' v v' c d d' n n' ids nts ids' nts' Hq Hv Hd Hn.
    - inversion Hq as [|x x' q1 q1' Hx Hq1]; subst; [|done]. intros [= <- <-].
      destruct f'; simpl; intros [= <- <-]; done.
    - inversion Hq as [|x x' q1 q1' Hx Hq1]; subst.
      { intros [= <- <-]. destruct f'; simpl; intros [= <- <-]; done. }
      destruct f' as [|f']; [done|]. cbn [number_nts].
      assert (E1 : (bool_decide (x ∈ v) || Nat.eqb (tr_root t) x)%bool = (bool_decide (x' ∈ v') || Nat.eqb (tr_root t') x')%bool).
      { f_equal; [apply bool_decide_ext; by apply Hv|]. apply eq_true_iff_eq. rewrite !Nat.eqb_eq. apply m_iff; [apply S|done]. }
      rewrite E1. destruct (bool_decide (x' ∈ v') || Nat.eqb (tr_root t') x')%bool.
      { apply IH; try done. by apply seen_add. }
      assert (Hv2 : same_seen ({[x]} ∪ v) ({[x']} ∪ v')) by (by apply seen_add).
      assert (Hn2 : Forall2 M (n ++ [x]) (n' ++ [x'])) by (by apply Forall2_app; [|constructor]).
      assert (Hd2 : same_ids (<[x := print_nat c]> d) (<[x' := print_nat c]> d')) by (by apply ids_add).
      pose proof (m_parent x x' Hx) as Hp. unfold same_link in Hp.
      destruct (parent t x) as [[p e]|], (parent t' x') as [[p' e']|]; try done.
      + destruct Hp as [Hp _].
        match goal with |- context [forallb ?F (children t p)] => match goal with |- context [forallb ?G (children t' p')] =>
          assert (E2 : forallb F (children t p) = forallb G (children t' p')) by
            (apply (m_children (fun y => F (y, 0)) (fun y => G (y, 0)) p p' Hp); intros y y' Hy; apply bool_decide_ext; by apply Hv2);
          rewrite E2; clear E2 end end.
        apply IH; try done. destruct (forallb _ _); [by constructor|done].
      + apply IH; done.
  Qed.

  Lemma m_words ws ws' : sentence t ws -> sentence t' ws' -> Forall2 M ws ws'.
  Proof using S.
    intros [_ H] [_ H'].
    assert (G : forall x x' i, M x x' -> term_pos (nodes t) x i <-> term_pos (nodes t') x' i).
    { intros x x' i [(a & b & Ha & Hb & E)|(a & b & Ha & Hb & _)]%(st_node _ _ _ S).
      - destruct E as (_ & _ & _ & E & _). split; intros (c & Hc & Hs); [exists b|exists a]; (split; [done|]); congruence.
      - split; intros (c & Hc & _); congruence. }
    assert (L : length ws = length ws').
    { assert (A : forall i, is_Some (ws !! i) <-> is_Some (ws' !! i)).
      { intros i. split.
        - intros [x Hx]. apply H in Hx. destruct Hx as (a & Ha & Hs). destruct (m_left x) as [x' Hx]; [eauto|]. exists x'.
          apply H', (G x x' i Hx). by exists a.
        - intros [x' Hx]. apply H' in Hx. destruct Hx as (a & Ha & Hs). destruct (proj1 (st_right _ _ _ S x')) as [x Hx]; [eauto|]. exists x.
          apply H, (G x x' i Hx). by exists a. }
      destruct (Nat.lt_trichotomy (length ws) (length ws')) as [Hlt|[?|Hlt]]; [|done|].
      - apply lookup_lt_is_Some, A, lookup_lt_is_Some in Hlt. lia.
      - apply lookup_lt_is_Some, A, lookup_lt_is_Some in Hlt. lia. }
    apply Forall2_same_length_lookup. split; [done|]. intros i x x' Hx Hx'. apply H in Hx. apply H' in Hx'.
    destruct (m_left x) as [y Hy]; [destruct Hx as (a & Ha & _); eauto|].
    apply (G x y i Hy), H' in Hx. apply H' in Hx'. assert (y = x') as -> by congruence. done.
  Qed.

  Lemma feat_val_eq f g key : (forall m, has_feat f key m <-> has_feat g key m) -> feat_val f key = feat_val g key.
  Proof using. intros H. pose proof (proj1 (H _) (feat_val_has f key)) as X. by rewrite (has_feat_fun _ _ _ _ X (feat_val_has g key)). Qed.
  Lemma m_edge_text d d' x x' : same_ids d d' -> M x x' -> get_parent_edge x t d = get_parent_edge x' t' d'.
  Proof using S W W' O.
    intros Hd Hx. pose proof (m_parent x x' Hx) as Hp. pose proof (m_secondary x x' Hx) as Hs. unfold get_parent_edge, same_link in *.
    destruct (parent t x) as [[p e]|], (parent t' x') as [[p' e']|]; try done. destruct Hp as [Hp He].
    cbn [unwrap mbind outcome_bind]. rewrite He, (Hd p p' Hp).
    destruct (secondary_parent t x) as [[p2 e2]|], (secondary_parent t' x') as [[p2' e2']|]; try done. destruct Hs as [Hs He2].
    rewrite He2, (Hd p2 p2' Hs). done.
  Qed.
  Lemma m_tline d d' x x' : same_ids d d' -> M x x' -> terminal_line t d x = terminal_line t' d' x'.
  Proof using S W W' O.
    intros Hd Hx. unfold terminal_line. rewrite (m_edge_text d d' x x' Hd Hx).
    destruct (st_node _ _ _ S x x' Hx) as [(a & b & Ha & Hb & E1 & E2 & E3 & E4 & E5)|(a & b & Ha & Hb & _)];
      rewrite (node_at_Some _ _ _ Ha), (node_at_Some _ _ _ Hb); [|done]. cbn [mbind outcome_bind node_terminal unwrap].
    unfold terminal_to_negra_line. rewrite E1, E2, E3, (feat_val_eq (t_feats a) (t_feats b) morph_key E5). done.
  Qed.
  Lemma m_nline d d' x x' : same_ids d d' -> M x x' -> nonterminal_line t d x = nonterminal_line t' d' x'.
  Proof using S W W' O.
    intros Hd Hx. unfold nonterminal_line. rewrite (m_edge_text d d' x x' Hd Hx), (Hd x x' Hx).
    destruct (st_node _ _ _ S x x' Hx) as [(a & b & Ha & Hb & _)|(a & b & Ha & Hb & E1 & E2)];
      rewrite (node_at_Some _ _ _ Ha), (node_at_Some _ _ _ Hb); [done|].
    destruct (d' !! x') as [id|]; [|done]. cbn [unwrap mbind outcome_bind node_nonterminal]. unfold nonterminal_to_negra_line. rewrite E1, (feat_val_eq (nt_feats a) (nt_feats b) annotation_key E2). done.
  Qed.
  Lemma mapO_rel {B} (f f' : nat -> outcome B) l l' : Forall2 M l l' -> (forall x x', M x x' -> f x = f' x') -> mapO f l = mapO f' l'.
  Proof using. induction 1 as [|x x' l l' Hx H IH]; intros Hf; [done|]. simpl. by rewrite (Hf x x' Hx), (IH Hf). Qed.

  (** The text below the header. *)
  Definition lines_of (u : tree) : outcome (list str * list str) :=
    let terms := sort_indices u (terminals u) in
    let '(q, v) := start_queue u terms in
    '(ids, nts) ← number_nts (number_fuel u q) u q v 500 {[tr_root u := lit "0"]} [];
    tlines ← mapO (terminal_line u ids) terms;
    nlines ← mapO (nonterminal_line u ids) nts;
    Ret (tlines, nlines).
  Lemma words_leaf u : WF u -> forall n, n ∈ sort_indices u (terminals u) <-> leafn u n.
  Proof using.
    intros Wu n. destruct (sentence_sorted u (wf_graph _ Wu) (wf_terms _ Wu)) as [_ Hs]. split.
    - intros [i Hi]%elem_of_list_lookup. apply Hs in Hi as (tm & H & _). by exists tm.
    - intros [tm Htm]. destruct (term_pos_of _ _ _ _ (wf_terms _ Wu) Htm) as (Hp & _).
      apply Hs in Hp. by eapply elem_of_list_lookup_2.
  Qed.
  Lemma m_lines : lines_of t = lines_of t'.
  Proof using S W W' O.
    unfold lines_of.
    pose proof (m_words _ _ (sentence_sorted t (wf_graph _ W) (wf_terms _ W)) (sentence_sorted t' (wf_graph _ W') (wf_terms _ W'))) as Hw.
    destruct (number_all t W _ (words_leaf t W)) as (ids & nts & E & _). destruct (number_all t' W' _ (words_leaf t' W')) as (ids' & nts' & E' & _).
    destruct (m_start _ _ Hw [] [] ∅ ∅ ltac:(constructor) ltac:(by intros ? ? _; rewrite !elem_of_empty)) as [Hq Hv].
    fold (start_queue t (sort_indices t (terminals t))) in Hq, Hv. fold (start_queue t' (sort_indices t' (terminals t'))) in Hq, Hv.
    destruct (start_queue t _) as [q v]. destruct (start_queue t' _) as [q' v']. cbn [fst snd] in *.
    assert (Hd : same_ids {[tr_root t := lit "0"]} {[tr_root t' := lit "0"]}).
    { rewrite <- !insert_empty. apply ids_add; [apply S|]. intros ? ? _. by rewrite !lookup_empty. }
    destruct (m_number _ _ _ _ _ _ _ _ _ _ _ _ _ _ _ Hq Hv Hd (Forall2_nil_2 _ _ M) E E') as [Hids Hnts].
    rewrite E, E'. cbn [mbind outcome_bind].
    rewrite (mapO_rel _ _ _ _ Hw (fun x x' Hx => m_tline ids ids' x x' Hids Hx)), (mapO_rel _ _ _ _ Hnts (fun x x' Hx => m_nline ids ids' x x' Hids Hx)). done.
  Qed.
End same.

Lemma write_form c u w : nodes u !! tr_root u = Some w -> negra_write c u =
  ('(tl, nl) ← lines_of u;
   let sid := match feat_val (node_feats w) sid_key with Some s => s | None => print_nat c end in
   Ret (concat (map (fun l => l ++ [10%N])
     (((lit "#BOS " ++ sid ++ match feat_val (node_feats w) meta_key with Some m => lit "  " ++ m | None => [] end) :: tl) ++ nl ++ [lit "#EOS " ++ sid; []])),
     match feat_val (node_feats w) sid_key with Some s => c | None => c + 1 end)).
Proof.
  intros Hw. unfold negra_write, lines_of. rewrite (node_at_Some _ _ _ Hw). cbn [mbind outcome_bind].
  destruct (feat_val (node_feats w) sid_key) as [s|]; destruct (start_queue u _) as [q v];
    destruct (number_nts _ u q v _ _ _) as [[ids nts]| |]; try done; cbn [mbind outcome_bind];
    destruct (mapO (terminal_line u ids) _) as [tl| |]; try done; cbn [mbind outcome_bind];
    destruct (mapO (nonterminal_line u ids) nts) as [nl| |]; done.
Qed.
Lemma sid_of_val u w c sid c' : nodes u !! tr_root u = Some w -> sid_of u c sid c' ->
  match feat_val (node_feats w) sid_key with Some s => s | None => print_nat c end = sid /\
  match feat_val (node_feats w) sid_key with Some s => c | None => c + 1 end = c'.
Proof.
  intros Hw (w' & v & Hw' & Hv & H). assert (w' = w) as -> by congruence.
  rewrite (has_feat_fun _ _ _ _ (feat_val_has (node_feats w) sid_key) Hv). destruct v as [s|]; destruct H as [-> ->]; done.
Qed.

Definition same_meta (t t' : tree) : Prop := exists a b, nodes t !! tr_root t = Some a /\ nodes t' !! tr_root t' = Some b /\
  forall m, has_feat (node_feats a) (lit "metadata") m <-> has_feat (node_feats b) (lit "metadata") m.
Lemma same_root_meta t t' sid : same_root t t' sid -> same_meta t t'.
Proof. intros (a & b & Ha & Hb & _ & Hab). by exists (NT a), (NT b). Qed.
Lemma same_root_sid t t' sid c : same_root t t' sid -> sid_of t' c sid c.
Proof. intros (a & b & _ & Hb & Hf & _). exists (NT b), (Some sid). done. Qed.

(** ** C71 *)
(** Two trees that are the same up to node numbers have the same text, if they get the same sentence
    number and have the same metadata. *)
Theorem C71_text t t' M c c' c2 c2' sid s : WF t -> WF t' -> same_tree t t' M -> sec_one t ->
  sid_of t c sid c' -> sid_of t' c2 sid c2' -> same_meta t t' ->
  negra_write c t = Ret (s, c') <-> negra_write c2 t' = Ret (s, c2').
Proof.
  intros W W' S O Hs Hs' (a & b & Ha & Hb & Hab).
  rewrite (write_form c t a Ha), (write_form c2 t' b Hb), (m_lines t t' M W W' S O).
  destruct (sid_of_val _ _ _ _ _ Ha Hs) as [E1 E2]. destruct (sid_of_val _ _ _ _ _ Hb Hs') as [E3 E4].
  cbv zeta. rewrite E1, E2, E3, E4, (feat_val_eq (node_feats a) (node_feats b) meta_key Hab).
  destruct (lines_of t') as [[tl nl]| |]; cbn [mbind outcome_bind]; [|done|done]. split; intros [= <-]; done.
Qed.

(** A text that was written is written again, byte for byte, whoever reads it. *)
Theorem C71_stable t c : WF t -> writable t -> sec_fits t -> (N.of_nat c < usize_bound)%N ->
  exists s c' t', negra_write c t = Ret (s, c') /\ negra_read (map Some (text_lines s)) = Ret [Ok t'] /\
    forall c2, negra_write c2 t' = Ret (s, c2).
Proof.
  intros W A SF Hc. destruct (Reads_total t W) as [r D].
  destruct (C70_secondary t c r W A SF Hc D) as (s & c' & sid & t' & r' & M & H1 & H2 & H3 & H4 & H5 & H6 & _).
  exists s, c', t'. split; [done|]. split; [done|]. intros c2.
  by apply (C71_text t t' M c c' c2 c2 sid s W H3 H4 (proj2 SF) H5 (same_root_sid _ _ _ _ H6) (same_root_meta _ _ _ H6)).
Qed.

(** The same for a file of such trees: every tree comes back, and writing them again gives the same
    file, whatever the counter. *)
Theorem C71_file ts : forall c, Forall (fun t => WF t /\ writable t /\ sec_fits t) ts -> (N.of_nat (c + length ts) < usize_bound)%N ->
  exists s c' ts', written c ts s c' /\ negra_read (map Some (text_lines s)) = Ret (map Ok ts') /\
    Forall2 (fun t t' => WF t' /\ exists M, same_tree t t' M) ts ts' /\ forall c2, written c2 ts' s c2.
Proof.
  induction ts as [|t ts IH]; intros c HF Hc.
  - exists [], c, []. split_and!; [constructor|done|constructor|constructor].
  - apply Forall_cons in HF as [(W & A & SF) HF]. cbn [length] in Hc. assert (Hc0 : (N.of_nat c < usize_bound)%N) by (clear -Hc; lia).
    destruct (write_back_lines t c W A SF Hc0) as (ls & c1 & t' & M & H1 & H2 & H3 & H4 & H5).
    destruct (Reads_total t W) as [r D].
    destruct (C70_secondary t c r W A SF Hc0 D) as (s0 & c0 & sid & t0 & r' & M0 & G1 & G2 & G3 & _ & G5 & G6 & _).
    rewrite H1 in G1. injection G1 as <- <-. pose proof (eq_trans (eq_sym (read_text1 ls t' H2 H3 H4)) G2) as G2'. injection G2' as <-.
    assert (Hc1 : c1 <= c + 1). { destruct G5 as (w & [v|] & _ & _ & G5); clear -G5; lia. }
    destruct (IH c1 HF) as (s & c' & ts' & I1 & I2 & I3 & I4); [clear -Hc Hc1; lia|].
    exists (unlines (ls ++ [[]]) ++ s), c', (t' :: ts'). split; [by econstructor|].
    split; [by apply (read_text ls s [Ok t'] (map Ok ts'))|]. split; [constructor; [by eauto|done]|].
    intros c2. econstructor; [|apply I4].
    by apply (C71_text t t' M c c1 c2 c2 sid _ W G3 H5 (proj2 SF) G5 (same_root_sid _ _ _ _ G6) (same_root_meta _ _ _ G6)).
Qed.

(** Reformatting a NEGRA file whose sentences all give well-formed trees: no tree is lost or changed,
    and reformatting the result gives the result. *)
Lemma written_count ts : forall c s c', written c ts s c' -> Forall (fun t => forall sid c c', sid_of t c sid c' -> c' = c) ts ->
  Forall (fun t => exists nt, nodes t !! tr_root t = Some (NT nt)) ts -> c' = c.
Proof.
  induction ts as [|t ts IH]; intros c s c' H HF HR; inversion H as [|? ? ? s1 c1 s2 ? Hw Hr]; subst; [done|].
  apply Forall_cons in HF as [HF1 HF2]. apply Forall_cons in HR as [[nt Hnt] HR2]. rewrite (IH c1 s2 c' Hr HF2 HR2).
  rewrite (write_form c t _ Hnt) in Hw. destruct (lines_of t) as [[tl nl]| |]; [|done|done]. cbn [mbind outcome_bind] in Hw. cbv zeta in Hw.
  injection Hw as _ <-. apply (HF1 (match feat_val (nt_feats nt) sid_key with Some s => s | None => print_nat c end)).
  exists (NT nt), (feat_val (nt_feats nt) sid_key). split; [done|]. split; [apply feat_val_has|].
  cbn [node_feats]. by destruct (feat_val (nt_feats nt) sid_key).
Qed.
Theorem C71_reformat ls ts c : negra_read ls = Ret (map Ok ts) -> Forall WF ts -> (forall l, Some l ∈ ls -> 10%N ∉ l) ->
  (N.of_nat (501 + length ls) < usize_bound)%N -> (N.of_nat (c + length ts) < usize_bound)%N ->
  exists s ts', written c ts s c /\ negra_read (map Some (text_lines s)) = Ret (map Ok ts') /\
    Forall2 (fun t t' => WF t' /\ exists M, same_tree t t' M) ts ts' /\ forall c2, written c2 ts' s c2.
Proof.
  intros H HW Hnl Hsize Hc.
  assert (G : forall t, t ∈ ts -> writable t /\ sec_fits t /\ fits t /\ exists nt, nodes t !! tr_root t = Some (NT nt)).
  { intros t Ht. apply (read_ok ls (map Ok ts) t H); [by apply elem_of_list_fmap_1|by eapply Forall_forall in HW|done|done]. }
  destruct (C71_file ts c) as (s & c' & ts' & H1 & H2 & H3 & H4); [|done|].
  { apply Forall_forall. intros t Ht. split; [by eapply Forall_forall in HW|]. destruct (G t Ht) as (A & B & _). done. }
  assert (c' = c) as ->; [|by exists s, ts'].
  eapply written_count; [exact H1| |].
  - apply Forall_forall. intros t Ht sid c0 c0' (w & v & Hw & Hv & Hsv). destruct (G t Ht) as (_ & _ & F & nt & Hnt).
    assert (w = NT nt) as -> by congruence. destruct v as [v|]; [apply Hsv|]. exfalso.
    destruct F as [_ F]. specialize (F _ _ Hnt). rewrite decide_True in F by done. by apply F.
  - apply Forall_forall. intros t Ht. apply (G t Ht).
Qed.
Print Assumptions C71_text.
Print Assumptions C71_reformat.

(** ** Concrete trees *)
(** A tree with a gap, an annotation and a secondary edge, and the tree that is read from its text: the
    nodes have other numbers. *)
Example C71_text_ex : exists t' M, WF ex_negra /\ WF t' /\ same_tree ex_negra t' M /\ sec_one ex_negra /\ same_meta ex_negra t' /\
  tr_root t' <> tr_root ex_negra /\ exists s, negra_write 3 ex_negra = Ret (s, 3) /\ negra_write 8 t' = Ret (s, 8) /\ s <> [].
Proof.
  destruct C70_secondary_ex as (W & A & SF & D & _).
  destruct (C70_secondary ex_negra 3 _ W A SF ltac:(by vm_compute) D) as (s & c' & sid & t' & r' & M & H1 & H2 & H3 & H4 & H5 & H6 & _).
  assert (E : reread ex_negra = Some t'). { unfold reread. rewrite H1, H2. reflexivity. }
  assert (Hr : option_map tr_root (reread ex_negra) = Some 0) by (vm_compute; reflexivity). rewrite E in Hr. injection Hr as Hr.
  assert (Hc : match negra_write 3 ex_negra with Ret (_ :: _, c) => c | _ => 0 end = 3) by (vm_compute; reflexivity).
  rewrite H1 in Hc. destruct s as [|ch s]; [done|]. subst c'.
  exists t', M. split; [exact W|]. split; [exact H3|]. split; [exact H4|]. split; [exact (proj2 SF)|]. split; [exact (same_root_meta _ _ _ H6)|].
  split. { rewrite Hr. by vm_compute. }
  exists (ch :: s). split; [exact H1|]. split; [|done].
  by apply (C71_text ex_negra t' M 3 3 8 8 sid _ W H3 H4 (proj2 SF) H5 (same_root_sid _ _ _ _ H6) (same_root_meta _ _ _ H6)).
Qed.
Example C71_stable_ex : Forall (fun t => WF t /\ writable t /\ sec_fits t) [ex_negra; ex_negra].
Proof. destruct C70_secondary_ex as (W & A & SF & _). repeat (apply Forall_cons; split; [done|]). apply Forall_nil_2. Qed.
Example C71_reformat_ex : exists ts, negra_read (Some ex_bos :: map Some ex_body ++ [Some ex_eos]) = Ret (map Ok ts) /\ Forall WF ts /\ length ts = 1 /\
  (forall l, Some l ∈ Some ex_bos :: map Some ex_body ++ [Some ex_eos] -> 10%N ∉ l).
Proof.
  destruct C70_reread_ex as (t & [H W] & Hl & _). exists [t]. split; [exact H|]. split; [apply Forall_cons_2; [exact W|apply Forall_nil_2]|]. split; [reflexivity|exact Hl].
Qed.

(** Without the bound on secondary edges: the text depends on the order in which they were added. *)
Definition covered (t t' : tree) : bool :=
  forallb (fun r => existsb (fun r' => Nat.eqb (e_src r) (e_src r') && Nat.eqb (e_tgt r) (e_tgt r') && bool_decide (e_w r = e_w r'))%bool (edges t')) (edges t).
Lemma covered_ok t t' r : covered t t' = true -> r ∈ edges t -> exists r', r' ∈ edges t' /\ e_src r' = e_src r /\ e_tgt r' = e_tgt r /\ e_w r' = e_w r.
Proof.
  unfold covered. rewrite forallb_forall. intros H Hr%elem_of_list_In%H. apply existsb_exists in Hr as (r' & Hr' & E).
  apply andb_true_iff in E as [[E1%Nat.eqb_eq E2%Nat.eqb_eq]%andb_true_iff E3%bool_decide_eq_true]. apply elem_of_list_In in Hr'. by exists r'.
Qed.
Lemma same_by_order t t' : nodes t = nodes t' -> tr_root t = tr_root t' -> covered t t' = true -> covered t' t = true ->
  same_tree t t' (fun x x' => x = x' /\ is_Some (nodes t !! x)) \/ nodes t !! tr_root t = None.
Proof.
  intros HN HR H1 H2. destruct (nodes t !! tr_root t) as [w|] eqn:Hr; [left|by right]. split.
  - split; [done|]. rewrite Hr. eauto.
  - intros x. split; [eauto|]. by intros (? & <- & ?).
  - intros x. rewrite <- HN. split; [eauto|]. by intros (? & -> & ?).
  - by intros x y y' [<- _] [<- _].
  - by intros x x' y [-> _] [-> _].
  - intros x x' [<- [[nt|tm] Hx]]; rewrite <- HN; [right|left].
    + exists nt, nt. done.
    + exists tm, tm. done.
  - intros x y x' y' w0 [<- _] [<- _]. split; intros (r & Hr' & <- & <- & <-).
    + destruct (covered_ok t t' r H1 Hr') as (r' & ? & ? & ? & ?). by exists r'.
    + destruct (covered_ok t' t r H2 Hr') as (r' & ? & ? & ? & ?). by exists r'.
Qed.
Definition ex_order : tree :=
  build (lit "the") (lit "D")
    [OAbove 0 (lit "NP"); OPush (lit "dog") (lit "N"); OAbove 1 (lit "VROOT"); OPush (lit "barks") (lit "V");
     OAddSec 1 4 (Some (lit "X")); OAddSec 1 2 (Some (lit "Y")); OAddSec 3 2 (Some (lit "Z"))].
Theorem C71_order_refuted : exists t t' M s s', WF t /\ WF t' /\ same_tree t t' M /\ same_meta t t' /\
  negra_write 3 t = Ret (s, 4) /\ negra_write 3 t' = Ret (s', 4) /\ s <> s'.
Proof.
  assert (HN : nodes ex_two = nodes ex_order) by (vm_compute; reflexivity).
  assert (HR : tr_root ex_two = tr_root ex_order) by (vm_compute; reflexivity).
  destruct (same_by_order ex_two ex_order HN HR) as [S|Hno]; [vm_compute; reflexivity|vm_compute; reflexivity| |by vm_compute in Hno].
  assert (Hs : match negra_write 3 ex_two, negra_write 3 ex_order with
    | Ret (s, c), Ret (s', c') => (Nat.eqb c 4 && Nat.eqb c' 4 && negb (str_eqb s s'))%bool | _, _ => false end = true) by (vm_compute; reflexivity).
  destruct (negra_write 3 ex_two) as [[s c]| |] eqn:E1; [|done|done]. destruct (negra_write 3 ex_order) as [[s' c']| |] eqn:E2; [|done|done].
  apply andb_true_iff in Hs as [[->%Nat.eqb_eq ->%Nat.eqb_eq]%andb_true_iff Hs].
  exists ex_two, ex_order, (fun x x' => x = x' /\ is_Some (nodes ex_two !! x)), s, s'.
  split; [apply build_WF|]. split; [apply build_WF|]. split; [exact S|]. split.
  - destruct (nodes ex_two !! tr_root ex_two) as [w|] eqn:Hw; [|by vm_compute in Hw].
    exists w, w. split; [exact Hw|]. split; [rewrite <- HN, <- HR; exact Hw|]. intros m. reflexivity.
  - split; [exact E1|]. split; [exact E2|]. intros Es. clear -Hs Es. subst s'. unfold str_eqb in Hs. by rewrite bool_decide_eq_true_2 in Hs.
Qed.
Print Assumptions C71_order_refuted.
