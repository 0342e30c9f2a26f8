(** Reading a tree back from a CONLL-X sentence. *)
From Coq Require Import Lia ZArith.
From Verif Require Import ConllModel TreeSpec BaseProofs SpanProofs FeatProofs ShapeProofs GraphProofs SortProofs EditProofs
  CollapseProofs RestoreProofs RoseSpec RoseProofs TreeOps EncSpec EncConv EncTree EncTree2 DecPure ItProofs DecGraph ExpProofs PropsEnc PropsDec PropsConll.

(** ** The nodes of a reading *)
Fixpoint rnodes (r : rose) : list node :=
  match r with
  | RLeaf tm => [T tm]
  | RNode nt cs => NT nt :: concat (map (fun c => rnodes c.2) cs)
  end.
Lemma Den_rnodes t n r : WF t -> Den (nodes t) (edges t) n r ->
  forall w, w ∈ rnodes r <-> exists m, Dom (edges t) n m /\ nodes t !! m = Some w.
Proof.
  intros [G Sh Tm Nt Nd]. revert n r.
  apply (Den_ind' (nodes t) (edges t) (fun n r => forall w, w ∈ rnodes r <-> exists m, Dom (edges t) n m /\ nodes t !! m = Some w)).
  - intros n tm H w. simpl. rewrite elem_of_list_singleton. split.
    + intros ->. by exists n.
    + intros (m & Hm & E). pose proof (term_Dom Sh n tm m H Hm) as ->. congruence.
  - intros n nt l cs H1 H2 H3 H4 w. simpl. rewrite elem_of_cons. split.
    + intros [->|Hin]; [by exists n|]. apply elem_of_concat in Hin as (ls & Htm & Hls).
      apply elem_of_list_fmap in Hls as (c & -> & Hc). apply elem_of_list_lookup in Hc as [i Hc].
      destruct (Forall2_lookup_r _ _ _ _ _ H4 Hc) as (e & He & E & D & IH).
      apply IH in Htm as (m & Hm & Ht). exists m. split; [|done].
      apply elem_of_list_lookup_2, H2 in He as (He1 & He2 & He3). eapply rtc_l; [|exact Hm]. by exists e.
    + intros (m & Hm & Ht). inversion Hm as [|? c ? Hc Hcm]; subst; [left; congruence|right].
      destruct Hc as (e & He1 & He2 & He3 & He4).
      assert (e ∈ l) as [i Hi]%elem_of_list_lookup by (by apply H2).
      destruct (Forall2_lookup_l _ _ _ _ _ H4 Hi) as (d & Hd & E & D & IH).
      apply elem_of_concat. exists (rnodes d.2). split.
      * apply IH. exists m. split; [by subst|done].
      * apply elem_of_list_fmap. exists d. split; [done|]. by apply elem_of_list_lookup_2 in Hd.
Qed.
Lemma Reads_rnodes t r w : WF t -> Reads t r -> w ∈ rnodes r <-> exists n, nodes t !! n = Some w.
Proof.
  intros W Hr. rewrite (Den_rnodes t _ r W Hr). split; [naive_solver|]. intros [n Hn]. exists n. split; [|done].
  apply (sh_reach _ _ _ (wf_shape _ W)). eauto.
Qed.
Lemma leaves_rnodes r tm : tm ∈ leaves r <-> T tm ∈ rnodes r.
Proof.
  induction r as [tm'|nt cs IH] using rose_ind'; simpl.
  - rewrite !elem_of_list_singleton. naive_solver.
  - rewrite elem_of_cons, !elem_of_concat. rewrite Forall_forall in IH. split.
    + intros (l & Hl & (c & -> & Hc)%elem_of_list_fmap). right. exists (rnodes c.2). split; [by apply IH|].
      apply elem_of_list_fmap. eauto.
    + intros [?|(l & Hl & (c & -> & Hc)%elem_of_list_fmap)]; [done|]. exists (leaves c.2). split; [by apply IH|].
      apply elem_of_list_fmap. eauto.
Qed.
Lemma elem_of_interleave {A} (x y : A) ls : y ∈ interleave x ls -> y = x \/ exists l, l ∈ ls /\ y ∈ l.
Proof.
  induction ls as [|l ls IH]; simpl; [set_solver|]. destruct ls as [|l' ls]; [set_solver|].
  rewrite elem_of_app, elem_of_cons. intros [H|[H|H]]; [right; exists l; set_solver|by left|].
  destruct (IH H) as [?|(l0 & ? & ?)]; [by left|right; exists l0; set_solver].
Qed.
Lemma gaps_label r : forall d a, a ∈ gaps d r -> exists nt, NT nt ∈ rnodes r /\ ab_label a = full_label nt.
Proof.
  induction r as [tm|nt cs IH] using rose_ind'; intros d a; simpl; [set_solver|].
  intros [->|(l & (c & -> & Hc)%elem_of_list_fmap & Ha)]%elem_of_interleave.
  - exists nt. split; [set_solver|done].
  - rewrite Forall_forall in IH. destruct (IH c Hc _ _ Ha) as (nt' & Hn & E). exists nt'. split; [|done].
    apply elem_of_cons. right. apply elem_of_concat. eexists. split; [done|]. apply elem_of_list_fmap. eauto.
Qed.

(** ** Terminals without annotations *)
Fixpoint mapleaf (f : terminal -> terminal) (r : rose) : rose :=
  match r with RLeaf tm => RLeaf (f tm) | RNode nt cs => RNode nt (map (fun c => (c.1, mapleaf f c.2)) cs) end.
Lemma mapleaf_leaves f r : leaves (mapleaf f r) = map f (leaves r).
Proof.
  induction r as [tm|nt cs IH] using rose_ind'; simpl; [done|]. rewrite map_map, concat_map, map_map. f_equal.
  apply map_ext_in. intros c Hc%elem_of_list_In. rewrite Forall_forall in IH. simpl. auto.
Qed.
Lemma mapleaf_gaps f r : forall d, gaps d (mapleaf f r) = gaps d r.
Proof.
  induction r as [tm|nt cs IH] using rose_ind'; intros d; simpl; [done|]. rewrite map_map. f_equal.
  apply map_ext_in. intros c Hc%elem_of_list_In. rewrite Forall_forall in IH. simpl. auto.
Qed.
Lemma mapleaf_decodable f r : decodable r -> decodable (mapleaf f r).
Proof.
  induction r as [tm|nt cs IH] using rose_ind'; [done|]. intros (H1 & H2 & H3)%decodable_node. cbn [mapleaf].
  apply decodable_node. rewrite map_length. split_and!; [done|done|]. rewrite Forall_forall in IH. rewrite Forall_forall in H3.
  apply Forall_forall. intros x (c & -> & Hc)%elem_of_list_fmap. simpl. auto.
Qed.
Definition plain (tm : terminal) : terminal := term_new (t_form tm) (t_pos tm) (t_idx tm).
Definition chained (tm : terminal) : terminal := put_chain (chain_in (t_feats tm)) (plain tm).
Lemma chained_chain tm : chain_in (t_feats (chained tm)) = chain_in (t_feats tm).
Proof. unfold chained. destruct (chain_in (t_feats tm)) as [c|] eqn:E; simpl; [|done]. by rewrite lookup_insert. Qed.
Lemma chained_put tm : put_chain (chain_in (t_feats tm)) (chained tm) = chained tm.
Proof. unfold chained. destruct (chain_in (t_feats tm)) as [c|]; simpl; [|done]. by rewrite insert_insert. Qed.
Lemma chained_enc r : rose_enc (mapleaf chained r) = rose_enc r.
Proof.
  unfold rose_enc. rewrite mapleaf_gaps, mapleaf_leaves, map_map. f_equal. apply map_ext. apply chained_chain.
Qed.
Lemma decoded_rose r : decodable r -> decoded (rose_enc r) (leaves r) = pt_of r.
Proof.
  intros Hd. unfold decoded. rewrite rose_enc_entries by done. destruct r as [tm|nt cs].
  - simpl. by rewrite put_chain_same.
  - pose proof (leaves_two nt cs Hd) as H2. rewrite <- (decode_rose nt cs Hd).
    assert (Hz : length (r_entries 0 (RNode nt cs) None) = length (leaves (RNode nt cs))).
    { rewrite <- rose_enc_entries by done. rewrite zip_with_length, rose_enc_len by done. lia. }
    destruct (r_entries 0 (RNode nt cs) None) as [|[[[?|] u] tm] [|? ?]]; try done. simpl in Hz, H2. lia.
Qed.
Lemma decoded_ext enc l l' :
  length l = length l' -> (forall i x a b, enc !! i = Some x -> l !! i = Some a -> l' !! i = Some b -> put_chain x.2 a = put_chain x.2 b) ->
  decoded enc l = decoded enc l'.
Proof.
  intros HL H. unfold decoded. rewrite <- HL.
  assert (Hz : forall st, foldl pstep st (zip enc l) = foldl pstep st (zip enc l')).
  { clear -HL H. revert l l' HL H. induction enc as [|x enc IH]; intros [|a l] [|b l'] HL H st; try done. simpl.
    rewrite (IH l l'); [|simpl in HL; lia|intros i; apply (H (S i))]. f_equal. unfold pstep. simpl.
    f_equal. f_equal. by apply (H 0). }
  specialize (Hz [dummy]). apply (f_equal pfinish) in Hz. revert Hz.
  destruct enc as [|x enc]; [done|]. destruct l as [|a l], l' as [|b l']; try done. intros Hz.
  pose proof (H 0 _ _ _ eq_refl eq_refl eq_refl) as H0. simpl in H0.
  destruct x as [[x|] u]; [exact Hz|]. simpl in H0.
  destruct enc as [|y enc], l as [|a' l], l' as [|b' l']; try (simpl in HL; lia); cbn [zip_with zip] in Hz |- *; try exact Hz;
    (case_decide; [by rewrite H0|exact Hz]).
Qed.
Lemma decoded_plain r : decodable r -> decoded (rose_enc r) (map plain (leaves r)) = pt_of (mapleaf chained r).
Proof.
  intros Hd. rewrite <- (decoded_rose _ (mapleaf_decodable chained r Hd)), chained_enc, mapleaf_leaves.
  apply decoded_ext; [by rewrite !map_length|]. intros i x a b Hx Ha Hb.
  rewrite list_lookup_fmap in Ha, Hb. destruct (leaves r !! i) as [tm|] eqn:E; [|done]. injection Ha as <-. injection Hb as <-.
  unfold rose_enc in Hx. apply lookup_zip_with_Some in Hx as (o & c & -> & _ & Hc). rewrite list_lookup_fmap, E in Hc. injection Hc as <-.
  simpl. rewrite chained_put. done.
Qed.

Lemma chain_labels_in d w w' : chain_in (node_feats w) = chain_in (node_feats w') -> chain_labels d w = chain_labels d w'.
Proof.
  assert (H : forall w, chain_labels d w = match chain_in (node_feats w) with Some c => split_str d c | None => [] end).
  { clear. intros w. unfold chain_labels, chain_feat, chain_in. change unary_chain with (lit "unary_chain").
    generalize (lit "unary_chain"). intros k. destruct (node_feats w) as [m|]; simpl; [|done]. by destruct (m !! k) as [[c|]|]. }
  intros E. by rewrite !H, E.
Qed.
Lemma expand_forget d r r' :
  (forall tm, tm ∈ leaves r -> t_span tm = span_of (t_idx tm)) -> forget r' = pt_of (mapleaf chained r) -> expand d r' = expand d r.
Proof.
  revert r'. induction r as [tm|nt cs IH] using rose_ind'; intros r' Hsp Hf.
  - destruct r' as [tm'|]; [|done]. simpl in Hf. injection Hf as ->. simpl.
    rewrite (chain_labels_in d (T (chained tm)) (T tm)) by (simpl; apply chained_chain).
    f_equal. unfold chained. destruct (chain_in (t_feats tm)); simpl; f_equal; rewrite (Hsp tm); simpl; set_solver.
  - destruct r' as [|nt' cs']; [done|]. simpl in Hf. injection Hf as Hl Hfe Hc. simpl.
    rewrite (chain_labels_in d (NT nt') (NT nt)).
    2:{ simpl. rewrite Hfe. destruct (chain_in (nt_feats nt)); simpl; [|done]. by rewrite lookup_insert. }
    rewrite Hl. f_equal. f_equal. rewrite map_map in Hc. clear Hl Hfe.
    revert cs' Hc. induction cs as [|c cs IHc]; intros [|c' cs'] Hc; try done. simpl in Hc. injection Hc as H1 H2.
    apply Forall_cons in IH as [IH0 IH]. simpl. f_equal.
    + apply IH0; [|done]. intros tm Htm. apply Hsp. simpl. set_solver.
    + apply IHc; [done| |done]. intros tm Htm. apply Hsp. simpl in *. set_solver.
Qed.
Lemma forget_chain_feat r r' : forget r' = pt_of (mapleaf chained r) -> forall w, w ∈ rnodes r' -> chain_feat w <> Some None.
Proof.
  revert r'. induction r as [tm|nt cs IH] using rose_ind'; intros r' Hf w Hw.
  - destruct r' as [tm'|]; [|done]. simpl in Hf. injection Hf as ->. simpl in Hw. apply elem_of_list_singleton in Hw as ->.
    unfold chain_feat, chained. change unary_chain with (lit "unary_chain").
    destruct (chain_in (t_feats tm)); simpl; [|done]. by rewrite lookup_insert.
  - destruct r' as [|nt' cs']; [done|]. simpl in Hf. injection Hf as Hl Hfe Hc. simpl in Hw. apply elem_of_cons in Hw as [->|Hw].
    + unfold chain_feat. simpl. rewrite Hfe. destruct (chain_in (nt_feats nt)); simpl; [|done].
      change unary_chain with (lit "unary_chain"). by rewrite lookup_insert.
    + apply elem_of_concat in Hw as (l & Hw & (c' & -> & [i Hi]%elem_of_list_lookup)%elem_of_list_fmap).
      apply (f_equal (fun l => l !! i)) in Hc. rewrite map_map in Hc. rewrite !list_lookup_fmap, Hi in Hc. simpl in Hc.
      destruct (cs !! i) as [c|] eqn:Ec; [|done]. injection Hc as Hc. rewrite Forall_forall in IH.
      apply (IH c) with (r' := c'.2); [by eapply elem_of_list_lookup_2|done|done].
Qed.

(** ** Decoding and restoring *)
Lemma decode_restore_ok t r :
  WF t -> is_projective t = true -> Reads t r -> decodable r ->
  exists t' r', decode_restore (rose_enc r) (map plain (leaves r)) = Ret (Ok t') /\ WF t' /\ is_projective t' = true /\
    tr_nterm t' = tr_nterm t /\ Reads t' r' /\ shape r' = expand (lit "_") r.
Proof.
  intros W Hp Hr Hd. pose proof (leaves_pos r Hd) as H1. pose proof (leaves_in_order t r W Hp Hr) as Hord.
  assert (Hsp : forall tm, tm ∈ leaves r -> t_span tm = span_of (t_idx tm)).
  { intros tm Htm. apply (Den_leaves t _ _ W Hr) in Htm as (m & _ & Hm).
    destruct (to_pos _ _ (wf_terms _ W) m tm Hm) as (j & Hj & _). unfold t_idx. by rewrite Hj. }
  destruct (decode_spec (rose_enc r) (map plain (leaves r))) as (t3 & Ht3 & W3 & Hp3 & Hn3 & _ & r3 & Hr3 & Hf & _).
  { rewrite map_length. by rewrite rose_enc_len. }
  { intros E. apply (f_equal length) in E. rewrite map_length in E. simpl in E. lia. }
  { intros a u Hin. apply (rose_enc_pos t r W Hp Hr a u). eapply elem_of_take in Hin as (i & Hi & _). by eapply elem_of_list_lookup_2. }
  { rewrite map_length, map_map. rewrite <- Hord. apply map_ext_in. intros tm Htm%elem_of_list_In. simpl. by rewrite <- Hsp. }
  rewrite (decoded_plain r Hd) in Hf.
  destruct (restore_reads (lit "_") t3 r3 W3 Hp3) as (t4 & r4 & Ht4 & W4 & Hp4 & Hn4 & Hr4 & Hs4); [|done|].
  { intros n w Hn. apply (forget_chain_feat r r3 Hf). apply (Reads_rnodes t3 r3 w W3 Hr3). eauto. }
  exists t4, r4. unfold decode_restore. rewrite Ht3. cbn [mbind outcome_bind]. rewrite Ht4. cbn [mbind outcome_bind].
  split_and!; try done.
  - rewrite Hn4, Hn3, map_length. pose proof (Reads_positions t r W Hp Hr) as HP. apply (f_equal length) in HP.
    by rewrite map_length, seq_length in HP.
  - rewrite Hs4. by apply expand_forget.
Qed.

(** ** Tokens *)
Lemma feats_as_map_print m : m <> ∅ -> feats_ok m -> feats_as_map (feats_to_string m) = m.
Proof.
  intros Hne Hok. unfold feats_as_map, feats_to_string.
  set (l := feats_iter m). assert (Hp : l ≡ₚ map_to_list m) by apply sort_by_perm.
  assert (Hl : forall kv, kv ∈ l -> feat_str_ok kv.1 /\ match kv.2 with Some v => feat_str_ok v | None => kv.1 <> [] end).
  { intros [k v] Hin. rewrite Hp in Hin. apply elem_of_map_to_list in Hin. by apply Hok. }
  rewrite split_char_join.
  - rewrite map_map, (map_ext_in _ (fun x => x)).
    + rewrite map_id. by apply feats_from_iter_perm.
    + intros kv Hin. apply elem_of_list_In in Hin. destruct (Hl _ Hin) as [Hk Hv].
      apply feat_piece_print; [done|]. intros v E'. by rewrite E' in Hv.
  - intros E. apply Hne. apply map_to_list_empty_iff. apply Permutation_nil_r. rewrite <- Hp. destruct l; done.
  - intros p Hin. apply elem_of_list_fmap in Hin as ([k v] & -> & Hin).
    destruct (Hl _ Hin) as [[Hk _] Hv]. simpl in *. unfold feat_print. simpl.
    destruct v as [v|]; [|done]. destruct Hv as [Hv _]. set_solver by done.
Qed.
Lemma str_eqb_spec a b : str_eqb a b = true <-> a = b.
Proof. unfold str_eqb. by rewrite bool_decide_eq_true. Qed.
Lemma read_tag_ok {A} (show : A -> str) key try_from k m (x : option A * option str) :
  k_feats k = Some (feats_to_string m) -> feats_ok m -> m !! key = Some (Some (entry_text show x)) ->
  (forall c, x.2 = Some c -> c <> [] /\ tilde ∉ c) ->
  (forall a, x.1 = Some a -> tilde ∉ show a /\ show a <> lit "NONE" /\ try_from (show a) = Ok a) ->
  read_tag key try_from k = Ok x.
Proof.
  intros Hk Hok Hm Hc Ha. unfold read_tag. rewrite Hk, feats_as_map_print, Hm; [| |done].
  2:{ intros ->. by rewrite lookup_empty in Hm. }
  destruct x as [o u]. unfold entry_text. cbn [fst snd] in *.
  set (hd := match o with None => lit "NONE" | Some a => show a end).
  assert (Hhd : tilde ∉ hd). { unfold hd. destruct o as [a|]; [by apply Ha|]. apply (bool_decide_unpack _). by vm_compute. }
  assert (Hsp : split_char tilde (hd ++ match u with None => [] | Some c => lit "~" ++ c end) =
                hd :: match u with None => [] | Some c => [c] end).
  { destruct u as [c|].
    - change (lit "~" ++ c) with (tilde :: c). rewrite split_char_app by done. f_equal. apply split_char_none. by apply Hc.
    - rewrite app_nil_r. by apply split_char_none. }
  match goal with |- context [split_char tilde ?x] =>
    replace (split_char tilde x) with (hd :: match u with None => [] | Some c => [c] end) by (symmetry; exact Hsp) end. cbn zeta.
  assert (Hch : match match u with None => [] | Some c => [c] end with c :: _ => if str_eqb c [] then None else Some c | [] => None end = u).
  { destruct u as [c|]; [|done]. destruct (str_eqb c []) eqn:E; [|done]. apply str_eqb_spec in E. by destruct (Hc c eq_refl). }
  rewrite Hch. unfold hd. destruct o as [a|].
  - destruct (Ha a eq_refl) as (_ & Hn & ->). destruct (str_eqb (show a) (lit "NONE")) eqn:E; [|done]. by apply str_eqb_spec in E.
  - done.
Qed.
Lemma read_tokens_ok {A} key (try_from : str -> result A) : forall toks e idx,
  Forall2 (fun k x => read_tag key try_from k = Ok x) toks e ->
  read_tokens key try_from idx toks = Ok (e, imap (fun i k => term_new (k_form k) (default (lit "_") (k_pos k)) (idx + i)) toks).
Proof.
  induction toks as [|k toks IH]; intros e idx HF; inversion HF as [|? x ? e' Hx HF']; subst; [done|].
  cbn [read_tokens]. rewrite Hx, (IH e' (S idx) HF'). simpl. rewrite Nat.add_0_r. do 3 f_equal.
  apply imap_ext. intros i y _. simpl. f_equal. lia.
Qed.
