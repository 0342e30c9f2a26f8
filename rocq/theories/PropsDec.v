(** Properties of decoding: C45, C46. *)
From Coq Require Import Lia.
From Verif Require Import EncModel TreeSpec BaseProofs ShapeProofs SpanProofs GraphProofs SortProofs ResetProofs RoseSpec RoseProofs
  PtbModel EqProofs TreeOps AnnotProofs Api PropsTree PtbPrint PtbBuild EncSpec EncTree EncTree2 DecPure ItProofs DecGraph.

(** The words of a sentence: the [i]-th one has position [i]. *)
Definition in_order (terms : list terminal) : Prop := map t_span terms = map span_of (seq 0 (length terms)).

(** ** C46: decoding is total

    [put_chain u tm] is [tm] with the feature [unary_chain] set to [u], if there is one. *)
Theorem C46_decode enc terms :
  length enc = length terms -> terms <> [] -> depths_pos enc -> in_order terms ->
  exists t r, EncModel.decode enc terms = Ret t /\ WF t /\ is_projective t = true /\ tr_nterm t = length terms /\
    (forall e, e ∈ edges t -> e_w e = Primary None) /\
    Reads t r /\ leaves r = zip_with (fun e tm => put_chain e.2 tm) enc terms.
Proof.
  intros HL Hne Hp Ho. destruct (decode_spec enc terms) as (t & Ht & W & Hpr & Hn & He & r & Hr & _ & Hlv);
    [lia|done| |done|by exists t, r].
  intros a u Hin. apply (Hp a u). by rewrite <- HL, firstn_all in Hin.
Qed.
Print Assumptions C46_decode.
Definition ex_terms : list terminal := [term_new (lit "a") (lit "A") 0; term_new (lit "b") (lit "B") 1; term_new (lit "c") (lit "C") 2].
(** Depth 3 leaves an unnamed node above the first two words; the last word has no ancestor. *)
Definition ex_labels : abs_enc :=
  [(Some (mk_abs 3 (lit "X")), None); (Some (mk_abs 1 (lit "S")), Some (lit "NP")); (None, None)].
Example C46_ex : length ex_labels = length ex_terms /\ ex_terms <> [] /\ depths_pos ex_labels /\ in_order ex_terms /\
  exists t, EncModel.decode ex_labels ex_terms = Ret t /\ tree_to_string Simple t = Ret (Ok (lit "(S (DUMMY (X (A a) (B b))) (C c))")).
Proof.
  split_and!; [done|done| |by vm_compute|].
  - intros a u H. unfold ex_labels in H. rewrite !elem_of_cons, elem_of_nil in H. destruct_or?; simplify_eq; simpl; lia.
  - eexists. split; [vm_compute; reflexivity|vm_compute; reflexivity].
Qed.

(** The decoded structure is the one a stack of open constituents describes (DecPure.v): words are
    attached to the top, depth [d] opens or closes constituents until [d] are open. *)
Theorem C46_shape enc terms :
  length enc = length terms -> terms <> [] -> depths_pos enc -> in_order terms ->
  exists t r, EncModel.decode enc terms = Ret t /\ Reads t r /\
    forget r = match zip enc terms with
               | [(None, u, tm)] => PL (put_chain u tm)
               | l => pfinish (foldl pstep [dummy] l)
               end.
Proof.
  intros HL Hne Hp Ho. destruct (decode_spec enc terms) as (t & Ht & W & Hpr & Hn & He & r & Hr & Hf & Hlv); [lia|done| |done|].
  { intros a u Hin. apply (Hp a u). by rewrite <- HL, firstn_all in Hin. }
  exists t, r. split_and!; [done|done|]. rewrite Hf. unfold decoded.
  assert (Hz : length (zip enc terms) = length terms) by (rewrite zip_with_length; lia).
  destruct (zip enc terms) as [|[[[?|] u] tm] [|? ?]]; try done. rewrite decide_True; [done|simpl in Hz; lia].
Qed.
Print Assumptions C46_shape.

(** The limits: depth 0, no words, words that do not carry their positions. *)
Example C46_zero : EncModel.decode [(Some (mk_abs 0 (lit "S")), None); (None, None); (None, None)] ex_terms = Panic.
Proof. by vm_compute. Qed.
Example C46_empty : EncModel.decode [] [] = Panic.
Proof. by vm_compute. Qed.
Theorem C46_positions_refuted : exists enc terms t,
  length enc = length terms /\ terms <> [] /\ depths_pos enc /\ EncModel.decode enc terms = Ret t /\ ~ WF t.
Proof.
  exists [(Some (mk_abs 1 (lit "S")), None); (None, None)],
         [term_new (lit "a") (lit "A") 0; term_new (lit "b") (lit "B") 0]. eexists. split_and!; [done|done| |vm_compute; reflexivity|].
  - intros a u H. rewrite !elem_of_cons, elem_of_nil in H. destruct_or?; simplify_eq; simpl; lia.
  - intros [G Sh Tm Nt Nd]. discriminate (to_inj _ _ Tm 1 2 0); eexists; (split; [vm_compute; reflexivity|done]).
Qed.
Print Assumptions C46_positions_refuted.

(** ** C45: decoding inverts encoding *)
(** Same label and span; of the annotations only the chain label is kept. *)
Definition nt_kept (a b : nonterminal) : Prop :=
  nt_label a = nt_label b /\ nt_span a = nt_span b /\
  nt_feats b = match chain_in (nt_feats a) with Some c => Some {[ lit "unary_chain" := Some c ]} | None => None end.
Lemma pt_of_leaves r : pleaves (pt_of r) = leaves r.
Proof.
  induction r as [tm|nt cs IH] using rose_ind'; simpl; [done|]. f_equal. rewrite map_map. apply map_ext_in.
  intros c Hc%elem_of_list_In. rewrite Forall_forall in IH. auto.
Qed.
Lemma skel_rel t1 t2 : WF t1 -> WF t2 -> (forall e, e ∈ edges t2 -> e_w e = Primary None) ->
  forall n1 r1, Den (nodes t1) (edges t1) n1 r1 -> forall n2 r2, Den (nodes t2) (edges t2) n2 r2 -> forget r2 = pt_of r1 ->
  rose_rel eq nt_kept (fun _ l => l = None) r1 r2.
Proof.
  intros W1 W2 Hpl n1 r1 D1. induction D1 as [n1 tm H1|n1 nt l cs H1 Hl HS HF] using Den_ind'; intros n2 r2 D2 E.
  - inversion D2; subst; simpl in E; [|done]. injection E as ->. by constructor.
  - pose proof D2 as D2'. inversion D2' as [|? nt2 l2 cs2 H2 Hl2 HS2 HF2]; subst; simpl in E; [done|]. injection E as El Ef Ec.
    constructor.
    + split_and!; [done| |].
      * pose proof W1 as [G1 Sh1 Tm1 Nt1 _]. pose proof W2 as [G2 Sh2 Tm2 Nt2 _].
        change (node_span (NT nt) = node_span (NT nt2)).
        destruct (node_span_ok _ _ _ _ _ _ Sh1 Tm1 Nt1 H1) as [O1 C1]. destruct (node_span_ok _ _ _ _ _ _ Sh2 Tm2 Nt2 H2) as [O2 C2].
        apply span_ext; [done|done|]. intros i. rewrite C1, C2.
        assert (D1 : Den (nodes t1) (edges t1) n1 (RNode nt cs)) by (econstructor; [done|done|done|]; eapply Forall2_impl; [exact HF|]; naive_solver).
        rewrite (Den_yields _ _ _ W1 D1), (Den_yields _ _ _ W2 D2).
        assert (Hlv : leaves (RNode nt cs) = leaves (RNode nt2 cs2)); [|by rewrite Hlv].
        rewrite <- (pt_of_leaves (RNode nt cs)), <- (leaves_forget (RNode nt2 cs2)). simpl. by rewrite Ec.
      * rewrite Ef. unfold chain_feats. destruct (chain_in (nt_feats nt)); [|done]. by rewrite insert_empty.
    + apply Forall2_same_length_lookup.
      assert (HL : length cs = length cs2) by (by apply (f_equal length) in Ec; rewrite !map_length in Ec).
      split; [done|]. intros i c d Hc Hd.
      apply Forall2_lookup_r with (i := i) (y := d) in HF2 as (e2 & He2 & Hlab & Hd2); [|done]. split.
      * rewrite Hlab. apply elem_of_list_lookup_2, Hl2 in He2 as (He2 & _ & _). by rewrite (Hpl _ He2).
      * apply (Forall2_lookup_r _ _ _ _ _ HF) in Hc as Hc'. destruct Hc' as (e1 & He1 & _ & _ & IHc).
        apply (IHc _ _ Hd2). apply (f_equal (fun m => m !! i)) in Ec. rewrite !list_lookup_fmap, Hc, Hd in Ec. by injection Ec.
Qed.
Lemma rose_enc_pos t r : WF t -> is_projective t = true -> Reads t r -> depths_pos (rose_enc r).
Proof. intros W Hp Hr. by apply (encode_absolute_depths t), (encode_absolute_rose t r). Qed.
Lemma leaves_in_order t r : WF t -> is_projective t = true -> Reads t r -> in_order (leaves r).
Proof.
  intros W Hp Hr. unfold in_order. pose proof (Reads_positions t r W Hp Hr) as HP.
  assert (HL : length (leaves r) = tr_nterm t) by (by apply (f_equal length) in HP; rewrite map_length, seq_length in HP).
  rewrite HL, <- HP, map_map. apply map_ext_in. intros tm Htm%elem_of_list_In.
  pose proof W as [G Sh Tm Nt Nd]. apply (Den_leaves t _ _ W Hr) in Htm as (m & _ & Hm).
  destruct (to_pos _ _ Tm m tm Hm) as (j & Hj & _). unfold t_idx. by rewrite Hj.
Qed.
Lemma leaves_two nt cs : decodable (RNode nt cs) -> 2 <= length (leaves (RNode nt cs)).
Proof.
  intros (Hk & _ & Hd)%decodable_node. destruct cs as [|c [|c' cs]]; [simpl in Hk; lia|simpl in Hk; lia|].
  inversion Hd as [|?? H1 Hd']; subst. inversion Hd' as [|?? H2 _]; subst. simpl. rewrite !app_length.
  pose proof (leaves_pos _ H1). pose proof (leaves_pos _ H2). lia.
Qed.
(** Decoding the encoding of a projective tree in which every inner node has two children or more and
    no label contains ["_"] gives back the nesting, the words with all their data, and label, span and
    chain of every inner node.  Edge labels and secondary edges are not encoded. *)
Theorem C45_decode_encode t r :
  WF t -> is_projective t = true -> Reads t r -> decodable r ->
  exists e t' r', encode_absolute t = Ret (Ok e) /\ EncModel.decode e (leaves r) = Ret t' /\
    WF t' /\ is_projective t' = true /\ tr_nterm t' = tr_nterm t /\ Reads t' r' /\
    rose_rel eq nt_kept (fun _ l => l = None) r r'.
Proof.
  intros W Hp Hr Hd. pose proof (encode_absolute_rose t r W Hp Hr) as He. pose proof (Reads_positions t r W Hp Hr) as HP.
  assert (HL : length (leaves r) = tr_nterm t) by (by apply (f_equal length) in HP; rewrite map_length, seq_length in HP).
  pose proof (leaves_pos r Hd) as H1.
  destruct (decode_spec (rose_enc r) (leaves r)) as (t' & Ht' & W' & Hp' & Hn' & Hpl & r' & Hr' & Hf & _).
  { by rewrite rose_enc_len. }
  { intros E. rewrite E in H1. simpl in H1. lia. }
  { intros a u Hin. apply (rose_enc_pos t r W Hp Hr a u). eapply elem_of_take in Hin as (i & Hi & _). by eapply elem_of_list_lookup_2. }
  { by apply (leaves_in_order t). }
  exists (rose_enc r), t', r'. split_and!; try done; [by rewrite Hn'|].
  apply (skel_rel t t' W W' Hpl _ _ Hr _ _ Hr'). rewrite Hf. unfold decoded.
  rewrite rose_enc_entries by done. destruct r as [tm|nt cs].
  - simpl. by rewrite put_chain_same.
  - pose proof (leaves_two nt cs Hd) as H2. rewrite <- (decode_rose nt cs Hd).
    assert (Hz : length (r_entries 0 (RNode nt cs) None) = length (leaves (RNode nt cs))).
    { rewrite <- rose_enc_entries by done. rewrite zip_with_length, rose_enc_len by done. lia. }
    destruct (r_entries 0 (RNode nt cs) None) as [|[[[?|] u] tm] [|? ?]]; try done. simpl in Hz, H2. lia.
Qed.
Print Assumptions C45_decode_encode.

(** With no edge labels and no further annotations the trees are equal in the sense of [==]. *)
Fixpoint bare (r : rose) : Prop :=
  match r with
  | RLeaf _ => True
  | RNode nt cs => default ∅ (nt_feats nt) = match chain_in (nt_feats nt) with Some c => {[ lit "unary_chain" := Some c ]} | None => ∅ end /\
      foldr (fun c Q => c.1 = None /\ bare c.2 /\ Q) True cs
  end.
Lemma bare_similar r : forall r', bare r -> rose_rel eq nt_kept (fun _ l => l = None) r r' -> similar r r'.
Proof.
  induction r as [tm|nt cs IH] using rose_ind'; intros r' Hb H; inversion H as [? b ->|? b ? ds Hk HF]; subst; constructor.
  - done.
  - destruct Hk as (Hl & Hs & Hf). split; [done|]. unfold same_feats. rewrite Hf. destruct Hb as [Hb _]. rewrite Hb.
    by destruct (chain_in (nt_feats nt)).
  - destruct Hb as [_ Hb]. clear -IH Hb HF. induction HF as [|c d cs ds [H1 H2] HF IHF]; [constructor|].
    apply Forall_cons in IH as [IHc IH]. destruct Hb as (Hc & Hbc & Hb). constructor; [|by apply IHF].
    split; [by rewrite Hc, H1|by apply IHc].
Qed.
Theorem C45_equal t r :
  WF t -> is_projective t = true -> Reads t r -> decodable r -> bare r ->
  exists e t', encode_absolute t = Ret (Ok e) /\ EncModel.decode e (leaves r) = Ret t' /\ tree_eqb t t' = Ret true.
Proof.
  intros W Hp Hr Hd Hb. destruct (C45_decode_encode t r W Hp Hr Hd) as (e & t' & r' & He & Ht' & W' & _ & _ & Hr' & Hrel).
  exists e, t'. split_and!; [done|done|]. destruct (tree_eqb_spec t t' r r' W W' Hr Hr') as (b & Hb' & Hiff).
  rewrite Hb'. f_equal. apply Hiff. left. by apply bare_similar.
Qed.
Print Assumptions C45_equal.
(** (S (NP the dog) barks loudly) *)
Definition ex_flat : tree :=
  build (lit "the") (lit "D")
    [OAbove 0 (lit "NP"); OPush (lit "dog") (lit "N"); OAbove 1 (lit "S"); OPush (lit "barks") (lit "V"); OPush (lit "loudly") (lit "ADV")].
Example C45_ex : WF ex_flat /\ is_projective ex_flat = true /\ Reads ex_flat (rose_of ex_flat) /\ decodable (rose_of ex_flat) /\
  bare (rose_of ex_flat) /\ length (leaves (rose_of ex_flat)) = 4.
Proof.
  assert (W : WF ex_flat) by apply build_WF. split_and!; [done|by vm_compute|by apply rose_of_ok| |by vm_compute|by vm_compute].
  assert (E : rose_of ex_flat = rose_of ex_flat) by done. revert E. generalize (rose_of ex_flat) at 1 3. intros r Hr. vm_compute in Hr.
  rewrite Hr. simpl. rewrite !elem_of_cons, !elem_of_nil. split_and!; try lia; intros ?; destruct_or?; done.
Qed.
(** Without the guard on labels: the part before the last ["_"] of [A_B] is taken for a chain. *)
Theorem C45_label_refuted : exists t e t', WF t /\ is_projective t = true /\ encode_absolute t = Ret (Ok e) /\
  EncModel.decode e (leaves (rose_of t)) = Ret t' /\
  tree_to_string Simple t = Ret (Ok (lit "(A_B (D the) (N dog))")) /\ tree_to_string Simple t' = Ret (Ok (lit "(B (D the) (N dog))")).
Proof.
  set (t := build (lit "the") (lit "D") [OAbove 0 (lit "A_B"); OPush (lit "dog") (lit "N")]).
  exists t. eexists _, _. split_and!; [apply build_WF|by vm_compute|vm_compute; reflexivity|vm_compute; reflexivity|by vm_compute|by vm_compute].
Qed.
Print Assumptions C45_label_refuted.
