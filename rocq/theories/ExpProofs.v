(** Readings of trees with expanded unary chains. *)
From Coq Require Import Lia.
From Verif Require Import EncModel TreeSpec BaseProofs SpanProofs ShapeProofs GraphProofs SortProofs EditProofs CollapseProofs
  RestoreProofs RoseSpec RoseProofs TreeOps DfsProofs ResetProofs ShapeOps UnaryProofs.

Notation ctop := RestoreProofs.top.

(** What is compared: nesting, labels, forms, tags and positions. *)
Inductive ltree := LL (form pos : str) (s : span) | LN (label : str) (cs : list ltree).
Fixpoint shape (r : rose) : ltree :=
  match r with
  | RLeaf tm => LL (t_form tm) (t_pos tm) (t_span tm)
  | RNode nt cs => LN (nt_label nt) (map (fun c => shape c.2) cs)
  end.
Definition wrapl (ls : list str) (x : ltree) : ltree := foldl (fun x l => LN l [x]) x ls.
Fixpoint expand (d : str) (r : rose) : ltree :=
  match r with
  | RLeaf tm => wrapl (chain_labels d (T tm)) (LL (t_form tm) (t_pos tm) (t_span tm))
  | RNode nt cs => wrapl (chain_labels d (NT nt)) (LN (nt_label nt) (map (fun c => expand d c.2) cs))
  end.
(** Same kind and same data. *)
Definition looks (w1 w2 : node) : Prop :=
  match w1, w2 with
  | NT a, NT b => nt_label a = nt_label b
  | T a, T b => t_form a = t_form b /\ t_pos a = t_pos b /\ t_span a = t_span b
  | _, _ => False
  end.

Section exp.
  Context (d : str) (t1 t2 : tree) (E : nat -> list nat).
  Hypothesis (Hlive : forall p c, PE (edges t1) p c -> is_Some (nodes t1 !! p) /\ is_Some (nodes t1 !! c)).
  Hypothesis (X : expansion t1 E t2).
  Hypothesis (Hc : forall n w1, nodes t1 !! n = Some w1 -> exists w2, nodes t2 !! n = Some w2 /\ looks w1 w2 /\
    Forall2 (fun x s => exists nt, nodes t2 !! x = Some (NT nt) /\ nt_label nt = s) (E n) (chain_labels d w1)).
  Hypothesis (Hs : forall n, is_Some (nodes t1 !! n) -> first_pos (nodes t2) (ctop n (E n)) = first_pos (nodes t1) n).

  Lemma exp_link n k x y b : is_Some (nodes t1 !! n) -> E n !! k = Some x -> (n :: E n) !! k = Some y ->
    PE (edges t2) x b <-> b = y.
  Proof.
    intros Hn Hx Hy. rewrite (ex_PE _ _ _ X). split.
    - intros [(m & Hm & Ha)|(m & Hp & _)].
      + assert (m = n) as ->.
        { apply (ex_disj _ _ _ X m n x Hm Hn); [apply adj_elem in Ha; set_solver|]. apply elem_of_list_lookup_2 in Hx. set_solver. }
        apply adj_lookup in Ha as (j & Hj & Hj').
        assert (j = k) as ->; [|congruence].
        pose proof (ex_nodup _ _ _ X n Hn) as Hnd. apply NoDup_cons in Hnd as [_ Hnd]. by eapply NoDup_lookup.
      + exfalso. destruct (Hlive _ _ Hp) as [Hl _].
        assert (x = n) as ->. { apply (ex_disj _ _ _ X x n x Hl Hn); [set_solver|]. apply elem_of_list_lookup_2 in Hx. set_solver. }
        pose proof (ex_nodup _ _ _ X n Hn) as Hnd. apply NoDup_cons in Hnd as [Hnd _]. apply Hnd. by eapply elem_of_list_lookup_2.
    - intros ->. left. exists n. split; [done|]. apply adj_lookup. by exists k.
  Qed.
  Lemma exp_inner n b : is_Some (nodes t1 !! n) -> PE (edges t2) n b <-> exists c, PE (edges t1) n c /\ b = ctop c (E c).
  Proof.
    intros Hn. rewrite (ex_PE _ _ _ X). split.
    - intros [(m & Hm & Ha)|?]; [|done]. exfalso. apply adj_elem in Ha as [Ha _].
      assert (m = n) as -> by (apply (ex_disj _ _ _ X m n n Hm Hn); set_solver).
      pose proof (ex_nodup _ _ _ X n Hn) as Hnd. apply NoDup_cons in Hnd as [Hnd _]. done.
    - eauto.
  Qed.
  (** A node with one child. *)
  Lemma Den_only x y r : (forall b, PE (edges t2) x b <-> b = y) -> Den (nodes t2) (edges t2) x r ->
    forall nt, nodes t2 !! x = Some (NT nt) -> exists ry, Den (nodes t2) (edges t2) y ry /\ shape r = LN (nt_label nt) [shape ry].
  Proof.
    intros Hxy D nt Hx. inversion D as [|? nt' l cs H1 H2 H3 H4]; subst; [congruence|].
    rewrite Hx in H1. injection H1 as <-.
    assert (Ht : forall e, e ∈ l -> e_tgt e = y). { intros e (He & Hp & Hsrc)%H2. apply Hxy. by exists e. }
    destruct (proj2 (Hxy y) eq_refl) as (e0 & He0 & Hp0 & Hs0 & _).
    assert (e0 ∈ l) as Hin by (by apply H2).
    destruct l as [|e l]; [set_solver|]. destruct l as [|e' l].
    - inversion H4 as [|? c ? ? [_ Hd] H4']; subst. inversion H4'; subst. exists c.2. split; [|done].
      rewrite <- (Ht e) by set_solver. done.
    - exfalso. inversion H3 as [|? ? _ HF]; subst. rewrite Forall_forall in HF. specialize (HF e' ltac:(set_solver)).
      rewrite (Ht e), (Ht e') in HF by set_solver. lia.
  Qed.
  Lemma exp_chain : forall l n ls r,
    (forall k x y, l !! k = Some x -> (n :: l) !! k = Some y -> forall b, PE (edges t2) x b <-> b = y) ->
    Forall2 (fun x s => exists nt, nodes t2 !! x = Some (NT nt) /\ nt_label nt = s) l ls ->
    Den (nodes t2) (edges t2) (ctop n l) r ->
    exists rn, Den (nodes t2) (edges t2) n rn /\ shape r = wrapl ls (shape rn).
  Proof.
    induction l as [|x l IH]; intros n ls r Hl HF D; inversion HF as [|? s ? ls' (nt & Hx & Hlab) HF']; subst; [by exists r|].
    cbn [ctop] in D. destruct (IH x ls' r) as (rx & Dx & Ex); [|done|done|].
    { intros k a b Ha Hb. apply (Hl (S k)); done. }
    destruct (Den_only x n rx (Hl 0 x n eq_refl eq_refl) Dx nt Hx) as (rn & Dn & En). exists rn. split; [done|].
    rewrite Ex, En. done.
  Qed.

  Lemma exp_reads n r1 : Den (nodes t1) (edges t1) n r1 ->
    forall r2, Den (nodes t2) (edges t2) (ctop n (E n)) r2 -> shape r2 = expand d r1.
  Proof.
    revert n r1. apply (Den_ind' (nodes t1) (edges t1) (fun n r1 => forall r2, Den (nodes t2) (edges t2) (ctop n (E n)) r2 -> shape r2 = expand d r1)).
    - intros n tm Hn r2 D. destruct (Hc n _ Hn) as (w2 & Hw2 & Hlk & HF).
      destruct (exp_chain (E n) n _ r2 (fun k x y Hx Hy b => exp_link n k x y b (mk_is_Some _ _ Hn) Hx Hy) HF D) as (rn & Dn & ->).
      destruct w2 as [|tm2]; [done|]. inversion Dn as [? tm' Hn'|]; subst; [|congruence]. rewrite Hw2 in Hn'. injection Hn' as <-.
      simpl. destruct Hlk as (-> & -> & ->). done.
    - intros n nt l cs Hn Hl HS HF1 r2 D. destruct (Hc n _ Hn) as (w2 & Hw2 & Hlk & HF).
      destruct (exp_chain (E n) n _ r2 (fun k x y Hx Hy b => exp_link n k x y b (mk_is_Some _ _ Hn) Hx Hy) HF D) as (rn & Dn & ->).
      destruct w2 as [nt2|]; [|done]. inversion Dn as [|? nt' l2 cs2 Hn' Hl2 HS2 HF2]; subst; [congruence|].
      rewrite Hw2 in Hn'. injection Hn' as <-. simpl. f_equal. simpl in Hlk. rewrite Hlk. f_equal.
      assert (Hlv : forall e, e ∈ l -> is_Some (nodes t1 !! e_tgt e)).
      { intros e (He & Hp & Hsr)%Hl. apply (Hlive n). by exists e. }
      assert (HT : map e_tgt l2 = map (fun e => ctop (e_tgt e) (E (e_tgt e))) l).
      { apply (ssorted_eq (first_pos (nodes t2))).
        - clear -HS2. induction HS2 as [|a l HS IH HFa]; simpl; constructor; [done|].
          rewrite Forall_forall in HFa. apply Forall_forall. intros x (e & -> & He)%elem_of_list_fmap. by apply HFa.
        - clear -HS Hlv Hs. induction HS as [|a l HS IH HFa]; simpl; constructor.
          + apply IH. intros e He. apply Hlv. set_solver.
          + rewrite Forall_forall in HFa. apply Forall_forall. intros x (e & -> & He)%elem_of_list_fmap.
            rewrite !Hs by (apply Hlv; set_solver). by apply HFa.
        - intros x. rewrite !elem_of_list_fmap. split.
          + intros (e & -> & (He & Hp & Hsr)%Hl2). assert (PE (edges t2) n (e_tgt e)) as Hpe by (by exists e).
            apply exp_inner in Hpe as (c & (e1 & H1 & H2 & H3 & H4) & ->); [|eauto]. exists e1. rewrite H4. split; [done|]. by apply Hl.
          + intros (e & -> & He). pose proof He as (H1 & H2 & H3)%Hl.
            assert (PE (edges t2) n (ctop (e_tgt e) (E (e_tgt e)))) as (e2 & G1 & G2 & G3 & G4).
            { apply exp_inner; [eauto|]. exists (e_tgt e). split; [by exists e|done]. }
            exists e2. split; [done|]. by apply Hl2. }
      clear -HF1 HF2 HT. revert l2 cs2 HF2 HT. induction HF1 as [|e c l cs (_ & Dc & IHc) HF1 IH]; intros l2 cs2 HF2 HT.
      + destruct l2; [|done]. by inversion HF2.
      + destruct l2 as [|e2 l2]; [done|]. inversion HF2 as [|? c2 ? cs2' [_ Dc2] HF2']; subst. simpl in HT. injection HT as He HT. simpl.
        f_equal; [|by eapply IH]. apply IHc. by rewrite <- He.
  Qed.
End exp.

Lemma expansion_root t1 E t2 :
  shape_ok (nodes t1) (edges t1) (tr_root t1) -> shape_ok (nodes t2) (edges t2) (tr_root t2) -> expansion t1 E t2 ->
  tr_root t2 = ctop (tr_root t1) (E (tr_root t1)).
Proof.
  intros S1 S2 X. set (n := tr_root t1). pose proof (sh_root _ _ _ S1) as Hn. fold n in Hn.
  assert (Hlv : is_Some (nodes t2 !! ctop n (E n))). { apply (ex_block _ _ _ X). exists n. split; [done|apply top_elem]. }
  assert (Hnp : forall a, ~ PE (edges t2) a (ctop n (E n))).
  { intros a Ha. apply (ex_PE _ _ _ X) in Ha as [(m & Hm & Ha)|(m & Hm & Et)].
    - assert (m = n) as ->. { apply (ex_disj _ _ _ X m n (ctop n (E n)) Hm Hn); [by apply adj_elem in Ha as [_ ?]|apply top_elem]. }
      by apply adj_top in Ha; [|apply (ex_nodup _ _ _ X)].
    - destruct (sh_live _ _ _ S1 _ _ Hm) as [_ Hl].
      assert (m = n) as ->. { apply (ex_disj _ _ _ X m n (ctop n (E n)) Hl Hn); [rewrite Et; apply top_elem|apply top_elem]. }
      by apply (sh_root_top _ _ _ S1) in Hm. }
  pose proof (sh_reach _ _ _ S2 _ Hlv) as Hd. apply rtc_inv_r in Hd as [E'|(y & _ & Hy)]; [done|]. by apply Hnp in Hy.
Qed.
Lemma first_pos_eq N1 N2 n m w1 w2 : N1 !! n = Some w1 -> N2 !! m = Some w2 -> node_span w1 = node_span w2 -> first_pos N1 n = first_pos N2 m.
Proof. intros H1 H2 E. unfold first_pos. by rewrite H1, H2, E. Qed.

Lemma restore_reads delim t r :
  WF t -> is_projective t = true -> (forall n w, nodes t !! n = Some w -> chain_feat w <> Some None) -> Reads t r ->
  exists t' r', restore_unary_chains t delim = Ret (t', Ok ()) /\ WF t' /\ is_projective t' = true /\ tr_nterm t' = tr_nterm t /\
    Reads t' r' /\ shape r' = expand delim r.
Proof.
  intros W Hp Hok Hr. destruct (restore_ok delim t W Hok) as (t2 & E2 & H2 & W2 & X2 & D2 & K2 & L2).
  assert (Hz : ndisc_of (nodes t2) = 0).
  { apply ndisc_of_zero. intros y wy Hy.
    assert (Hng : forall n w, nodes t !! n = Some w -> ~ gappy w).
    { unfold is_projective in Hp. apply Nat.eqb_eq in Hp. rewrite (wf_ndisc _ W) in Hp.
      intros n w Hw. by apply (proj1 (ndisc_of_zero _) Hp n w). }
    destruct (proj1 (ex_block _ _ _ X2 y)) as (n & [w Hw] & Hin); [eauto|].
    destruct (L2 n w Hw) as [Hn HF]. apply elem_of_cons in Hin as [->|Hin].
    + rewrite Hn in Hy. injection Hy as <-. unfold gappy.
      replace (node_span (unchain w)) with (node_span w) by (by destruct w). by apply (Hng n).
    + apply elem_of_list_lookup in Hin as [k Hk]. destruct (Forall2_lookup_l _ _ _ _ _ HF Hk) as (lab & _ & Hy').
      rewrite Hy in Hy'. injection Hy' as ->. apply (Hng n w Hw). }
  assert (Hd2 : tr_ndisc t2 = 0). { rewrite D2. unfold is_projective in Hp. by apply Nat.eqb_eq in Hp. }
  assert (W2' : WF t2) by (apply WFx_WF; [done|congruence]).
  destruct (Reads_total t2 W2') as [r' Hr']. exists t2, r'. split_and!; try done.
  { unfold is_projective. by rewrite Hd2. }
  pose proof (expansion_root t E2 t2 (wf_shape _ W) (wf_shape _ W2') X2) as Hroot. unfold Reads in Hr'. rewrite Hroot in Hr'.
  refine (exp_reads delim t t2 E2 _ X2 _ _ _ r Hr r' Hr').
  - intros p c Hpc. apply (sh_live _ _ _ (wf_shape _ W) p c Hpc).
  - intros n w1 Hn. destruct (L2 n w1 Hn) as [Hn2 HF]. exists (unchain w1). split_and!; [done|by destruct w1|].
    eapply Forall2_impl; [exact HF|]. intros x s Hx. simpl in Hx. by eexists.
  - intros n [w Hn]. destruct (L2 n w Hn) as [Hn2 HF]. pose proof (top_elem n (E2 n)) as Hin. 
    apply elem_of_cons in Hin as [Ht|Hin].
    + rewrite Ht. eapply first_pos_eq; [done|done|by destruct w].
    + apply elem_of_list_lookup in Hin as [k Hk]. destruct (Forall2_lookup_l _ _ _ _ _ HF Hk) as (lab & _ & Hy').
      by eapply first_pos_eq.
Qed.

(** What collapsing does to one node. *)
Lemma collapse_nodes d ds t :
  WF t -> (forall n w, nodes t !! n = Some w -> no_chain w) ->
  (forall n nt, nodes t !! n = Some (NT nt) -> d ∉ nt_label nt) ->
  exists t1 E, collapse_unary_chains t (d :: ds) = Ret (t1, Ok ()) /\ WF t1 /\ expansion t1 E t /\ tr_nterm t1 = tr_nterm t /\
    (forall a, is_Some (nodes t1 !! a) -> anchor t1 a) /\
    (forall n w, nodes t1 !! n = Some w -> exists w0 ls, nodes t !! n = Some w0 /\ anchor t n /\ uchain (edges t) n (E n) /\
       labels_of t (E n) ls /\ w = push_all (d :: ds) w0 ls /\ chain_labels (d :: ds) w = ls /\
       chain_feat w = match ls with [] => None | _ => Some (Some (Base.join (d :: ds) ls)) end).
Proof.
  intros W Hnc Hlab. set (delim := d :: ds).
  destruct (collapse_ok delim t W) as (t1 & H1 & W1 & C & HA & HN).
  destruct (collapse_expansion delim t t1 W W1 C HA) as (E & X & HE).
  exists t1, E. split_and!; try done; [apply C|].
  intros n w (w0 & l & ls & Hw0 & Hn & Hl & Hls & ->)%HN.
  rewrite (uchain_unique (wf_shape _ W) n l (E n) Hl (HE n Hn)) in Hls.
  exists w0, ls. split_and!; try done; [by apply HE| |]; pose proof (Hnc _ _ Hw0) as Hcn.
  - unfold chain_labels. destruct ls as [|s ls].
    + unfold push_all. simpl. by rewrite Hcn.
    + rewrite push_all_feat by done. apply split_str_join; [done|]. intros p Hp.
      apply elem_of_list_lookup in Hp as [i Hi]. destruct (Forall2_lookup_r _ _ _ _ _ Hls Hi) as (a & _ & nt & Ha & <-).
      by eapply Hlab.
  - destruct ls as [|s ls]; [exact Hcn|by rewrite push_all_feat].
Qed.
Lemma push_all_looks delim w ls : looks (push_all delim w ls) w.
Proof.
  revert w. induction ls as [|l ls IH]; intros w; [by destruct w|]. unfold push_all in *. cbn [foldl].
  specialize (IH (push_chain w delim l)). destruct (foldl _ _ ls); destruct w; done.
Qed.
Lemma collapse_reads d ds t r :
  WF t -> (forall n w, nodes t !! n = Some w -> no_chain w) ->
  (forall n nt, nodes t !! n = Some (NT nt) -> d ∉ nt_label nt) -> Reads t r ->
  exists t1 r1, collapse_unary_chains t (d :: ds) = Ret (t1, Ok ()) /\ WF t1 /\ (is_projective t = true -> is_projective t1 = true) /\
    tr_nterm t1 = tr_nterm t /\ Reads t1 r1 /\ shape r = expand (d :: ds) r1 /\
    (forall n, is_Some (nodes t1 !! n) -> is_Some (nodes t !! n)) /\
    (forall n nt c, nodes t1 !! n = Some (NT nt) -> ~ only (edges t1) n c) /\
    (forall n w, nodes t1 !! n = Some w -> exists w0 ls, nodes t !! n = Some w0 /\ looks w w0 /\
       (forall s, s ∈ ls -> exists m nt, nodes t !! m = Some (NT nt) /\ s = nt_label nt) /\
       node_feats w = match ls with [] => node_feats w0 | _ => Some (<[unary_chain := Some (Base.join (d :: ds) ls)]> (default ∅ (node_feats w0))) end).
Proof.
  intros W Hnc Hlab Hr. destruct (collapse_nodes d ds t W Hnc Hlab) as (t1 & E & H1 & W1 & X & K & HA & HN).
  destruct (Reads_total t1 W1) as [r1 Hr1]. exists t1, r1. split_and!; try done.
  - intros Hp. unfold is_projective in *. apply Nat.eqb_eq in Hp. apply Nat.eqb_eq. rewrite (wf_ndisc _ W) in Hp.
    rewrite (wf_ndisc _ W1). apply ndisc_of_zero. intros n w Hw.
    destruct (HN n w Hw) as (w0 & ls & Hw0 & _ & _ & _ & -> & _). unfold gappy. 
    pose proof (push_all_skel (d :: ds) w0 ls) as Hs. injection Hs as _ ->. by apply (proj1 (ndisc_of_zero _) Hp n w0).
  - pose proof (expansion_root t1 E t (wf_shape _ W1) (wf_shape _ W) X) as Hroot. unfold Reads in Hr. rewrite Hroot in Hr.
    refine (exp_reads (d :: ds) t1 t E _ X _ _ _ r1 Hr1 r Hr).
    + intros p c Hpc. apply (sh_live _ _ _ (wf_shape _ W1) p c Hpc).
    + intros n w1 Hn. destruct (HN n w1 Hn) as (w0 & ls & Hw0 & _ & _ & Hls & Ew & Hcl & _). exists w0. split_and!; [done| |].
      * rewrite Ew. apply push_all_looks.
      * rewrite Hcl. exact Hls.
    + intros n [w Hn]. destruct (HN n w Hn) as (w0 & ls & Hw0 & _ & Hu & Hls & Ew & Hcl & _).
      assert (Hsp : node_span w = node_span w0). { rewrite Ew. pose proof (push_all_skel (d :: ds) w0 ls) as Hs. by injection Hs. }
      pose proof (top_elem n (E n)) as Hin. 
      assert (is_Some (nodes t !! ctop n (E n))) as [wx Hx]. { apply (ex_block _ _ _ X). exists n. split; [eauto|apply top_elem]. }
      eapply first_pos_eq; [done|done|]. rewrite Hsp. by eapply (uchain_span t W n (E n)).
  - intros n [w Hw]. destruct (HN n w Hw) as (w0 & ? & Hw0 & _). eauto.
  - intros n nt c Hn. destruct (HA n ltac:(eauto)) as [_ Ha]. apply Ha.
  - intros n w Hw. destruct (HN n w Hw) as (w0 & ls & Hw0 & _ & _ & Hls & Ew & _ & Hcf). exists w0, ls. split_and!; [done| | |].
    + rewrite Ew. apply push_all_looks.
    + intros s [i Hi]%elem_of_list_lookup. destruct (Forall2_lookup_r _ _ _ _ _ Hls Hi) as (a & _ & nt & Ha & <-). eauto.
    + rewrite Ew. clear -Hnc Hw0. pose proof (Hnc _ _ Hw0) as Hc0. destruct ls as [|l ls]; [done|].
      assert (Gn : forall ls l w, node_feats w = Some (<[unary_chain := Some l]> (default ∅ (node_feats w0))) ->
        node_feats (push_all (d :: ds) w ls) = Some (<[unary_chain := Some (Base.join (d :: ds) (l :: ls))]> (default ∅ (node_feats w0)))).
      { clear. induction ls as [|x ls IH]; intros l w Hw; [done|]. unfold push_all in *. cbn [foldl].
        rewrite (IH (l ++ (d :: ds) ++ x)).
        - do 3 f_equal. destruct ls as [|y ls]; [done|]. simpl. rewrite <- !app_assoc. simpl. by rewrite <- !app_assoc.
        - unfold push_chain, feats_insert. rewrite node_feats_set. rewrite Hw. simpl. by rewrite lookup_insert, insert_insert. }
      unfold push_all. cbn [foldl]. apply (Gn ls l). unfold push_chain, feats_insert. rewrite node_feats_set.
      unfold no_chain, chain_feat in Hc0. cbn [fst].
      match goal with |- context [match ?x with Some _ => _ | None => _ end] => replace x with (@None (option str)) by (symmetry; exact Hc0) end. done.
Qed.
