(** What the NEGRA reader delivers can be written. *)
From Coq Require Import Lia.
From Verif Require Import NegraModel TreeSpec BaseProofs SpanProofs ShapeProofs GraphProofs SortProofs TreeOps PtbSpec PtbBuild PtbRound NegraSpec NegraStep NegraRead NegraAccept
  NegraRound NegraRound2 PropsNegra PropsRead PropsReadWF.
Local Arguments lit : simpl never.

(** Every node but the root has at most one secondary edge into it, and the root none; the edge has
    a label, which is not the beginning of a comment. *)
Definition sec_fits (t : tree) : Prop :=
  (forall r, r ∈ edges t -> is_primary (e_w r) = false -> e_tgt r <> tr_root t /\
     exists s, e_w r = Secondary (Some s) /\ forall s', s <> 37%N :: s') /\
  (forall r r', r ∈ edges t -> r' ∈ edges t -> is_primary (e_w r) = false -> is_primary (e_w r') = false ->
     e_tgt r = e_tgt r' -> e_src r = e_src r' /\ e_w r = e_w r').

(** ** Fields are words *)
Lemma split_white_pieces s : Forall (fun p => Forall (fun c => is_white c = false) p) (split_white s).
Proof.
  induction s as [|x s IH]; simpl; [by repeat constructor|]. destruct (is_white x) eqn:E; [by constructor|].
  destruct (split_white s) as [|p ps]; [by repeat constructor|]. apply Forall_cons in IH as [H1 H2]. constructor; [by constructor|done].
Qed.
Lemma fields_words l : Forall NegraSpec.word (fields_of l).
Proof.
  unfold fields_of, split_whitespace. apply Forall_forall. intros p (Hne & Hp)%elem_of_list_filter. split; [done|].
  pose proof (split_white_pieces (trim l)) as H. rewrite Forall_forall in H. by apply H.
Qed.
Lemma field_word l i f : fields_of l !! i = Some f -> NegraSpec.word f.
Proof. intros H. pose proof (fields_words l) as HF. by apply (Forall_lookup_1 _ _ _ _ HF H). Qed.
Lemma rev_nil_inv {A} (s : list A) : rev s = [] -> s = [].
Proof. intros H. apply (f_equal (@rev A)) in H. by rewrite rev_involutive in H. Qed.
Lemma trim_left_suffix s : exists p, s = p ++ trim_left s.
Proof. induction s as [|c s [p IH]]; simpl; [by exists []|]. destruct (is_white c); [exists (c :: p); by rewrite IH at 1|by exists []]. Qed.
Lemma trim_left_idem s c s' : trim_left s = c :: s' -> trim_left (c :: s') = c :: s'.
Proof. intros H. apply trim_left_head in H. simpl. by rewrite H. Qed.
Lemma trim_sub s x : x ∈ trim s -> x ∈ s.
Proof.
  unfold trim. intros H. apply elem_of_list_In in H. rewrite <- in_rev in H. apply elem_of_list_In in H.
  destruct (trim_left_suffix (rev (trim_left s))) as [p Hp]. destruct (trim_left_suffix s) as [q Hq]. rewrite Hq.
  apply elem_of_app. right. apply elem_of_list_In. rewrite in_rev. apply elem_of_list_In. rewrite Hp. set_solver.
Qed.
Lemma trim_shape s : trim s = [] \/ exists c d s' s'', trim s = c :: s' /\ trim s = s'' ++ [d] /\ is_white c = false /\ is_white d = false.
Proof.
  unfold trim. destruct (trim_left s) as [|c u] eqn:E1; [by left|].
  destruct (trim_left_suffix (rev (c :: u))) as [p Hp].
  destruct (trim_left (rev (c :: u))) as [|d v] eqn:E2; [by left|]. right.
  apply trim_left_head in E1 as Hc. apply trim_left_head in E2 as Hd.
  apply (f_equal (@rev _)) in Hp. rewrite rev_involutive, rev_app_distr in Hp.
  destruct (rev (d :: v)) as [|c' w] eqn:E3; [by apply rev_nil_inv in E3|]. injection Hp as -> Hp.
  exists c', d, w, (rev v). split_and!; try done.
Qed.
Lemma trim_trim s : trim (trim s) = trim s.
Proof.
  destruct (trim_shape s) as [->|(c & d & s' & s'' & E1 & E2 & Hc & Hd)]; [done|]. rewrite E1. eapply trim_fix; [|done|done].
  rewrite <- E1. exact E2.
Qed.
Lemma first_field l c s : trim l = c :: s -> exists f fs, fields_of l = (c :: f) :: fs.
Proof.
  intros E. unfold fields_of, split_whitespace. rewrite E.
  assert (is_white c = false). { destruct (trim_shape l) as [X|(c' & d & s' & s'' & E1 & _ & Hc & _)]; [congruence|]. congruence. }
  simpl. rewrite H. destruct (split_white s) as [|p ps]; rewrite filter_cons_True by done; eauto.
Qed.
Lemma parse_usize_bound s k : parse_usize s = Some k -> (N.of_nat k < usize_bound)%N.
Proof.
  unfold parse_usize. destruct (strip_plus s) as [|c d]; [done|]. destruct (parse_digits _ _) as [n|]; [|done]. cbn [mbind option_bind].
  destruct (N.ltb_spec n usize_bound); [|done]. intros [= <-]. by rewrite N2Nat.id.
Qed.

(** ** The strings of the tree *)
Section writable.
  Context (bos : str) (body : list str) (t : tree) (ns : list nat) (k : nat) (meta : option str) (nt0 : nonterminal).
  Hypothesis (HT : tree_of_lines body t ns) (HR : Forall readable body).
  Hypothesis (HO : own_ids_ok body).
  Hypothesis (HH : header_says bos k meta) (Hroot : nodes t !! tr_root t = Some (NT nt0)) (Hrs : root_says nt0 k meta).
  Hypothesis (Hnl : 10%N ∉ bos) (Hsize : (N.of_nat (501 + length body) < usize_bound)%N).

  Lemma node_line n : is_Some (nodes t !! n) -> n <> tr_root t -> exists i l, body !! i = Some l /\ ns !! i = Some n.
  Proof using HT.
    intros Hn Hne. apply (tl_nodes _ _ _ HT) in Hn as [?|[i Hi]%elem_of_list_lookup]; [done|].
    assert (is_Some (body !! i)) as [l Hl]; [|eauto]. apply lookup_lt_is_Some. rewrite <- (tl_len _ _ _ HT). by eapply lookup_lt_Some.
  Qed.
  Lemma gives_value l i f v s : fields_of l !! i = Some f -> gives f v -> v = Some s -> value s.
  Proof using.
    intros Hf [[_ ->]|[Hne ->]] E; [done|]. injection E as ->. split; [by eapply field_word|done].
  Qed.
  Lemma line_nodes_fun i j n : ns !! i = Some n -> ns !! j = Some n -> i = j.
  Proof using HT. intros H1 H2. pose proof (tl_nodup _ _ _ HT) as Hnd. apply NoDup_cons in Hnd as [_ Hnd]. by eapply NoDup_lookup. Qed.
  Lemma number_fun n p p' : number_of body ns (tr_root t) n p -> number_of body ns (tr_root t) n p' -> p = p'.
  Proof using HT HO.
    intros [[-> ->]|(j & l & H1 & H2 & H3)] [[E ->]|(j' & l' & H1' & H2' & H3')]; try done.
    - destruct HO as [_ H0]. apply elem_of_list_lookup_2 in H1'. by apply H0 in H1'.
    - subst n. destruct HO as [_ H0]. apply elem_of_list_lookup_2 in H1. by apply H0 in H1.
    - destruct HO as [H0 _]. assert (j = j') as <- by (by eapply H0). congruence.
  Qed.
  Lemma number_nt n p : number_of body ns (tr_root t) n p -> exists nt, nodes t !! p = Some (NT nt).
  Proof using HT Hroot.
    intros [[_ ->]|(j & l & H1 & H2 & H3)]; [eauto|]. destruct (tl_nt _ _ _ HT _ _ _ _ H1 H2 H3) as (nt & Hn & _). eauto.
  Qed.

  Lemma root_meta m : meta = Some m -> m <> [] /\ 10%N ∉ m /\ trim m = m.
  Proof using HH Hnl.
    intros E. destruct HH as (h & num & rest & Eb & _ & _ & _ & Hm). destruct rest as [|w m0]; [congruence|].
    destruct Hm as [Hw Em]. rewrite E in Em. injection Em as ->. split_and!; [| |apply trim_trim].
    - intros Et.
      destruct (trim_shape bos) as [X|(c & d & s' & s'' & _ & E2 & _ & Hd)].
      { rewrite X in Eb. symmetry in Eb. apply app_eq_nil in Eb as [_ Eb]. by apply app_eq_nil in Eb as [_ Eb]. }
      assert (Hall : Forall (fun c => is_white c = true) m0).
      { clear -Et. unfold trim in Et. apply rev_nil_inv in Et.
        assert (Hl : forall s, trim_left s = [] -> Forall (fun c => is_white c = true) s).
        { clear. induction s as [|c s IH]; simpl; [constructor|]. destruct (is_white c) eqn:E; [|done]. intros H. constructor; [done|by apply IH]. }
        destruct (trim_left m0) as [|c u] eqn:E; [by apply Hl|]. apply Hl in Et. apply trim_left_head in E.
        rewrite Forall_forall in Et. assert (c ∈ rev (c :: u)) as Hin by (apply elem_of_list_In; rewrite <- in_rev; by left).
        apply Et in Hin. congruence. }
      rewrite Eb, (assoc_L (++)) in E2. destruct (rev m0) as [|x m1] eqn:Er.
      + apply rev_nil_inv in Er as ->. apply app_inj_tail in E2 as [_ ->]. congruence.
      + assert (m0 = rev m1 ++ [x]) as ->. { apply (f_equal (@rev _)) in Er. rewrite rev_involutive in Er. done. }
        rewrite app_comm_cons, (assoc_L (++)) in E2. apply app_inj_tail in E2 as [_ ->].
        apply Forall_app in Hall as [_ Hall]. apply Forall_cons in Hall as [Hall _]. congruence.
    - intros Hin%trim_sub. apply Hnl. apply trim_sub. rewrite Eb. apply elem_of_app. right. apply elem_of_app. right. by right.
  Qed.

  Lemma read_writable : writable t.
  Proof using All.
    split.
    - exists nt0. destruct Hrs as [Hl (f & Hf & Hkeys)]. split_and!; [done|done| | |].
      + unfold has_feat. rewrite Hf. destruct (f !! lit "node_annotation") as [v|] eqn:E; [|done].
        apply Hkeys in E as [[X _]|[X _]]; by vm_compute in X.
      + intros s Hs. unfold has_feat in Hs. rewrite Hf in Hs. destruct (f !! lit "sentence_id") as [v|] eqn:E; [|done]. subst v.
        apply Hkeys in E as [[_ [= ->]]|[X _]]; [|by vm_compute in X]. exists k. split; [|done].
        destruct HH as (h & num & rest & _ & _ & _ & Hp & _). by eapply parse_usize_bound.
      + intros m Hm. unfold has_feat in Hm. rewrite Hf in Hm. destruct (f !! lit "metadata") as [v|] eqn:E; [|done]. subst v.
        apply Hkeys in E as [[X _]|[_ (m' & Em & [= ->])]]; [by vm_compute in X|]. by apply root_meta.
    - intros n tm Hn. destruct (node_line n) as (i & l & Hl & Hi); [eauto|congruence|].
      assert (Hown : own_id l = None).
      { destruct (own_id l) eqn:E; [|done]. destruct (tl_nt _ _ _ HT _ _ _ _ Hl Hi E) as (nt & X & _). congruence. }
      destruct (tl_word _ _ _ HT _ _ _ Hl Hi Hown) as (tm' & X & form & lemma & pos & morph & Hf & F1 & F2 & F3 & (m & F4 & F5) & F6).
      assert (tm' = tm) as -> by congruence. clear X.
      destruct (fields_of l) as [|f0 [|f1 [|f2 [|f3 fs]]]] eqn:Efs; try done. injection Hf as -> -> -> ->.
      assert (Hat : forall j f, (form :: lemma :: pos :: morph :: fs) !! j = Some f -> fields_of l !! j = Some f) by (intros j f; by rewrite Efs).
      split_and!.
      + rewrite F1. by apply (field_word l 0), Hat.
      + intros s Es. rewrite F1 in Es. subst form.
        apply elem_of_list_lookup_2 in Hl as Hin. rewrite Forall_forall in HR. apply HR in Hin as (_ & _ & Hh).
        destruct (trim l) as [|c u] eqn:Et; [unfold fields_of in Efs; by rewrite Et in Efs|].
        destruct (first_field l c u Et) as (x & xs & Ex). rewrite Efs in Ex.
        assert (E1 : lit "#" ++ s = c :: x) by congruence. change (35%N :: s = c :: x) in E1. injection E1 as <- _.
        destruct Hh as [y Hy]; [by exists u|]. congruence.
      + rewrite F3. by apply (field_word l 2), Hat.
      + intros s E. by eapply (gives_value l 1 lemma); [apply Hat| |].
      + intros s E. unfold has_feat in E. rewrite F5 in E. destruct m as [m|]; [|done]. rewrite lookup_singleton in E.
        eapply (gives_value l 3 morph); [by apply Hat|done|done].
    - intros n nt Hn Hne. destruct (node_line n) as (i & l & Hl & Hi); [eauto|done|].
      destruct (own_id l) as [id|] eqn:E; [|destruct (tl_word _ _ _ HT _ _ _ Hl Hi E) as (tm & X & _); congruence].
      destruct (tl_nt _ _ _ HT _ _ _ _ Hl Hi E) as (nt' & X & f & q & ann & F1 & F2 & F3 & F4). assert (nt' = nt) as -> by congruence. clear X.
      apply field_word in F1 as [W1 W2]. rewrite Forall_forall in W2.
      assert (Hann : forall s, has_feat (nt_feats nt) (lit "node_annotation") (Some s) <-> ann = Some s).
      { intros s. unfold has_feat. rewrite F4. clear. destruct ann as [a|]; [|split; congruence]. rewrite lookup_singleton. split; congruence. }
      split_and!.
      + apply Forall_forall. intros c Hc. apply W2. clear -F2 Hc. inversion F2; subst; set_solver.
      + by inversion F2; subst.
      + intros El. inversion F2 as [|? q' Hq]; subst; [congruence|]. inversion F3; subst. eexists. by apply Hann.
      + intros s ->%Hann. inversion F2 as [|? q' Hq]; subst; [inversion F3|]. inversion F3 as [|? ? ? C]; subst. split.
        * apply Forall_forall. intros c Hc. apply W2. clear -C Hc. inversion C; subst; set_solver.
        * by inversion C; subst.
    - intros r s Hr Hp Hs. destruct (e_w r) as [e|e] eqn:Ew; [|done]. simpl in Hs. subst e.
      destruct (proj1 (tl_prim _ _ _ HT (e_src r) (e_tgt r) (Some s))) as (i & l & id & Hl & Hi & (f & Hf & Hg) & _); [by exists r|].
      by eapply gives_value.
    - intros r Hr Hp. destruct (e_w r) as [e|e] eqn:Ew; [done|].
      destruct (proj1 (tl_sec _ _ _ HT (e_src r) (e_tgt r) e)) as (i & l & lab & id & Hl & Hi & -> & [Hf _] & Hnum); [by exists r|].
      split; [by eapply number_nt|]. simpl. intros s [= <-]. by eapply field_word.
    - assert (size (nodes t) <= S (length body)); [|lia].
      assert (Hsub : dom (nodes t) ⊆ list_to_set (tr_root t :: ns)).
      { intros n Hn. apply elem_of_dom in Hn. apply (tl_nodes _ _ _ HT) in Hn. apply elem_of_list_to_set. apply elem_of_cons. by destruct Hn; [left|right]. }
      apply subseteq_size in Hsub. rewrite size_dom in Hsub. rewrite size_list_to_set in Hsub by apply HT.
      cbn [length] in Hsub. rewrite (tl_len _ _ _ HT) in Hsub. done.
  Qed.

  Lemma read_sec_fits : sec_fits t.
  Proof using HT HO.
    split.
    - intros r Hr Hp. destruct (e_w r) as [e|e] eqn:Ew; [done|].
      destruct (proj1 (tl_sec _ _ _ HT (e_src r) (e_tgt r) e)) as (i & l & lab & id & Hl & Hi & -> & [Hf Hs] & Hnum); [by exists r|].
      split. { pose proof (tl_nodup _ _ _ HT) as Hnd. apply NoDup_cons in Hnd as [Hnd _]. intros E. apply Hnd. rewrite <- E. by eapply elem_of_list_lookup_2. }
      exists lab. split; [done|]. intros s' E. unfold sec_id in Hs. change str with (list N) in *. rewrite Hf, E in Hs. done.
    - intros r r' Hr Hr' Hp Hp' Et. destruct (e_w r) as [e|e] eqn:Ew; [done|]. destruct (e_w r') as [e'|e'] eqn:Ew'; [done|].
      destruct (proj1 (tl_sec _ _ _ HT (e_src r) (e_tgt r) e)) as (i & l & lab & id & Hl & Hi & -> & [Hf Hs] & Hnum); [by exists r|].
      destruct (proj1 (tl_sec _ _ _ HT (e_src r') (e_tgt r') e')) as (i' & l' & lab' & id' & Hl' & Hi' & -> & [Hf' Hs'] & Hnum'); [by exists r'|].
      rewrite Et in Hi. assert (i' = i) as -> by (by eapply line_nodes_fun). assert (l' = l) as -> by congruence.
      assert (lab' = lab) as -> by congruence. assert (id' = id) as -> by congruence. split; [by eapply number_fun|done].
  Qed.
End writable.
