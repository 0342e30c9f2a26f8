(** C68: the two tag formats describe the same tree. *)
From Coq Require Import Lia ZArith.
From Verif Require Import ConllModel EncModel PtbModel TreeSpec RoseSpec EncSpec BaseProofs ShapeProofs RoseProofs EncConv EncTree EncTree2 ConllProofs Api PropsTree PtbPrint DecPure DecGraph ExpProofs RestoreProofs PropsEnc PropsDec Ordered PropsConll PropsConll2 PropsTag EncExact.
Local Arguments lit : simpl never.

(** ** Specification *)
(** The tokens agree in everything the readers take from them besides the tags. *)
Definition same_words (la lr : list token) : Prop :=
  Forall2 (fun a b => k_form a = k_form b /\ default (lit "_") (k_pos a) = default (lit "_") (k_pos b)) la lr.
(** Entry by entry, the relative tag is the difference to the previous depth; a depth of one is a root tag. *)
Definition differences (e : abs_enc) (r : rel_enc) : Prop :=
  length r = length e /\
  forall i x y, e !! i = Some x -> r !! i = Some y ->
    y.2 = x.2 /\
    match x.1, y.1 with
    | None, None => True
    | Some a, Some (RRoot l) => l = ab_label a /\ ab_common a = 1
    | Some a, Some (RRegular o l) => l = ab_label a /\ ab_common a <> 1 /\ o = (Z.of_nat (ab_common a) - last_depth (take i e))%Z
    | _, _ => False
    end.

(** ** Proofs *)
Lemma differences_answers e r : depths_pos e -> differences e r -> answers fixed r e.
Proof.
  intros HP [HL H]. split; [done|]. intros i y x Hy Hx. destruct (H i x y Hx Hy) as [H1 H2]. split; [done|].
  destruct x as [[a|] u], y as [[[o l|l]|] u']; simpl in *; try done.
  - destruct H2 as (-> & Hn & ->). split; [done|]. replace (Z.of_nat (ab_common a) - last_depth (take i e) + last_depth (take i e))%Z with (Z.of_nat (ab_common a)) by lia.
    assert (1 <= ab_common a) by (eapply HP; by eapply elem_of_list_lookup_2). unfold fixed. rewrite decide_True by lia. done.
  - destruct H2 as [-> H2]. split; [done|]. unfold fixed. rewrite decide_True by lia. lia.
Qed.
Lemma rel_from_abs_differences e : forall done_e done_r r, depths_repr e ->
  differences done_e done_r -> rel_from_abs e (last_depth done_e) = Ret r -> differences (done_e ++ e) (done_r ++ r).
Proof.
  assert (SNOC : forall de dr x y, differences de dr -> y.2 = x.2 ->
    match x.1, y.1 with
    | None, None => True
    | Some a, Some (RRoot l) => l = ab_label a /\ ab_common a = 1
    | Some a, Some (RRegular o l) => l = ab_label a /\ ab_common a <> 1 /\ o = (Z.of_nat (ab_common a) - last_depth de)%Z
    | _, _ => False
    end -> differences (de ++ [x]) (dr ++ [y])).
  { intros de dr x y [HL H] H1 H2. split; [rewrite !app_length; simpl; lia|]. intros i x' y' Hx Hy.
    assert (Hi : i < length (de ++ [x])) by (by apply lookup_lt_Some in Hx). rewrite app_length in Hi. simpl in Hi.
    destruct (decide (i = length de)) as [->|Hne].
    - rewrite list_lookup_middle in Hx by done. rewrite list_lookup_middle in Hy by done. injection Hx as <-. injection Hy as <-.
      by rewrite take_app_alt.
    - rewrite lookup_app_l in Hx by lia. rewrite lookup_app_l in Hy by lia. rewrite take_app_le by lia. by apply H. }
  induction e as [|[[a|] u] e IH]; intros de dr r HR HD HC; cbn [rel_from_abs] in HC.
  - simplify_eq. by rewrite !app_nil_r.
  - assert (Ha : as_isize (ab_common a) = Z.of_nat (ab_common a)) by (apply as_isize_small; apply (HR a u); left). rewrite Ha in HC.
    destruct (isize_chk _) as [d| |] eqn:Ed; cbn [mbind outcome_bind] in HC; try done. apply isize_chk_Ret in Ed as ->.
    destruct (rel_from_abs e _) as [r'| |] eqn:Er; cbn [mbind outcome_bind] in HC; try done. injection HC as <-.
    set (y := (Some (if ab_common a =? 1 then RRoot (ab_label a) else RRegular (Z.of_nat (ab_common a) - last_depth de) (ab_label a)), u) : option rel_anc * option str).
    change (de ++ (Some a, u) :: e) with (de ++ [(Some a, u)] ++ e). change (dr ++ y :: r') with (dr ++ [y] ++ r'). rewrite !app_assoc.
    apply IH.
    + intros b v H. apply (HR b v). by right.
    + apply SNOC; [done|done|]. unfold y. cbn [fst]. destruct (Nat.eqb_spec (ab_common a) 1); naive_solver.
    + by rewrite last_depth_snoc.
  - destruct (rel_from_abs e _) as [r'| |] eqn:Er; cbn [mbind outcome_bind] in HC; try done. injection HC as <-.
    change (de ++ (None, u) :: e) with (de ++ [(None, u)] ++ e). change (dr ++ (None, u) :: r') with (dr ++ [(None, u) : option rel_anc * option str] ++ r'). rewrite !app_assoc.
    apply IH.
    + intros b v H. apply (HR b v). by right.
    + by apply SNOC.
    + by rewrite last_depth_snoc.
Qed.

(** ** C68 *)
(** Sentences with the same words whose tags are conversions of each other are read into the same tree. *)
Theorem C68_readers la lr e r : same_words la lr -> Forall2 abs_entry la e -> Forall2 rel_entry lr r ->
  depths_pos e -> depths_repr e -> differences e r -> from_conllx_relative lr = from_conllx_absolute la.
Proof.
  intros HS HA HB HP HR HD. unfold from_conllx_relative, from_conllx_absolute.
  rewrite (read_tokens_ok ABS_KEY abs_try_from la e 0) by (eapply Forall2_impl; [exact HA|]; intros k x; apply read_abs_iff).
  rewrite (read_tokens_ok REL_KEY rel_try_from lr r 0) by (eapply Forall2_impl; [exact HB|]; intros k x; apply read_rel_iff).
  pose proof (differences_answers e r HP HD) as Hans.
  destruct (C44_exact r (rel_entries_isize lr r HB)) as (a & HU & _ & H1 & _). apply HU in Hans as <-.
  destruct (H1 HR) as (c & -> & Hu & _). cbn [mbind outcome_bind]. unfold unwrap_or_fix in Hu. rewrite Hu. cbn [mbind outcome_bind].
  f_equal. apply list_eq. intros i. rewrite !list_lookup_imap. pose proof (proj1 (Forall2_lookup _ la lr) HS i) as HL.
  inversion HL as [x y [E1 E2] Ex Ey|Ex Ey]; simpl; [|done]. by rewrite E1, E2.
Qed.
Print Assumptions C68_readers.

(** In particular the tags annotated on one tree: the tree read from the sentence with relative tags is
    the tree read from the sentence with absolute tags. *)
Theorem C68_tags t : WF t -> is_projective t = true -> small t -> admissible t ->
  (forall n nt, nodes t !! n = Some (NT nt) -> nt_label nt <> lit "NONE") ->
  exists t', round_abs t = Ret (Ok t') /\ round_rel t = Ret (Ok t').
Proof.
  intros W Hp Hsm Ha Hno. destruct (Reads_total t W) as [r Hr].
  destruct (collapsed_ok t r W Hp Ha Hr) as (t1 & r1 & C). pose proof (co_wf _ _ _ _ C) as W1.
  pose proof (co_proj _ _ _ _ C) as Hp1. pose proof (co_reads _ _ _ _ C) as Hr1. pose proof (co_small _ _ _ _ C Hsm) as Hsm1.
  pose proof (encode_absolute_rose t1 r1 W1 Hp1 Hr1) as He.
  destruct (proj2 (C53_annotate_absolute t1 W1) Hp1) as (e & ta & He' & Hta & Hana). rewrite He in He'. injection He' as <-.
  destruct (proj2 (C53_annotate_relative t1 W1 Hsm1) Hp1) as (q & tr & Hq & Htr & Hanr).
  destruct (C42_encode_relative t1 W1 Hsm1) as [(? & _)|(_ & e & q' & He' & Hq' & Hqq)]; [congruence|].
  rewrite He in He'. injection He' as <-. rewrite Hq in Hqq. injection Hqq as <-.
  destruct (C43_encoded t1 _ W1 Hsm1 He) as (q' & Hq2 & Hconv). rewrite Hq' in Hq2. injection Hq2 as <-.
  pose proof (rel_from_abs_entries _ _ _ Hq') as HF.
  destruct (C49_to_conllx ta) as (la & Hla & _ & Hsa); [apply Hana|].
  destruct (C49_to_conllx tr) as (lr & Hlr & _ & Hsr); [apply Hanr|].
  destruct (decode_restore_ok t1 r1 W1 Hp1 Hr1 (co_dec _ _ _ _ C)) as (t' & r' & Hd & _).
  assert (HL : length (rose_enc r1) = tr_nterm t1).
  { pose proof (Reads_positions t1 r1 W1 Hp1 Hr1) as HP. rewrite rose_enc_len by apply (co_dec _ _ _ _ C).
    apply (f_equal length) in HP. by rewrite map_length, seq_length in HP. }
  exists t'. unfold round_abs, round_rel. rewrite (co_eq _ _ _ _ C). cbn [mbind outcome_bind]. rewrite Hta, Htr. cbn [mbind outcome_bind].
  rewrite Hla, Hlr. cbn [mbind outcome_bind]. split.
  - unfold from_conllx_absolute, ABS_KEY. rewrite (tokens_read (lit "abs_ancestor") abs_to_string abs_try_from t1 ta (rose_enc r1) r1 la); try done.
    + split; apply (bool_decide_unpack _); by vm_compute.
    + apply (co_feats _ _ _ _ C).
    + apply (co_chain _ _ _ _ C).
    + intros a u Hin. destruct (co_anc _ _ _ _ C a u Hin) as (H1 & H2 & _). destruct (abs_tag_clean a H1) as [H3 H4]. split_and!; [apply H3..|done|].
      apply C47_absolute; [apply H1, clean_chars; unfold plus_sign; tauto|].
      pose proof (proj2 (encode_absolute_depths t1 _ W1 He) Hsm1 a u Hin) as Hd'. pose proof bounds_pos. lia.
  - unfold from_conllx_relative, REL_KEY. rewrite (tokens_read (lit "rel_ancestor") rel_to_string rel_try_from t1 tr q r1 lr); try done.
    + rewrite Hconv. cbn [mbind outcome_bind]. exact Hd.
    + by rewrite <- (Forall2_length _ _ _ HF).
    + split; apply (bool_decide_unpack _); by vm_compute.
    + apply (co_feats _ _ _ _ C).
    + intros o u [i Hi]%elem_of_list_lookup. destruct (Forall2_lookup_r _ _ _ _ _ HF Hi) as ([o' u'] & Hx & Hu & _). simpl in Hu. subst u'.
      apply elem_of_list_lookup_2 in Hx. by apply (co_chain _ _ _ _ C o').
    + intros b u [i Hi]%elem_of_list_lookup. destruct (Forall2_lookup_r _ _ _ _ _ HF Hi) as ([[a|] u'] & Hx & Hu & Hm); simpl in Hu, Hm; [|done].
      subst u'. destruct Hm as [Hlab Hb]. apply elem_of_list_lookup_2 in Hx.
      destruct (co_anc _ _ _ _ C a u Hx) as (H1 & H2 & H3). specialize (H3 Hno). rewrite <- Hlab in *.
      destruct (rel_tag_clean b H1 H3) as [H4 H5]. split_and!; [apply H4..|done|].
      apply C47_relative_partial; [apply H1, clean_chars; unfold plus_sign; tauto|done|done].
Qed.
Print Assumptions C68_tags.
(** The library's own conversion computes these differences, so the hypotheses of [C68_readers] are met
    by every encoding with [isize] depths and its conversion. *)
Lemma conversion_differences e r : depths_repr e -> rel_from_abs e 0 = Ret r -> differences e r.
Proof.
  intros HR HC. apply (rel_from_abs_differences e [] [] r HR); [|done]. split; [done|]. intros i x y Hx. by rewrite lookup_nil in Hx.
Qed.
Definition ex_la : list token :=
  [ex_tok "a" "X_NP+3~CH" "abs_ancestor"; ex_tok "b" "NONE" "abs_ancestor"; ex_tok "c" "S+1" "abs_ancestor"; ex_tok "d" "NONE~" "abs_ancestor"].
Definition ex_lr : list token :=
  [ex_tok "a" "X_NP+3~CH" "rel_ancestor"; ex_tok "b" "NONE" "rel_ancestor"; ex_tok "c" "S" "rel_ancestor"; ex_tok "d" "NONE~" "rel_ancestor"].
Example C68_ex : same_words ex_la ex_lr /\ (exists e r, Forall2 abs_entry ex_la e /\ Forall2 rel_entry ex_lr r /\ depths_pos e /\ depths_repr e /\ differences e r) /\
  shown (from_conllx_relative ex_lr) = Ret (Ok (lit "(S (DUMMY (X (NP (CH (P a)) (P b) (P c)))) (P d))")).
Proof.
  split; [by repeat constructor|]. split; [|by vm_compute].
  eexists _, _. split; [eapply read_all_ok; [intros k x; apply read_abs_iff|vm_compute; reflexivity]|].
  split; [eapply read_all_ok; [intros k x; apply read_rel_iff|vm_compute; reflexivity]|].
  split; [apply positive_ok; by vm_compute|]. assert (HR : depths_repr [(Some (mk_abs 3 (lit "X_NP")), Some (lit "CH")); (None, None); (Some (mk_abs 1 (lit "S")), None); (None, None)]).
  { intros a u H. repeat (apply elem_of_cons in H as [H|H]; [simplify_eq; by vm_compute|]). by apply elem_of_nil in H. }
  split; [exact HR|]. apply conversion_differences; [exact HR|]. by vm_compute.
Qed.
(** A tree with a unary node, as read from both sentences. *)
Example C68_tags_ex : match round_abs ex_proj, round_rel ex_proj with Ret (Ok a), Ret (Ok b) => a = b /\ tr_nterm a = 4 | _, _ => False end.
Proof. vm_compute. split; reflexivity. Qed.
