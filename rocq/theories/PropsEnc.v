(** Properties of tree encodings: C42, C43, C44, C47, C52, C53. *)
From Coq Require Import Lia ZArith.
From Verif Require Import EncModel TreeSpec BaseProofs ShapeProofs GraphProofs SortProofs EditProofs RoseSpec RoseProofs
  TreeOps SpanProofs ResetProofs AnnotProofs Api PropsTree PropsMod2 PtbPrint EncSpec EncConv EncTree EncTree2.

(** ** C52: what [encode_absolute] computes *)
(** In the graph: entry [i] is the label and the depth of the lowest node above both words [i] and
    [i+1]; the last entry has none; the chain of the word is kept. *)
Theorem C52_encode_absolute t :
  WF t -> is_projective t = true ->
  exists e, encode_absolute t = Ret (Ok e) /\ length e = tr_nterm t /\
    forall i n tm, nodes t !! n = Some (T tm) -> term_pos (nodes t) n i ->
      (S i = tr_nterm t -> e !! i = Some (None, chain_in (t_feats tm))) /\
      (S i < tr_nterm t -> exists p nt k,
         lca (nodes t) (edges t) p i (S i) /\ level (edges t) p k /\ nodes t !! p = Some (NT nt) /\
         e !! i = Some (Some (mk_abs k (full_label nt)), chain_in (t_feats tm))).
Proof.
  intros W Hp. destruct (encode_absolute_graph t W Hp) as (e & He & HL & HE). exists e. split_and!; [done|done|].
  intros i n tm Hn Hpos. destruct (HE i n tm Hpos Hn) as (o & Ho & Hx). split; intros Hi.
  - destruct Ho as [[? _]|[_ ->]]; [lia|done].
  - destruct Ho as [(_ & p & nt & k & H1 & H2 & H3 & ->)|[? _]]; [|lia]. by exists p, nt, k.
Qed.
Print Assumptions C52_encode_absolute.
(** On the nested structure the tree stands for. *)
Theorem C52_encode_reading t r :
  WF t -> is_projective t = true -> Reads t r -> encode_absolute t = Ret (Ok (rose_enc r)).
Proof. exact (encode_absolute_rose t r). Qed.
Print Assumptions C52_encode_reading.
Example C52_ex :
  WF ex_proj /\ is_projective ex_proj = true /\
  encode_absolute ex_proj = Ret (Ok [(Some (mk_abs 2 (lit "NP")), None); (Some (mk_abs 1 (lit "S")), None);
                                     (Some (mk_abs 1 (lit "S")), None); (None, None)]).
Proof. split; [apply ex_proj_WF|]. by vm_compute. Qed.

(** ** C42: the relative encoding is the converted absolute encoding

    [small t]: the number of nodes is below [2^63]; petgraph's [u32] indices guarantee it. *)
Theorem C42_encode_relative t :
  WF t -> small t ->
  (is_projective t = false /\ encode_absolute t = Ret Err /\ encode_relative t = Ret Err) \/
  (is_projective t = true /\
   exists e r, encode_absolute t = Ret (Ok e) /\ rel_from_abs e 0 = Ret r /\ encode_relative t = Ret (Ok r)).
Proof.
  intros W Hs. destruct (is_projective t) eqn:Hp.
  - right. split; [done|]. by apply encode_relative_spec.
  - left. split; [done|]. split; [by apply encode_absolute_err|]. unfold encode_relative. by rewrite Hp.
Qed.
Print Assumptions C42_encode_relative.
(** Not projective: some yield has a gap. *)
Theorem C42_fails_iff t :
  WF t -> small t ->
  (encode_absolute t = Ret Err <-> exists n i j k, i < j < k /\ yields (nodes t) (edges t) n i /\
     yields (nodes t) (edges t) n k /\ ~ yields (nodes t) (edges t) n j) /\
  (encode_relative t = Ret Err <-> encode_absolute t = Ret Err).
Proof.
  intros W Hs. pose proof (C09_projective t W) as HP.
  destruct (C42_encode_relative t W Hs) as [(Hp & -> & ->)|(Hp & e & r & -> & _ & ->)].
  - split; [|done]. split; [intros _|done].
    pose proof W as [G Sh Tm Nt Nd]. unfold is_projective in Hp. apply Nat.eqb_neq in Hp. rewrite Nd in Hp.
    unfold ndisc_of in Hp. apply map_size_non_empty_iff, map_choose in Hp as (n & w & Hw). apply map_filter_lookup_Some in Hw as [Hw Hg].
    destruct (node_span_ok _ _ _ _ _ _ Sh Tm Nt Hw) as [Ho Hc].
    apply span_ok_skips in Hg as (i & j & k & Hlt & Hi & Hj & Hk); [|done]. exists n, i, j, k. rewrite <- !Hc. done.
  - split; [|done]. split; [done|]. intros (n & i & j & k & Hj & Hi & Hk & Hn). destruct Hn.
    by apply (proj1 HP Hp n i j k).
Qed.
Print Assumptions C42_fails_iff.
Example C42_ex :
  WF ex_proj /\ small ex_proj /\ is_projective ex_proj = true /\
  encode_relative ex_proj = Ret (Ok [(Some (RRegular 2 (lit "NP")), None); (Some (RRoot (lit "S")), None);
                                     (Some (RRoot (lit "S")), None); (None, None)]) /\
  WF ex_disc /\ small ex_disc /\ is_projective ex_disc = false.
Proof. split_and!; [apply ex_proj_WF|by vm_compute|by vm_compute|by vm_compute|apply ex_disc_WF|by vm_compute|by vm_compute]. Qed.

(** ** C43: from the relative scale back to the absolute scale

    Full statement: [forall e, depths_pos e -> exists r, rel_from_abs e 0 = Ret r /\
    try_from_relative r = Ret (CSuccess e)].  It is false for depths that do not fit into [isize]. *)
Theorem C43_inverse_partial e :
  depths_pos e -> depths_repr e ->
  exists r, rel_from_abs e 0 = Ret r /\ try_from_relative r = Ret (CSuccess e).
Proof.
  intros Hp Hr. pose proof bounds_pos. destruct (rel_from_abs_total e 0 Hr ltac:(lia)) as [r E].
  exists r. split; [done|]. unfold try_from_relative. by apply (abs_rel_abs e 0 r []).
Qed.
Print Assumptions C43_inverse_partial.
(** In particular for every encoding that [encode_absolute] computes. *)
Theorem C43_encoded t e :
  WF t -> small t -> encode_absolute t = Ret (Ok e) ->
  exists r, rel_from_abs e 0 = Ret r /\ try_from_relative r = Ret (CSuccess e).
Proof. intros W Hs He. destruct (encode_absolute_depths t e W He). apply C43_inverse_partial; auto. Qed.
Print Assumptions C43_encoded.
Definition ex_enc : abs_enc :=
  [(Some (mk_abs 3 (lit "NP")), None); (None, None); (Some (mk_abs 1 (lit "S")), Some (lit "X"));
   (Some (mk_abs 2 (lit "VP")), None); (None, None)].
Example C43_ex : depths_pos ex_enc /\ depths_repr ex_enc /\
  rel_from_abs ex_enc 0 = Ret [(Some (RRegular 3 (lit "NP")), None); (None, None); (Some (RRoot (lit "S")), Some (lit "X"));
    (Some (RRegular 1 (lit "VP")), None); (None, None)].
Proof.
  split_and!; [| |by vm_compute]; intros a u Hin; unfold ex_enc in Hin; rewrite !elem_of_cons, elem_of_nil in Hin;
    destruct_or?; simplify_eq; simpl; try lia; by vm_compute.
Qed.
(** The depth [2^63] becomes negative. *)
Theorem C43_wrap_refuted : exists e r err,
  depths_pos e /\ rel_from_abs e 0 = Ret r /\ try_from_relative r = Ret (CError err).
Proof.
  pose (n := N.to_nat isize_bound).
  assert (Hn : as_isize n = (- Z.of_N isize_bound)%Z).
  { unfold as_isize. replace (Z.of_nat n) with (Z.of_N isize_bound) by (unfold n; lia). by vm_compute. }
  assert (H1 : Nat.eqb n 1 = false). { apply Nat.eqb_neq. unfold n. pose proof bounds_pos. assert (isize_bound <> 1%N) by done. lia. }
  exists [(Some (mk_abs n (lit "S")), None)], [(Some (RRegular (- Z.of_N isize_bound) (lit "S")), None)].
  eexists. split_and!.
  - intros a u Hin. apply elem_of_list_singleton in Hin. injection Hin as -> ->. cbn [ab_common]. unfold n.
    pose proof bounds_pos. lia.
  - cbn [rel_from_abs ab_common ab_label]. rewrite Hn, H1. reflexivity.
  - reflexivity.
Qed.
Print Assumptions C43_wrap_refuted.

(** ** C44: repairing relative encodings

    Full statement: the theorem without [offsets_repr].  Offsets that add up beyond [isize] overflow. *)
Theorem C44_fix_partial r :
  offsets_repr r ->
  exists c a, try_from_relative r = Ret c /\ unwrap_or_fix c = Ret a /\
    answers fixed r a /\ depths_pos a /\
    match c with
    | CSuccess a' => a' = a /\ answers (fun n k => Z.of_nat k = n /\ (1 <= n)%Z) r a
    | CError _ => ~ exists a', answers (fun n k => Z.of_nat k = n /\ (1 <= n)%Z) r a'
    end.
Proof.
  intros HO. destruct (unwrap_or_fix_spec r HO) as (c & a & H1 & H2 & H3 & H4). exists c, a.
  split_and!; try done. by eapply answers_len_pos.
Qed.
Print Assumptions C44_fix_partial.
Definition ex_rel : rel_enc :=
  [(Some (RRegular 3 (lit "NP")), None); (Some (RRegular (-5) (lit "VP")), Some (lit "X")); (None, None);
   (Some (RRegular 1 (lit "S")), None); (Some (RRoot (lit "S")), None); (Some (RRegular (-1) (lit "A")), None)].
Example C44_ex : offsets_repr ex_rel /\
  (match try_from_relative ex_rel with Ret c => unwrap_or_fix c | _ => Panic end) =
    Ret [(Some (mk_abs 3 (lit "NP")), None); (Some (mk_abs 2 (lit "VP")), Some (lit "X")); (None, None);
         (Some (mk_abs 3 (lit "S")), None); (Some (mk_abs 1 (lit "S")), None); (Some (mk_abs 2 (lit "A")), None)].
Proof.
  split; [|by vm_compute]. split; [|by vm_compute]. intros o l u Hin. unfold ex_rel in Hin.
  rewrite !elem_of_cons, elem_of_nil in Hin. destruct_or?; simplify_eq; by vm_compute.
Qed.
Theorem C44_overflow_refuted : exists r, length r = 2 /\ try_from_relative r = Panic.
Proof.
  exists [(Some (RRegular (Z.of_N isize_bound - 1) (lit "S")), None); (Some (RRegular 1 (lit "S")), None)].
  split; [done|]. unfold try_from_relative. cbn [abs_from_rel]. reflexivity.
Qed.
Print Assumptions C44_overflow_refuted.

(** ** C47: tags as text *)
Theorem C47_absolute a :
  plus_sign ∉ ab_label a -> (N.of_nat (ab_common a) < usize_bound)%N -> abs_try_from (abs_to_string a) = Ok a.
Proof. exact (abs_tag_round a). Qed.
Print Assumptions C47_absolute.
Theorem C47_relative_partial a :
  plus_sign ∉ rel_label a -> rel_label a <> [] ->
  match a with RRegular o _ => (- Z.of_N isize_bound <= o < Z.of_N isize_bound)%Z | _ => True end ->
  rel_try_from (rel_to_string a) = Ok a.
Proof. exact (rel_tag_round a). Qed.
Print Assumptions C47_relative_partial.
Example C47_ex : plus_sign ∉ lit "NP-SB" /\ lit "NP-SB" <> [] /\
  rel_to_string (RRegular (-12) (lit "NP-SB")) = lit "NP-SB+-12" /\
  rel_try_from (lit "NP-SB+-12") = Ok (RRegular (-12) (lit "NP-SB")) /\
  abs_to_string (mk_abs 12 (lit "NP-SB")) = lit "NP-SB+12" /\ abs_try_from (lit "NP-SB+12") = Ok (mk_abs 12 (lit "NP-SB")).
Proof. split_and!; try (by vm_compute). unfold plus_sign. vm_compute lit. set_solver. Qed.
(** The empty label is not admissible on the relative scale. *)
Theorem C47_empty_refuted : exists a, plus_sign ∉ rel_label a /\ rel_try_from (rel_to_string a) = Err.
Proof. exists (RRegular 3 []). split; [|by vm_compute]. simpl. set_solver. Qed.
Print Assumptions C47_empty_refuted.

(** ** C53: annotating terminals with their ancestor tags *)
(** Node [n] afterwards: the same terminal with one more feature. *)
Definition with_feature (tm : terminal) (k v : str) : node :=
  T (mk_term (t_form tm) (t_pos tm) (t_lemma tm) (Some (<[k := Some v]> (default ∅ (t_feats tm)))) (t_span tm)).
(** The text of one entry: ["NONE"] or the tag, then ["~"] and the chain of the word if it has one. *)
Definition entry_text {A} (show : A -> str) (x : option A * option str) : str :=
  (match x.1 with None => lit "NONE" | Some a => show a end) ++
  (match x.2 with None => [] | Some c => lit "~" ++ c end).
Definition annotates (t t' : tree) (k : str) (text : nat -> option str) : Prop :=
  WF t' /\ edges t' = edges t /\ tr_root t' = tr_root t /\ tr_nterm t' = tr_nterm t /\
  (forall n, (forall tm, nodes t !! n <> Some (T tm)) -> nodes t' !! n = nodes t !! n) /\
  (forall n tm i, nodes t !! n = Some (T tm) -> term_pos (nodes t) n i ->
     exists s, text i = Some s /\ nodes t' !! n = Some (with_feature tm k s)).
Lemma annotated_annotates t k (P : nat -> str -> Prop) (text : nat -> option str) N :
  WF t -> annotated_with t k P N -> (forall i s, P i s -> text i = Some s) -> annotates t (set_N t N) k text.
Proof.
  intros W (H1 & H2 & H3) HP. pose proof W as [G Sh Tm Nt Nd].
  assert (HT : forall n tm, nodes t !! n = Some (T tm) -> exists i, term_pos (nodes t) n i).
  { intros n tm Hn. destruct (to_pos _ _ Tm n tm Hn) as (i & Hi & _). exists i. exists tm. by rewrite Hi. }
  split_and!; try done.
  - apply set_N_WF; [done|]. apply map_eq. intros n. rewrite !lookup_fmap.
    destruct (nodes t !! n) as [[nt|tm]|] eqn:E.
    + by rewrite (H1 _ _ E).
    + destruct (HT _ _ E) as [i Hi]. destruct (H3 _ _ _ E Hi) as (s & _ & ->). done.
    + by rewrite (H2 _ E).
  - intros n Hn. change (nodes (set_N t N)) with N. destruct (nodes t !! n) as [[nt|tm]|] eqn:E; [by apply H1|by destruct (Hn tm)|by apply H2].
  - intros n tm i Hn Hi. change (nodes (set_N t N)) with N. destruct (H3 _ _ _ Hn Hi) as (s & Hs & HN). exists s.
    split; [by apply HP|done].
Qed.
Lemma entry_text_abs x : abs_tag x = entry_text abs_to_string x.
Proof. destruct x as [[a|] [u|]]; unfold abs_tag, entry_text, tag_string; simpl; by rewrite ?app_nil_r. Qed.
Lemma entry_text_rel x : rel_tag x = entry_text rel_to_string x.
Proof. destruct x as [[a|] [u|]]; unfold rel_tag, entry_text, tag_string; simpl; by rewrite ?app_nil_r. Qed.
Theorem C53_annotate_absolute t :
  WF t ->
  (is_projective t = false -> annotate_absolute t = Ret (t, Err)) /\
  (is_projective t = true -> exists e t', encode_absolute t = Ret (Ok e) /\ annotate_absolute t = Ret (t', Ok ()) /\
     annotates t t' (lit "abs_ancestor") (fun i => entry_text abs_to_string <$> e !! i)).
Proof.
  intros W. split; intros Hp; [by apply annotate_err|].
  destruct (annotate_absolute_spec t W Hp) as (e & N & He & Ha & HN). exists e, (set_N t N). split_and!; [done|done|].
  eapply annotated_annotates; [done|exact HN|]. intros i s (x & Hx & ->). simpl. rewrite Hx. simpl. by rewrite entry_text_abs.
Qed.
Print Assumptions C53_annotate_absolute.
Theorem C53_annotate_relative t :
  WF t -> small t ->
  (is_projective t = false -> annotate_relative t = Ret (t, Err)) /\
  (is_projective t = true -> exists e t', encode_relative t = Ret (Ok e) /\ annotate_relative t = Ret (t', Ok ()) /\
     annotates t t' (lit "rel_ancestor") (fun i => entry_text rel_to_string <$> e !! i)).
Proof.
  intros W Hs. split; intros Hp; [by apply annotate_err|].
  destruct (annotate_relative_spec t W Hp Hs) as (e & N & He & Ha & HN). exists e, (set_N t N). split_and!; [done|done|].
  eapply annotated_annotates; [done|exact HN|]. intros i s (x & Hx & ->). simpl. rewrite Hx. simpl. by rewrite entry_text_rel.
Qed.
Print Assumptions C53_annotate_relative.
Example C53_ex : WF ex_proj /\ small ex_proj /\ is_projective ex_proj = true /\
  (match annotate_absolute ex_proj with
   | Ret (t, Ok _) => map (fun n => match nodes t !! n with Some (T tm) => default ∅ (t_feats tm) !! lit "abs_ancestor" | _ => None end) [0; 2; 4; 5]
   | _ => [] end) = [Some (Some (lit "NP+2")); Some (Some (lit "S+1")); Some (Some (lit "S+1")); Some (Some (lit "NONE"))].
Proof. split; [apply ex_proj_WF|]. by vm_compute. Qed.
