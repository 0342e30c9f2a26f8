(** C27: exactly when [annotate_pos] follows the sentence, and what a failed call leaves behind. *)
From Coq Require Import Lia.
From Verif Require Import ModModel TreeSpec BaseProofs ShapeProofs GraphProofs TreeOps SortProofs Api PropsTree AnnotProofs PropsMod.

(** The terminal nodes are numbered like the words of the sentence. *)
Definition numbered_in_order (t : tree) : Prop :=
  forall n m i j, term_pos (nodes t) n i -> term_pos (nodes t) m j -> i < j -> n < m.

(** Whether the call fails or not, the first tags go to the first terminals, as many as there are of
    both; the other terminals keep their tags. *)
Theorem C27_effect t tags ls :
  WF t -> index_order t ls ->
  exists t' r, annotate_pos t tags = Ret (t', r) /\ (r = Ok () <-> length tags = length ls) /\
    tr_root t' = tr_root t /\ tr_nterm t' = tr_nterm t /\ edges t' = edges t /\
    (forall n, n ∉ ls -> nodes t' !! n = nodes t !! n) /\
    (forall i n tm, ls !! i = Some n -> nodes t !! n = Some (T tm) ->
       nodes t' !! n = Some (T (mk_term (t_form tm) (default (t_pos tm) (tags !! i)) (t_lemma tm) (t_feats tm) (t_span tm)))).
Proof.
  intros W HL. pose proof W as [G Sh Tm Nt Nd].
  rewrite (index_order_unique t ls (terminals t)) by (done || by apply terminals_index_order).
  destruct (annotate_pos_spec t tags G) as (N' & r & H1 & H2 & H3 & H4 & H5).
  exists (set_N t N'), r. split_and!; try done.
  - intros n Hn. rewrite elem_of_terminals in Hn by done. change (nodes (set_N t N')) with N'.
    destruct (nodes t !! n) as [[nt|tm]|] eqn:E; [by apply H4|destruct Hn; eauto|].
    apply (f_equal (.!! n)) in H3. rewrite !lookup_fmap, E in H3. by destruct (N' !! n).
Qed.
Print Assumptions C27_effect.

Lemma sorted_lookup (l : list nat) i j n m : StronglySorted lt l -> l !! i = Some n -> l !! j = Some m -> i < j -> n < m.
Proof.
  intros S. revert i j. induction S as [|x l S IH F]; intros i j Hi Hj Hij; [done|].
  destruct j as [|j]; [lia|]. destruct i as [|i]; simpl in *.
  - injection Hi as ->. rewrite Forall_forall in F. apply F. by eapply elem_of_list_lookup_2.
  - apply (IH i j); [done..|lia].
Qed.
Lemma lookup_sorted (l : list nat) : (forall i j n m, l !! i = Some n -> l !! j = Some m -> i < j -> n < m) -> StronglySorted lt l.
Proof.
  induction l as [|x l IH]; intros H; constructor.
  - apply IH. intros i j n m Hi Hj Hij. apply (H (S i) (S j)); [done..|lia].
  - apply Forall_forall. intros y [j Hj]%elem_of_list_lookup. apply (H 0 (S j)); [done..|lia].
Qed.

(** Different tags. *)
Definition tag (k : nat) : str := [N.of_nat k].

(** The i-th tag becomes the tag of the i-th word for all tags, exactly if the nodes are numbered like
    the words. *)
Theorem C27_order_exact t : WF t ->
  (forall tags t', annotate_pos t tags = Ret (t', Ok ()) ->
     forall n i, term_pos (nodes t) n i -> node_label <$> nodes t' !! n = tags !! i) <-> numbered_in_order t.
Proof.
  intros W. pose proof W as [G Sh Tm Nt Nd]. destruct (sentence_sorted t G Tm) as [HS1 HS].
  pose proof (terminals_index_order t G) as HL. split.
  - intros H.
    set (tags := map tag (seq 0 (length (terminals t)))).
    assert (Htag : forall k, k < length (terminals t) -> tags !! k = Some (tag k)).
    { intros k Hk. subst tags. rewrite list_lookup_fmap, lookup_seq_lt by done. done. }
    destruct (C27_effect t tags _ W HL) as (t' & r & E & Hr & _ & _ & _ & _ & Ht).
    assert (r = Ok ()) as ->. { apply Hr. subst tags. by rewrite map_length, seq_length. }
    assert (P : forall n i, term_pos (nodes t) n i -> terminals t !! i = Some n).
    { intros n i Hp. specialize (H _ _ E n i Hp). destruct Hp as (tm & Hn & _).
      assert (n ∈ terminals t) as [k Hk]%elem_of_list_lookup by (apply HL; eauto).
      rewrite (Ht k n tm Hk Hn) in H. pose proof (lookup_lt_Some _ _ _ Hk) as Hlt. rewrite (Htag k Hlt) in H.
      simpl in H. symmetry in H. pose proof (lookup_lt_Some _ _ _ H) as Hi. subst tags. rewrite map_length, seq_length in Hi.
      rewrite (Htag i Hi) in H. injection H as H. apply Nat2N.inj in H. by subst. }
    intros n m i j Hn Hm Hij. eapply sorted_lookup; [apply HL|by apply P|by apply P|done].
  - intros HO tags t' E n i Hp.
    assert (HI : index_order t (sort_indices t (terminals t))).
    { split.
      - intros x. rewrite elem_of_list_lookup. split.
        + intros [k Hk]. apply HS in Hk as (tm & Hx & _). eauto.
        + intros [tm Hx]. destruct (to_pos _ _ Tm _ _ Hx) as (k & Hk & _). exists k. apply HS. by exists tm.
      - apply lookup_sorted. intros a b x y Ha Hb Hab. apply HS in Ha, Hb. by apply (HO x y a b). }
    destruct (C27_effect t tags _ W HI) as (t1 & r & E1 & Hr & _ & _ & _ & _ & Ht). rewrite E in E1. injection E1 as <- <-.
    pose proof Hp as (tm & Hn & _). apply HS in Hp. rewrite (Ht i n tm Hp Hn).
    apply lookup_lt_Some in Hp. rewrite <- (proj1 Hr eq_refl) in Hp. apply lookup_lt_is_Some in Hp as [pos ->]. done.
Qed.
Print Assumptions C27_order_exact.
Example C27_order_ex : WF ex_proj /\ numbered_in_order ex_proj /\ WF ex_disc /\ ~ numbered_in_order ex_disc /\ index_order ex_disc [0; 2; 4; 5].
Proof.
  assert (H1 : sort_indices ex_proj (terminals ex_proj) = [0; 2; 4; 5]) by (by vm_compute).
  assert (H2 : sort_indices ex_disc (terminals ex_disc) = [2; 4; 0; 5]) by (by vm_compute).
  split; [apply ex_proj_WF|]. split; [|split; [apply ex_disc_WF|split; [|apply C27_ex]]].
  - intros n m i j Hn Hm Hij.
    destruct (sentence_sorted ex_proj) as [_ HS]; [apply ex_proj_WF..|]. rewrite H1 in HS. apply HS in Hn, Hm.
    eapply sorted_lookup; [|exact Hn|exact Hm|exact Hij]. repeat constructor.
  - intros HO. destruct (sentence_sorted ex_disc) as [_ HS]; [apply ex_disc_WF..|]. rewrite H2 in HS.
    assert (4 < 0); [|lia]. apply (HO 4 0 1 2); [by apply HS|by apply HS|lia].
Qed.
