(** Sorting nodes by position: the sentence order of the terminals, the left-to-right order of
    siblings. *)
From Coq Require Import Lia.
From Verif Require Import TreeSpec BaseProofs ShapeProofs GraphProofs TreeOps.

Definition node_start (N : gmap nat node) (n : nat) : nat :=
  match N !! n with Some w => sp_start (node_span w) | None => 0 end.

Lemma node_cmp_start t a b wa wb :
  nodes t !! a = Some wa -> nodes t !! b = Some wb ->
  sp_start (node_span wa) <> sp_start (node_span wb) ->
  node_cmp t a b = Nat.compare (sp_start (node_span wa)) (sp_start (node_span wb)).
Proof.
  intros Ha Hb Hne. unfold node_cmp. rewrite Ha, Hb. unfold span_cmp.
  destruct (Nat.eqb_spec (sp_start (node_span wa)) (sp_start (node_span wb))); [done|]. simpl.
  by destruct (Nat.compare_spec (sp_start (node_span wa)) (sp_start (node_span wb))).
Qed.
Lemma node_cmp_refl t a : node_cmp t a a = Eq.
Proof.
  unfold node_cmp. destruct (nodes t !! a) as [[nt|tm]|]; [| |done];
    rewrite span_cmp_refl; rewrite ?Nat.compare_refl; apply str_cmp_refl.
Qed.

(** Sorting nodes with pairwise different starts. *)
Lemma sort_indices_sorted t l :
  (forall n, n ∈ l -> is_Some (nodes t !! n)) ->
  (forall n m, n ∈ l -> m ∈ l -> node_start (nodes t) n = node_start (nodes t) m -> n = m) ->
  NoDup l ->
  StronglySorted (fun a b => node_start (nodes t) a < node_start (nodes t) b) (sort_indices t l) /\
  sort_indices t l ≡ₚ l.
Proof.
  intros Hl Hinj Hnd. split; [|apply sort_by_perm].
  assert (Hcmp : forall a b, a ∈ l -> b ∈ l ->
             node_cmp t a b <> Gt <-> node_start (nodes t) a <= node_start (nodes t) b).
  { intros a b Ha Hb. destruct (decide (a = b)) as [->|Hne].
    - rewrite node_cmp_refl. split; [lia|done].
    - destruct (Hl a Ha) as [wa Hwa], (Hl b Hb) as [wb Hwb].
      assert (Hs : node_start (nodes t) a <> node_start (nodes t) b) by (intros E; by apply Hne, Hinj).
      unfold node_start in *. rewrite Hwa, Hwb in *. rewrite (node_cmp_start _ _ _ _ _ Hwa Hwb Hs).
      rewrite Nat.compare_le_iff. done. }
  assert (HS : StronglySorted (fun a b => node_cmp t a b <> Gt) (sort_indices t l)).
  { apply (sort_by_sorted _ (fun x => x ∈ l)).
    - intros a b Ha Hb HG. rewrite Hcmp by done. destruct (decide (node_start (nodes t) a <= node_start (nodes t) b)) as [H|H]; [|lia].
      by apply Hcmp in H.
    - intros a b c Ha Hb Hc. rewrite !Hcmp by done. lia.
    - by apply Forall_forall. }
  assert (Hin : forall x, x ∈ sort_indices t l -> x ∈ l) by (intros x; unfold sort_indices; by rewrite elem_of_sort_by).
  assert (Hnd' : NoDup (sort_indices t l)) by (unfold sort_indices; by rewrite sort_by_perm).
  induction HS as [|a l' HS IH HF]; constructor.
  - apply IH; [intros x Hx; apply Hin; set_solver|]. by apply NoDup_cons in Hnd' as [_ ?].
  - apply Forall_forall. intros b Hb. rewrite Forall_forall in HF. specialize (HF b Hb).
    apply Hcmp in HF; [|apply Hin; set_solver|apply Hin; set_solver].
    apply NoDup_cons in Hnd' as [Ha _].
    assert (node_start (nodes t) a <> node_start (nodes t) b); [|lia].
    intros E. apply Hinj in E; [|apply Hin; set_solver|apply Hin; set_solver]. congruence.
Qed.

(** Strictly sorted lists with the same elements are equal. *)
Lemma ssorted_eq {A} (f : A -> nat) (l1 l2 : list A) :
  StronglySorted (fun a b => f a < f b) l1 -> StronglySorted (fun a b => f a < f b) l2 ->
  (forall x, x ∈ l1 <-> x ∈ l2) -> l1 = l2.
Proof.
  intros H1. revert l2. induction H1 as [|a l1 H1 IH F1]; intros l2 H2 E.
  - destruct l2 as [|b l2]; [done|]. exfalso. specialize (E b). set_solver.
  - destruct H2 as [|b l2 H2 F2]; [exfalso; specialize (E a); set_solver|].
    rewrite Forall_forall in F1, F2.
    assert (a = b) as <-.
    { assert (Ha' : a ∈ b :: l2) by (apply E; set_solver).
      assert (Hb' : b ∈ a :: l1) by (apply E; set_solver).
      apply elem_of_cons in Ha' as [->|Ha']; [done|]. apply elem_of_cons in Hb' as [->|Hb']; [done|].
      specialize (F1 _ Hb'). specialize (F2 _ Ha'). lia. }
    f_equal. apply IH; [done|]. intros x. split; intros Hx.
    + assert (Hx' : x ∈ a :: l2) by (apply E; set_solver).
      apply elem_of_cons in Hx' as [->|?]; [|done]. specialize (F1 _ Hx). lia.
    + assert (Hx' : x ∈ a :: l1) by (apply E; set_solver).
      apply elem_of_cons in Hx' as [->|?]; [|done]. specialize (F2 _ Hx). lia.
Qed.
Lemma ssorted_map {A} (f : A -> nat) l :
  StronglySorted (fun a b => f a < f b) l -> StronglySorted lt (map f l).
Proof.
  induction 1 as [|a l H IH F]; simpl; constructor; [done|].
  rewrite Forall_forall in F. apply Forall_forall. intros y (x & -> & Hx)%elem_of_list_fmap. by apply F.
Qed.
Lemma ssorted_nodup {A} (f : A -> nat) l :
  StronglySorted (fun a b => f a < f b) l -> NoDup l.
Proof.
  induction 1 as [|a l H IH F]; constructor; [|done]. intros Ha. rewrite Forall_forall in F.
  specialize (F a Ha). lia.
Qed.
Lemma seq_ssorted a k : StronglySorted lt (seq a k).
Proof.
  revert a. induction k as [|k IH]; intros a; simpl; constructor; [apply IH|].
  apply Forall_forall. intros x Hx. apply elem_of_seq in Hx. lia.
Qed.

(** The sentence: terminal nodes by position. *)
Definition sentence (t : tree) (l : list nat) : Prop :=
  length l = tr_nterm t /\ forall i n, l !! i = Some n <-> term_pos (nodes t) n i.
Lemma sentence_unique t l l' : sentence t l -> sentence t l' -> l = l'.
Proof.
  intros [_ H1] [_ H2]. apply list_eq. intros i. apply option_eq. intros n. by rewrite H1, H2.
Qed.
Lemma node_start_term N n i : term_pos N n i -> node_start N n = i.
Proof. intros (tm & H & Hs). unfold node_start. rewrite H. simpl. by rewrite Hs. Qed.
Lemma term_pos_start N k n tm :
  terms_ok N k -> N !! n = Some (T tm) -> term_pos N n (node_start N n).
Proof.
  intros Tm H. destruct (term_pos_of _ _ _ _ Tm H) as (Hp & _). by rewrite (node_start_term _ _ _ Hp).
Qed.

Lemma sentence_sorted t :
  graph_ok (tr_graph t) -> terms_ok (nodes t) (tr_nterm t) ->
  sentence t (sort_indices t (terminals t)).
Proof.
  intros G Tm.
  assert (Hlt : forall n, n ∈ terminals t -> term_pos (nodes t) n (node_start (nodes t) n)).
  { intros n Hn. apply elem_of_terminals in Hn as [tm Htm]; [|done]. by eapply term_pos_start. }
  destruct (sort_indices_sorted t (terminals t)) as [HS HP].
  { intros n Hn. apply Hlt in Hn as (tm & -> & _). eauto. }
  { intros n m Hn%Hlt Hm%Hlt E. rewrite E in Hn. by apply (to_inj _ _ Tm n m _ Hn Hm). }
  { apply terminals_nodup. }
  set (l := sort_indices t (terminals t)) in *.
  assert (Hmem : forall n, n ∈ l <-> n ∈ terminals t) by (intros n; by rewrite HP).
  assert (Hmap : map (node_start (nodes t)) l = seq 0 (tr_nterm t)).
  { apply (ssorted_eq (fun x => x)); [by apply (ssorted_map (node_start (nodes t)))|apply seq_ssorted|].
    intros i. rewrite elem_of_seq. split.
    - intros (n & -> & Hn)%elem_of_list_fmap. apply Hmem in Hn.
      apply elem_of_terminals in Hn as [tm Htm]; [|done].
      destruct (term_pos_of _ _ _ _ Tm Htm) as (Hp & Hk & _). rewrite (node_start_term _ _ _ Hp). lia.
    - intros Hi. destruct (to_surj _ _ Tm i ltac:(lia)) as [n Hn].
      apply elem_of_list_fmap. exists n. split; [by rewrite (node_start_term _ _ _ Hn)|].
      apply Hmem, elem_of_terminals; [done|]. destruct Hn as (tm & Hn & _). eauto. }
  assert (Hlen : length l = tr_nterm t).
  { rewrite <- (map_length (node_start (nodes t))), Hmap. apply seq_length. }
  assert (Hget : forall i n, l !! i = Some n -> term_pos (nodes t) n i).
  { intros i n Hi. assert (H : map (node_start (nodes t)) l !! i = Some (node_start (nodes t) n))
      by (rewrite list_lookup_fmap, Hi; done).
    rewrite Hmap in H. apply lookup_seq in H as [H _].
    pose proof (Hlt n ltac:(apply Hmem; by eapply elem_of_list_lookup_2)) as Hp. by rewrite H in Hp. }
  split; [done|]. intros i n. split; [apply Hget|]. intros Hp.
  assert (Hi : i < length l).
  { rewrite Hlen. destruct Hp as (tm & Hn & Hs). destruct (to_pos _ _ Tm n tm Hn) as (j & Hj & ?).
    rewrite Hs in Hj. by injection Hj as ->. }
  destruct (lookup_lt_is_Some_2 l i Hi) as [m Hm]. rewrite Hm. f_equal.
  apply (to_inj _ _ Tm m n i); [by apply Hget|done].
Qed.

(** Siblings have different starts. *)
Section siblings.
  Context {N : gmap nat node} {es : list erec} {root k : nat}.
  Hypothesis (Sh : shape_ok N es root) (Tm : terms_ok N k) (Nt : nts_ok N es).
  Lemma start_yields n : is_Some (N !! n) -> yields N es n (node_start N n).
  Proof.
    intros [w Hw]. destruct (node_span_ok _ _ _ _ _ _ Sh Tm Nt Hw) as [Hok Hc].
    unfold node_start. rewrite Hw. by apply Hc, span_ok_start.
  Qed.
  Lemma start_least n i : is_Some (N !! n) -> yields N es n i -> node_start N n <= i.
  Proof.
    intros [w Hw]. destruct (node_span_ok _ _ _ _ _ _ Sh Tm Nt Hw) as [Hok Hc].
    unfold node_start. rewrite Hw. intros H%Hc. by destruct (covers_bounds _ _ H).
  Qed.
  Lemma yields_sibling p c1 c2 i : PE es p c1 -> PE es p c2 -> yields N es c1 i -> yields N es c2 i -> c1 = c2.
  Proof.
    intros H1 H2 (m1 & D1 & P1) (m2 & D2 & P2).
    rewrite (to_inj _ _ Tm m1 m2 i P1 P2) in D1. by apply (sibling_disjoint Sh p c1 c2 m2).
  Qed.
  Lemma sibling_starts p c1 c2 :
    PE es p c1 -> PE es p c2 -> node_start N c1 = node_start N c2 -> c1 = c2.
  Proof.
    intros H1 H2 E. apply (yields_sibling p c1 c2 (node_start N c1) H1 H2).
    - apply start_yields. by apply (sh_live _ _ _ Sh p c1).
    - rewrite E. apply start_yields. by apply (sh_live _ _ _ Sh p c2).
  Qed.
End siblings.

Definition sorted_children (t : tree) (n : nat) : list nat := sort_indices t (map fst (children t n)).
Lemma sorted_children_spec t n :
  graph_ok (tr_graph t) -> shape_ok (nodes t) (edges t) (tr_root t) ->
  terms_ok (nodes t) (tr_nterm t) -> nts_ok (nodes t) (edges t) ->
  StronglySorted (fun a b => node_start (nodes t) a < node_start (nodes t) b) (sorted_children t n) /\
  sorted_children t n ≡ₚ map fst (children t n) /\
  forall c, c ∈ sorted_children t n <-> PE (edges t) n c.
Proof.
  intros G Sh Tm Nt. destruct (sort_indices_sorted t (map fst (children t n))) as [HS HP].
  - intros c Hc%children_fst. by apply (sh_live _ _ _ Sh n c).
  - intros c1 c2 H1%children_fst H2%children_fst. by apply (sibling_starts Sh Tm Nt n).
  - by apply children_nodup.
  - split_and!; try done. intros c. unfold sorted_children. rewrite HP. apply children_fst.
Qed.
