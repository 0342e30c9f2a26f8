(** Lemmas about spans. *)
From Verif Require Import SpanModel.
From Coq Require Import Lia.

(** ** Specification vocabulary *)

(** The representation every span of the library has: bounds are tight and gaps are inside. *)
Definition span_ok (s : span) : Prop :=
  sp_start s < sp_end s /\
  match sp_skips s with
  | None => True
  | Some k => k <> ∅ /\ forall i, i ∈ k -> sp_start s < i /\ i + 1 < sp_end s
  end.

(** Membership of a position in a span. *)
Definition covers (s : span) (i : nat) : Prop := span_contains s i = true.

Lemma span_contains_iff s i :
  span_contains s i = true <->
  sp_start s <= i /\ i < sp_end s /\ i ∉ default ∅ (sp_skips s).
Proof.
  unfold span_contains.
  destruct (Nat.leb_spec (sp_start s) i); destruct (Nat.ltb_spec i (sp_end s)); simpl;
    try (split; [discriminate|lia]).
  destruct (sp_skips s) as [k|]; simpl.
  - rewrite negb_true_iff, bool_decide_eq_false. naive_solver.
  - set_solver.
Qed.
Lemma covers_iff s i :
  covers s i <-> sp_start s <= i /\ i < sp_end s /\ i ∉ default ∅ (sp_skips s).
Proof. apply span_contains_iff. Qed.
Global Instance covers_dec s i : Decision (covers s i).
Proof. unfold covers. apply _. Defined.

Lemma covers_singleton i j : covers (span_of i) j <-> j = i.
Proof. rewrite covers_iff. simpl. set_solver by lia. Qed.
Lemma span_ok_singleton i : span_ok (span_of i).
Proof. split; simpl; lia. Qed.

Lemma span_ok_start s : span_ok s -> covers s (sp_start s).
Proof.
  intros [H1 H2]. rewrite covers_iff. split_and!; [lia|lia|].
  destruct (sp_skips s) as [k|]; simpl; [|set_solver].
  intros Hin. destruct H2 as [_ H2]. specialize (H2 _ Hin). lia.
Qed.
Lemma span_ok_last s : span_ok s -> covers s (sp_end s - 1).
Proof.
  intros [H1 H2]. rewrite covers_iff. split_and!; [lia|lia|].
  destruct (sp_skips s) as [k|]; simpl; [|set_solver].
  intros Hin. destruct H2 as [_ H2]. specialize (H2 _ Hin). lia.
Qed.
Lemma covers_bounds s i : covers s i -> sp_start s <= i /\ i < sp_end s.
Proof. rewrite covers_iff. tauto. Qed.

(** A canonical span is determined by its position set. *)
Lemma span_ext a b : span_ok a -> span_ok b -> (forall i, covers a i <-> covers b i) -> a = b.
Proof.
  intros Ha Hb H.
  assert (Hs : sp_start a = sp_start b).
  { pose proof (span_ok_start _ Ha) as H1. apply H in H1. apply covers_bounds in H1.
    pose proof (span_ok_start _ Hb) as H2. apply H in H2. apply covers_bounds in H2. lia. }
  assert (He : sp_end a = sp_end b).
  { pose proof (span_ok_last _ Ha) as H1. apply H in H1. apply covers_bounds in H1.
    pose proof (span_ok_last _ Hb) as H2. apply H in H2. apply covers_bounds in H2.
    destruct Ha, Hb. lia. }
  assert (Hk : forall i, i ∈ default ∅ (sp_skips a) <-> i ∈ default ∅ (sp_skips b)).
  { intros i. specialize (H i). rewrite !covers_iff in H. rewrite Hs, He in H.
    assert (Hin : forall s, span_ok s -> i ∈ default ∅ (sp_skips s) ->
                       sp_start s <= i /\ i < sp_end s).
    { intros s [_ Hk] Hi. destruct (sp_skips s) as [k|]; simpl in *; [|set_solver].
      destruct Hk as [_ Hk]. specialize (Hk _ Hi). lia. }
    split; intros Hi.
    - pose proof (Hin _ Ha Hi). destruct (decide (i ∈ default ∅ (sp_skips b))); [done|].
      exfalso. rewrite Hs, He in *. tauto.
    - pose proof (Hin _ Hb Hi). destruct (decide (i ∈ default ∅ (sp_skips a))); [done|].
      exfalso. tauto. }
  destruct a as [sa ea ka], b as [sb eb kb]. simpl in *. subst.
  destruct Ha as [_ Ha], Hb as [_ Hb]. simpl in *.
  destruct ka as [ka|], kb as [kb|]; simpl in *.
  - f_equal. f_equal. set_solver.
  - exfalso. destruct Ha as [Ha _]. apply Ha. set_solver.
  - exfalso. destruct Hb as [Hb _]. apply Hb. set_solver.
  - done.
Qed.

(** Gap flag: a canonical span reports gaps iff some position between covered ones is missing. *)
Lemma span_ok_skips s :
  span_ok s ->
  (sp_skips s <> None <-> exists i j k, i < j < k /\ covers s i /\ ~ covers s j /\ covers s k).
Proof.
  intros Hok. split.
  - intros Hn. pose proof Hok as [H1 H2]. destruct (sp_skips s) as [k|] eqn:E; [|done].
    destruct H2 as [Hne H2].
    destruct (set_choose_L k Hne) as [j Hj]. destruct (H2 _ Hj).
    exists (sp_start s), j, (sp_end s - 1). split; [lia|].
    split; [by apply span_ok_start|]. split; [|by apply span_ok_last].
    rewrite covers_iff, E. simpl. naive_solver.
  - intros (i & j & k & Hlt & Hi & Hj & Hk) Hn. apply Hj.
    apply covers_bounds in Hi, Hk. rewrite covers_iff, Hn. simpl.
    split_and!; [lia|lia|set_solver].
Qed.

(** ** Iteration *)
Lemma elem_of_span_iter s i : i ∈ span_iter s <-> covers s i.
Proof.
  unfold span_iter. rewrite elem_of_list_filter, elem_of_seq, covers_iff. intuition lia.
Qed.
Lemma StronglySorted_seq a n : StronglySorted lt (seq a n).
Proof.
  revert a. induction n as [|n IH]; intros a; simpl; constructor; [apply IH|].
  apply Forall_forall. intros x Hx. apply elem_of_seq in Hx. lia.
Qed.
Lemma StronglySorted_filter {A} (R : A -> A -> Prop) (P : A -> Prop) `{!forall x, Decision (P x)} l :
  StronglySorted R l -> StronglySorted R (filter P l).
Proof.
  induction 1 as [|x l Hs IH Hf]; [constructor|].
  rewrite filter_cons. destruct (decide (P x)); [|done].
  constructor; [done|]. rewrite Forall_forall in Hf |- *. intros y Hy.
  apply elem_of_list_filter in Hy. apply Hf, Hy.
Qed.
Lemma span_iter_sorted s : StronglySorted lt (span_iter s).
Proof. apply StronglySorted_filter, StronglySorted_seq. Qed.
Lemma span_iter_nodup s : NoDup (span_iter s).
Proof. apply NoDup_filter, NoDup_seq. Qed.

Lemma length_filter_not {A} (P : A -> Prop) `{!forall x, Decision (P x)} (l : list A) :
  length (filter P l) + length (filter (fun x => ~ P x) l) = length l.
Proof.
  induction l as [|x l IH]; [done|]. rewrite !filter_cons.
  destruct (decide (P x)), (decide (~ P x)); simpl in *; try tauto; lia.
Qed.

Lemma span_n_indices_no_underflow s :
  span_ok s -> size (default ∅ (sp_skips s)) < sp_end s - sp_start s.
Proof.
  intros [H1 H2]. destruct (sp_skips s) as [k|]; simpl; [|change (0 < sp_end s - sp_start s); lia].
  destruct H2 as [_ H2].
  assert (Hsub : k ⊆ list_to_set (seq (S (sp_start s)) (sp_end s - sp_start s - 1))).
  { intros i Hi. apply elem_of_list_to_set, elem_of_seq. specialize (H2 _ Hi). lia. }
  apply subseteq_size in Hsub. rewrite size_list_to_set in Hsub by apply NoDup_seq.
  rewrite seq_length in Hsub. lia.
Qed.

Lemma span_iter_length s : span_ok s -> length (span_iter s) = span_n_indices s.
Proof.
  intros Hok. pose proof Hok as [H1 H2].
  set (l := seq (sp_start s) (sp_end s - sp_start s)).
  pose proof (length_filter_not (fun i => i ∉ default ∅ (sp_skips s)) l) as Hlen.
  replace (length l) with (sp_end s - sp_start s) in Hlen by (symmetry; apply seq_length).
  assert (Hk : length (filter (fun x => ~ (x ∉ default ∅ (sp_skips s))) l)
               = size (default ∅ (sp_skips s))).
  { rewrite <- (size_list_to_set (C:=gset nat)) by apply NoDup_filter, NoDup_seq.
    f_equal. apply set_eq. intros i. rewrite elem_of_list_to_set, elem_of_list_filter.
    unfold l. rewrite elem_of_seq. split.
    - intros [Hi _]. by destruct (decide (i ∈ default ∅ (sp_skips s))).
    - intros Hi. split; [tauto|]. destruct (sp_skips s) as [k|]; simpl in *; [|set_solver].
      destruct H2 as [_ H2]. specialize (H2 _ Hi). lia. }
  fold (span_iter s) in Hlen. unfold span_iter in *. fold l in Hlen |- *.
  rewrite Hk in Hlen. unfold span_n_indices. destruct (sp_skips s); [simpl in *; lia|].
  change (size (default ∅ (None : option (gset nat)))) with 0 in Hlen. lia.
Qed.

Lemma span_n_indices_pos s : span_ok s -> 0 < span_n_indices s.
Proof.
  intros H. pose proof (span_n_indices_no_underflow _ H). unfold span_n_indices.
  destruct (sp_skips s); simpl in *; lia.
Qed.

(** ** Superset test *)
Lemma span_covers_iff a b :
  span_ok a -> span_ok b -> span_covers a b = true <-> (forall i, covers b i -> covers a i).
Proof.
  intros Ha Hb. unfold span_covers. split.
  - destruct (Nat.leb_spec (sp_start a) (sp_start b)); [|discriminate].
    destruct (Nat.leb_spec (sp_end b) (sp_end a)); [|discriminate]. simpl.
    intros H1 i Hi. pose proof (covers_bounds _ _ Hi). rewrite covers_iff.
    split_and!; [lia|lia|]. destruct (sp_skips a) as [k|]; simpl in *; [|set_solver].
    intros Hik. rewrite forallb_forall in H1. specialize (H1 i).
    rewrite negb_true_iff in H1. unfold covers in Hi. rewrite H1 in Hi; [done|].
    apply elem_of_list_In, elem_of_elements, Hik.
  - intros H.
    pose proof (covers_bounds _ _ (H _ (span_ok_start _ Hb))).
    pose proof (covers_bounds _ _ (H _ (span_ok_last _ Hb))). destruct Hb as [Hb _].
    destruct (Nat.leb_spec (sp_start a) (sp_start b)); [|lia].
    destruct (Nat.leb_spec (sp_end b) (sp_end a)); [|lia]. simpl.
    destruct (sp_skips a) as [k|] eqn:E; [|done]. apply forallb_forall. intros i Hi.
    apply elem_of_list_In, elem_of_elements in Hi. rewrite negb_true_iff.
    destruct (span_contains b i) eqn:Eb; [|done]. exfalso. apply H in Eb.
    rewrite covers_iff, E in Eb. simpl in Eb. tauto.
Qed.

(** ** Construction from an arbitrary set of gaps *)
Lemma span_from_gaps lower upper (k : gset nat) :
  lower < upper -> (forall i, i ∈ k -> lower < i /\ i + 1 < upper) ->
  exists s, (if Nat.eqb (size k) 0 then span_new lower upper else span_new_with_skips lower upper k)
            = Ret s /\ span_ok s /\ sp_start s = lower /\ sp_end s = upper /\
            (forall i, covers s i <-> lower <= i /\ i < upper /\ i ∉ k).
Proof.
  intros Hlt Hk. destruct (Nat.eqb_spec (size k) 0) as [E|E].
  - apply size_empty_inv in E. exists (mk_span lower upper None). unfold span_new.
    destruct (Nat.ltb_spec lower upper); [|lia]. simpl.
    split_and!; try done. intros i. rewrite covers_iff. simpl. set_solver.
  - assert (Hok : span_ok (mk_span lower upper (Some k))).
    { split; simpl; [done|]. split; [|done]. intros ->. apply E, size_empty. }
    exists (mk_span lower upper (Some k)). unfold span_new_with_skips.
    destruct (Nat.ltb_spec lower upper); [|lia]. simpl.
    destruct (Nat.eqb_spec (size k) 0); [done|]. simpl.
    pose proof (span_n_indices_no_underflow _ Hok) as Hs. simpl in Hs.
    destruct (Nat.ltb_spec 0 (upper - lower - size k)); [|lia]. simpl.
    split_and!; try done. intros i. rewrite covers_iff. simpl. done.
Qed.

(** ** Union *)
Lemma span_merge_spec a b :
  span_ok a -> span_ok b ->
  exists s, span_merge a b = Ret s /\ span_ok s /\ (forall i, covers s i <-> covers a i \/ covers b i).
Proof.
  intros Ha Hb. unfold span_merge.
  set (start := if Nat.leb (sp_start a) (sp_start b) then sp_start a else sp_start b).
  set (stop := if Nat.leb (sp_end b) (sp_end a) then sp_end a else sp_end b).
  set (k := list_to_set _ : gset nat).
  assert (Hst : start <= sp_start a /\ start <= sp_start b /\
                (start = sp_start a \/ start = sp_start b)).
  { unfold start. destruct (Nat.leb_spec (sp_start a) (sp_start b)); lia. }
  assert (Hsp : sp_end a <= stop /\ sp_end b <= stop /\ (stop = sp_end a \/ stop = sp_end b)).
  { unfold stop. destruct (Nat.leb_spec (sp_end b) (sp_end a)); lia. }
  assert (Hk : forall i, i ∈ k <-> start <= i < stop /\ ~ covers a i /\ ~ covers b i).
  { intros i. unfold k. rewrite elem_of_list_to_set, elem_of_list_filter, elem_of_seq.
    unfold covers. rewrite !not_true_iff_false. clearbody start stop. destruct Ha, Hb.
    assert (start + (stop - start) = stop) as -> by lia. tauto. }
  clearbody start stop k.
  destruct (span_from_gaps start stop k) as (s & E & Hok & Hs & He & Hc).
  { destruct Ha, Hb. lia. }
  { intros i Hi. apply Hk in Hi. destruct Hi as (Hi & Hna & Hnb).
    assert (i <> start).
    { intros ->. destruct Hst as (_ & _ & [E|E]); rewrite E in *;
      [apply Hna, span_ok_start|apply Hnb, span_ok_start]; done. }
    assert (i <> stop - 1).
    { intros ->. destruct Hsp as (_ & _ & [E|E]); rewrite E in *;
      [apply Hna, span_ok_last|apply Hnb, span_ok_last]; done. }
    lia. }
  exists s. split; [exact E|]. split; [done|]. intros i. rewrite Hc, Hk.
  split.
  - intros (H1 & H2 & H3). destruct (decide (covers a i)) as [?|Hca]; [by left|].
    destruct (decide (covers b i)) as [?|Hcb]; [by right|]. exfalso. apply H3. done.
  - intros H. assert (start <= i < stop).
    { destruct H as [H|H]; apply covers_bounds in H; lia. }
    split_and!; [lia|lia|tauto].
Qed.

(** ** Difference *)
Lemma trim_start_spec fuel start stop (k : gset nat) :
  size k <= fuel -> (exists i, start <= i < stop /\ i ∉ k) -> (forall i, i ∈ k -> start <= i < stop) ->
  exists start' k', trim_start fuel start k = Ret (start', k') /\
    start <= start' < stop /\ start' ∉ k' /\
    (forall i, i ∈ k' <-> i ∈ k /\ start' <= i) /\ (forall i, start <= i < start' -> i ∈ k).
Proof.
  revert start k. induction fuel as [|fuel IH]; intros start k Hsz Hex Hb.
  - assert (k = ∅) as ->. { apply leibniz_equiv, size_empty_inv. lia. }
    simpl. rewrite bool_decide_false by set_solver. exists start, ∅.
    destruct Hex as (i & Hi & _). split_and!; try done; try lia; set_solver by lia.
  - simpl. destruct (bool_decide_reflect (start ∈ k)) as [Hin|Hin].
    + destruct (IH (start + 1) (k ∖ {[start]})) as (s' & k' & E & H1 & H2 & H3 & H4).
      { rewrite size_difference by set_solver. rewrite size_singleton.
        assert (size k <> 0). { intros H0. apply size_empty_inv in H0. set_solver. } lia. }
      { destruct Hex as (i & Hi & Hni). exists i. split; [|set_solver].
        assert (i <> start) by (intros ->; done). lia. }
      { intros i Hi. assert (i ∈ k /\ i <> start) as [Hi1 Hi2] by set_solver.
        specialize (Hb _ Hi1). lia. }
      exists s', k'. split; [done|]. split; [lia|]. split; [done|]. split.
      * intros i. rewrite H3. split; [set_solver|]. intros [Hi Hle].
        assert (i <> start) by lia. set_solver.
      * intros i Hi. destruct (decide (i = start)); [by subst|].
        assert (i ∈ k ∖ {[start]}) by (apply H4; lia). set_solver.
    + exists start, k. destruct Hex as (i & Hi & Hni). split_and!; try done; try lia.
      * intros j. split; [|tauto]. intros Hj. split; [done|]. apply Hb in Hj. lia.
Qed.

Lemma trim_end_spec fuel start stop (k : gset nat) :
  size k <= fuel -> start < stop -> start ∉ k -> (forall i, i ∈ k -> start <= i < stop) ->
  exists stop' k', trim_end fuel stop k = Ret (stop', k') /\
    start < stop' <= stop /\ stop' - 1 ∉ k' /\
    (forall i, i ∈ k' <-> i ∈ k /\ i < stop') /\ (forall i, stop' <= i < stop -> i ∈ k).
Proof.
  revert stop k. induction fuel as [|fuel IH]; intros stop k Hsz Hlt Hst Hb.
  - assert (k = ∅) as ->. { apply leibniz_equiv, size_empty_inv. lia. }
    simpl. unfold sub_chk. destruct (Nat.leb_spec 1 stop); [|lia]. simpl.
    rewrite bool_decide_false by set_solver. exists stop, ∅.
    split_and!; try done; try lia; set_solver by lia.
  - simpl. unfold sub_chk. destruct (Nat.leb_spec 1 stop); [|lia]. simpl.
    destruct (bool_decide_reflect (stop - 1 ∈ k)) as [Hin|Hin].
    + assert (start <> stop - 1) by (intros ->; done).
      destruct (IH (stop - 1) (k ∖ {[stop - 1]})) as (s' & k' & E & H1 & H2 & H3 & H4).
      { rewrite size_difference by set_solver. rewrite size_singleton.
        assert (size k <> 0). { intros H0'. apply size_empty_inv in H0'. set_solver. } lia. }
      { lia. } { set_solver. }
      { intros i Hi. assert (i ∈ k /\ i <> stop - 1) as [Hi1 Hi2] by set_solver.
        specialize (Hb _ Hi1). lia. }
      exists s', k'. split; [done|]. split; [lia|]. split; [done|]. split.
      * intros i. rewrite H3. split; [set_solver|]. intros [Hi Hle].
        assert (i <> stop - 1) by lia. set_solver.
      * intros i Hi. destruct (decide (i = stop - 1)); [by subst|].
        assert (i ∈ k ∖ {[stop - 1]}) by (apply H4; lia). set_solver.
    + exists stop, k. split_and!; try done; try lia.
      intros j. split; [|tauto]. intros Hj. split; [done|]. apply Hb in Hj. lia.
Qed.

Lemma span_remove_spec s l :
  span_ok s -> (forall i, i ∈ l -> sp_start s <= i < sp_end s) ->
  (exists i, covers s i /\ i ∉ l) ->
  exists s', span_remove s l = Ret (s', span_continuity s') /\ span_ok s' /\
             (forall i, covers s' i <-> covers s i /\ i ∉ l).
Proof.
  intros Hok Hl (w & Hw & Hwl). unfold span_remove.
  assert (Hf : forallb (fun i => (sp_start s <=? i) && (i <? sp_end s))%bool l = true).
  { apply forallb_forall. intros i Hi. apply elem_of_list_In in Hi. specialize (Hl _ Hi).
    apply andb_true_iff. rewrite Nat.leb_le, Nat.ltb_lt. lia. }
  rewrite Hf. simpl. set (k := default ∅ (sp_skips s) ∪ list_to_set l : gset nat).
  assert (Hk : forall i, i ∈ k <-> i ∈ default ∅ (sp_skips s) \/ i ∈ l) by (unfold k; set_solver).
  assert (Hkb : forall i, i ∈ k -> sp_start s <= i < sp_end s).
  { intros i Hi. apply Hk in Hi. destruct Hi as [Hi|Hi]; [|by apply Hl].
    destruct Hok as [_ Hok]. destruct (sp_skips s); simpl in *; [|set_solver].
    destruct Hok as [_ Hok]. specialize (Hok _ Hi). lia. }
  pose proof Hw as Hw'. rewrite covers_iff in Hw'.
  assert (Hwk : w ∉ k) by (rewrite Hk; naive_solver).
  assert (Hsz : size k < sp_end s - sp_start s).
  { assert (Hsub : k ∪ {[w]} ⊆ list_to_set (seq (sp_start s) (sp_end s - sp_start s))).
    { intros i Hi. apply elem_of_list_to_set, elem_of_seq.
      apply elem_of_union in Hi as [Hi|Hi%elem_of_singleton]; [specialize (Hkb _ Hi); lia|].
      subst. lia. }
    apply subseteq_size in Hsub. rewrite size_list_to_set in Hsub by apply NoDup_seq.
    rewrite seq_length, size_union, size_singleton in Hsub by set_solver. lia. }
  destruct (Nat.ltb_spec (size k) (sp_end s - sp_start s)); [|lia]. simpl.
  destruct (trim_start_spec (size k) (sp_start s) (sp_end s) k)
    as (s1 & k1 & E1 & Hs1 & Hn1 & Hk1 & Hg1); [done| |done|].
  { exists w. split; [lia|done]. }
  rewrite E1. simpl.
  assert (Hw1 : s1 <= w). { destruct (decide (s1 <= w)); [done|]. exfalso. apply Hwk, Hg1. lia. }
  destruct (trim_end_spec (size k1) s1 (sp_end s) k1) as (e2 & k2 & E2 & He2 & Hn2 & Hk2 & Hg2);
    [done|lia|done| |].
  { intros i Hi. apply Hk1 in Hi. destruct Hi as [Hi Hle]. specialize (Hkb _ Hi). lia. }
  rewrite E2. simpl.
  assert (Hin : forall i, i ∈ k2 -> s1 < i /\ i + 1 < e2).
  { intros i Hi. pose proof (proj1 (Hk2 _) Hi) as [Hi1 Hlt].
    pose proof (proj1 (Hk1 _) Hi1) as [Hi0 Hle].
    assert (i <> s1) by (intros ->; done). assert (i <> e2 - 1) by (intros ->; done). lia. }
  assert (Hc : forall i, (s1 <= i /\ i < e2 /\ i ∉ k2) <-> covers s i /\ i ∉ l).
  { intros i. rewrite covers_iff, Hk2, Hk1, Hk. split.
    - intros (Ha & Hb & Hc). assert (i ∉ k) by (rewrite Hk; naive_solver).
      rewrite Hk in *. split; [|tauto]. split_and!; [lia|lia|tauto].
    - intros ((Ha & Hb & Hd) & Hc).
      assert (Hik : i ∉ k) by (rewrite Hk; tauto).
      assert (s1 <= i). { destruct (decide (s1 <= i)); [done|]. exfalso. apply Hik, Hg1. lia. }
      assert (i < e2).
      { destruct (decide (i < e2)); [done|]. exfalso. apply Hik.
        assert (i ∈ k1) by (apply Hg2; lia). by apply Hk1. }
      tauto. }
  destruct (Nat.eqb_spec (size k2) 0) as [Ez|Ez].
  - apply size_empty_inv in Ez.
    exists (mk_span s1 e2 None). split; [done|]. split; [split; simpl; [lia|done]|].
    intros i. rewrite covers_iff, <- Hc. simpl. set_solver.
  - exists (mk_span s1 e2 (Some k2)). split; [done|]. split.
    { split; simpl; [lia|]. split; [|done]. intros ->. by rewrite size_empty in Ez. }
    intros i. rewrite covers_iff, <- Hc. simpl. done.
Qed.

Lemma span_remove_panics s l :
  span_ok s ->
  (exists i, i ∈ l /\ ~ (sp_start s <= i < sp_end s)) \/ (forall i, covers s i -> i ∈ l) ->
  span_remove s l = Panic.
Proof.
  intros Hok H. unfold span_remove.
  destruct (forallb _ l) eqn:Ef; [|done]. simpl.
  rewrite forallb_forall in Ef.
  assert (Hl : forall i, i ∈ l -> sp_start s <= i < sp_end s).
  { intros i Hi. apply elem_of_list_In in Hi. apply Ef in Hi.
    apply andb_true_iff in Hi. rewrite Nat.leb_le, Nat.ltb_lt in Hi. lia. }
  destruct H as [(i & Hi & Hn)|H]; [exfalso; by apply Hn, Hl|].
  set (k := default ∅ (sp_skips s) ∪ list_to_set l : gset nat).
  assert (Hsub : list_to_set (seq (sp_start s) (sp_end s - sp_start s)) ⊆ k).
  { intros i Hi. apply elem_of_list_to_set, elem_of_seq in Hi. unfold k.
    destruct (decide (i ∈ default ∅ (sp_skips s))); [set_solver|].
    assert (i ∈ l). { apply H. rewrite covers_iff. split_and!; [lia|lia|done]. } set_solver. }
  apply subseteq_size in Hsub. rewrite size_list_to_set in Hsub by apply NoDup_seq.
  rewrite seq_length in Hsub. destruct (Nat.ltb_spec (size k) (sp_end s - sp_start s)); [lia|done].
Qed.

(** ** Sorting *)
Section sort.
  Context {A : Type} (cmp : A -> A -> comparison).
  Lemma insert_by_perm x l : insert_by cmp x l ≡ₚ x :: l.
  Proof.
    induction l as [|y l IH]; simpl; [done|]. destruct (cmp x y); try done.
    rewrite IH. apply Permutation_swap.
  Qed.
  Lemma sort_by_perm l : sort_by cmp l ≡ₚ l.
  Proof. induction l as [|x l IH]; simpl; [done|]. rewrite insert_by_perm. by f_equiv. Qed.
  Lemma elem_of_sort_by x l : x ∈ sort_by cmp l <-> x ∈ l.
  Proof. by rewrite sort_by_perm. Qed.
  Lemma sort_by_length l : length (sort_by cmp l) = length l.
  Proof. by rewrite sort_by_perm. Qed.

  (** Sortedness needs totality and transitivity only on the elements of the list. *)
  Lemma insert_by_sorted (P : A -> Prop) x l :
    (forall a b, P a -> P b -> cmp a b = Gt -> cmp b a <> Gt) ->
    (forall a b c, P a -> P b -> P c -> cmp a b <> Gt -> cmp b c <> Gt -> cmp a c <> Gt) ->
    P x -> Forall P l -> StronglySorted (fun a b => cmp a b <> Gt) l ->
    StronglySorted (fun a b => cmp a b <> Gt) (insert_by cmp x l).
  Proof.
    intros Htot Htr Hx. induction l as [|y l IH]; intros HP Hs; simpl.
    - repeat constructor.
    - apply Forall_cons in HP as [Hy HP]. apply StronglySorted_inv in Hs as [Hs Hf].
      assert (Hcase : cmp x y <> Gt -> StronglySorted (fun a b => cmp a b <> Gt) (x :: y :: l)).
      { intros Hxy. constructor; [by constructor|]. constructor; [done|].
        rewrite Forall_forall in Hf, HP |- *. intros z Hz.
        apply (Htr x y z); auto. }
      destruct (cmp x y) eqn:E; try (apply Hcase; congruence).
      constructor; [by apply IH|]. rewrite Forall_forall. intros z Hz.
      rewrite insert_by_perm in Hz. apply elem_of_cons in Hz as [->|Hz].
      + by apply Htot.
      + rewrite Forall_forall in Hf. by apply Hf.
  Qed.
  Lemma sort_by_sorted (P : A -> Prop) l :
    (forall a b, P a -> P b -> cmp a b = Gt -> cmp b a <> Gt) ->
    (forall a b c, P a -> P b -> P c -> cmp a b <> Gt -> cmp b c <> Gt -> cmp a c <> Gt) ->
    Forall P l -> StronglySorted (fun a b => cmp a b <> Gt) (sort_by cmp l).
  Proof.
    intros Htot Htr. induction l as [|x l IH]; intros HP; simpl; [constructor|].
    apply Forall_cons in HP as [Hx HP]. apply (insert_by_sorted P); auto.
    rewrite Forall_forall in HP |- *. intros y Hy. apply HP. by rewrite elem_of_sort_by in Hy.
  Qed.
End sort.

(** ** From a list *)
Lemma sort_nat_sorted l : StronglySorted le (sort_by Nat.compare l).
Proof.
  assert (H : StronglySorted (fun a b => Nat.compare a b <> Gt) (sort_by Nat.compare l)).
  { apply (sort_by_sorted _ (fun _ => True)).
    - intros a b _ _. rewrite Nat.compare_gt_iff, Nat.compare_gt_iff. lia.
    - intros a b c _ _ _. rewrite !Nat.compare_gt_iff. lia.
    - by apply Forall_forall. }
  induction H as [|x l' Hs IH Hf]; constructor; [done|].
  eapply Forall_impl; [exact Hf|]. simpl. intros y. rewrite Nat.compare_gt_iff. lia.
Qed.

(** Scanning the sorted list backwards collects exactly the positions below [prev] that are above
    the least element and not in the list. *)
Lemma collect_gaps_spec l prev k i :
  StronglySorted ge l -> (forall x, x ∈ l -> x <= prev) -> (forall x, x ∈ k -> prev <= x) ->
  l <> [] \/ True ->
  i ∈ collect_gaps l prev k <->
  i ∈ k \/ (i < prev /\ i ∉ l /\ exists x, x ∈ l /\ x < i).
Proof.
  revert prev k. induction l as [|x l IH]; intros prev k Hs Hle Hk _; simpl.
  - split; [tauto|]. intros [H|(_ & _ & y & Hy & _)]; [done|set_solver].
  - apply StronglySorted_inv in Hs as [Hs Hf]. rewrite Forall_forall in Hf.
    assert (Hx : x <= prev) by (apply Hle; set_solver).
    destruct (Nat.eqb_spec prev (x + 1)) as [E|E].
    + rewrite IH; [|done|intros y Hy; specialize (Hf _ Hy); lia|
                   intros y Hy; specialize (Hk _ Hy); lia|by right].
      split.
      * intros [H|(H1 & H2 & y & Hy & H3)]; [by left|]. right. split; [lia|].
        split; [apply not_elem_of_cons; split; [lia|done]|]. exists y. set_solver.
      * intros [H|(H1 & H2 & y & Hy & H3)]; [by left|]. right.
        apply not_elem_of_cons in H2 as [H2 H4]. split; [lia|]. split; [done|].
        exists y. apply elem_of_cons in Hy as [->|Hy]; [lia|]. done.
    + rewrite IH; [|done|intros y Hy; specialize (Hf _ Hy); lia| |by right].
      2:{ intros y Hy. apply elem_of_union in Hy as [Hy|Hy]; [specialize (Hk _ Hy); lia|].
          apply elem_of_list_to_set, elem_of_seq in Hy. lia. }
      rewrite elem_of_union, elem_of_list_to_set, elem_of_seq.
      split.
      * intros [[H|H]|(H1 & H2 & y & Hy & H3)]; [by left| |].
        -- right. split; [lia|]. split.
           { intros Hi. apply elem_of_cons in Hi as [->|Hi]; [lia|]. specialize (Hf _ Hi). lia. }
           exists x. split; [set_solver|lia].
        -- right. split; [lia|]. split; [apply not_elem_of_cons; split; [lia|done]|].
           exists y. set_solver.
      * intros [H|(H1 & H2 & y & Hy & H3)]; [by left; left|].
        apply not_elem_of_cons in H2 as [H2 H4].
        destruct (decide (x < i)); [left; right; lia|]. right. split; [lia|]. split; [done|].
        exists y. apply elem_of_cons in Hy as [->|Hy]; [lia|]. done.
Qed.


Lemma StronglySorted_snoc {A} (R : A -> A -> Prop) l x :
  StronglySorted R l -> (forall y, y ∈ l -> R y x) -> StronglySorted R (l ++ [x]).
Proof.
  induction 1 as [|y l Hs IH Hf]; intros H; simpl; [repeat constructor|].
  constructor.
  - apply IH. intros z Hz. apply H. set_solver.
  - apply Forall_app. split; [done|]. constructor; [|constructor]. apply H. set_solver.
Qed.
Lemma StronglySorted_rev {A} (R : A -> A -> Prop) l :
  StronglySorted R l -> StronglySorted (fun a b => R b a) (rev l).
Proof.
  induction 1 as [|x l Hs IH Hf]; simpl; [constructor|].
  apply StronglySorted_snoc; [done|]. intros y Hy. rewrite Forall_forall in Hf. apply Hf.
  by rewrite elem_of_list_In, <- in_rev, <- elem_of_list_In in Hy.
Qed.

Lemma sorted_head_le l x : StronglySorted le l -> head l = Some x -> forall y, y ∈ l -> x <= y.
Proof.
  intros Hs Hh y Hy. destruct l as [|z l]; [done|]. simplify_eq/=.
  apply StronglySorted_inv in Hs as [_ Hf]. rewrite Forall_forall in Hf.
  apply elem_of_cons in Hy as [->|Hy]; [lia|]. by apply Hf.
Qed.
Lemma sorted_last_ge l x : StronglySorted le l -> last l = Some x -> forall y, y ∈ l -> y <= x.
Proof.
  induction 1 as [|z l Hs IH Hf]; intros Hl y Hy; [set_solver|].
  destruct l as [|w l]; simpl in *; [set_solver|].
  apply elem_of_cons in Hy as [->|Hy]; [|by apply IH].
  rewrite Forall_forall in Hf. apply Hf. apply last_Some_elem_of, Hl.
Qed.

Lemma span_from_vec_spec l :
  l <> [] ->
  exists s, span_from_vec l = Ret (Ok s) /\ span_ok s /\ (forall i, covers s i <-> i ∈ l).
Proof.
  intros Hne. unfold span_from_vec. set (cov := sort_by Nat.compare l).
  assert (Hp : forall i, i ∈ cov <-> i ∈ l) by (intros; apply elem_of_sort_by).
  assert (Hs : StronglySorted le cov) by apply sort_nat_sorted.
  destruct (head cov) as [first|] eqn:Eh.
  2:{ destruct cov as [|x c]; [|done]. exfalso. destruct l as [|y l]; [done|].
      specialize (Hp y). set_solver. }
  destruct (last cov) as [lst|] eqn:El.
  2:{ apply last_None in El. rewrite El in Eh. done. }
  pose proof (sorted_head_le _ _ Hs Eh) as Hlo. pose proof (sorted_last_ge _ _ Hs El) as Hhi.
  assert (Hfin : first ∈ cov) by (destruct cov; simplify_eq/=; set_solver).
  assert (Hlin : lst ∈ cov) by (apply last_Some_elem_of, El).
  assert (Hrev : forall i, i ∈ rev cov <-> i ∈ cov).
  { intros i. rewrite !elem_of_list_In. symmetry. apply in_rev. }
  set (k := collect_gaps (rev cov) (lst + 1) ∅).
  assert (Hk : forall i, i ∈ k <-> i < lst + 1 /\ i ∉ cov /\ exists x, x ∈ cov /\ x < i).
  { intros i. unfold k. rewrite collect_gaps_spec; [|by apply StronglySorted_rev| |set_solver|by right].
    - rewrite Hrev. setoid_rewrite Hrev. set_solver.
    - intros x Hx. apply Hrev, Hhi in Hx. lia. }
  destruct (span_from_gaps first (lst + 1) k) as (s & E & Hok & Hst & Hen & Hc).
  { specialize (Hlo _ Hlin). lia. }
  { intros i Hi. apply Hk in Hi as (Hi & Hni & x & Hx & Hlt). specialize (Hlo _ Hx).
    assert (i <> lst) by (intros ->; done). lia. }
  exists s. split.
  { destruct (Nat.eqb (size k) 0); rewrite E; done. }
  split; [done|]. intros i. rewrite Hc, <- Hp, Hk. split.
  - intros (H1 & H2 & H3). destruct (decide (i ∈ cov)); [done|]. exfalso. apply H3.
    split; [lia|]. split; [done|]. exists first. split; [done|].
    assert (i <> first) by (intros ->; done). lia.
  - intros Hi. split; [by apply Hlo|]. split; [apply Hhi in Hi; lia|]. tauto.
Qed.

Lemma span_from_vec_nil : span_from_vec [] = Ret Err.
Proof. done. Qed.

(** ** Extending at the end *)
Lemma span_extend_spec s :
  span_ok s -> span_ok (span_extend s) /\
  (forall i, covers (span_extend s) i <-> covers s i \/ i = sp_end s) /\
  (sp_skips (span_extend s) = sp_skips s).
Proof.
  intros [H1 H2]. split_and!; [|intros i; rewrite !covers_iff; simpl|done].
  - split; simpl; [lia|]. destruct (sp_skips s) as [k|]; [|done]. destruct H2 as [Hn H2].
    split; [done|]. intros i Hi. specialize (H2 _ Hi). lia.
  - split.
    + intros (Ha & Hb & Hc). destruct (decide (i = sp_end s)); [by right|left].
      split_and!; [lia|lia|done].
    + intros [(Ha & Hb & Hc)| ->]; [split_and!; [lia|lia|done]|]. split_and!; [lia|lia|].
      destruct (sp_skips s) as [k|]; simpl; [|set_solver]. intros Hi. destruct H2 as [_ H2].
      specialize (H2 _ Hi). lia.
Qed.

(** ** Order *)
Lemma span_cmp_refl a : span_cmp a a = Eq.
Proof.
  unfold span_cmp. rewrite !Nat.eqb_refl. simpl. by rewrite Nat.compare_refl.
Qed.
Lemma span_cmp_antisym a b : span_cmp b a = CompOpp (span_cmp a b).
Proof.
  unfold span_cmp. rewrite (Nat.eqb_sym (sp_start b)), (Nat.eqb_sym (sp_end b)).
  destruct (negb (sp_start a =? sp_start b)); [apply Nat.compare_antisym|].
  destruct (negb (sp_end a =? sp_end b)); apply Nat.compare_antisym.
Qed.
(** The order is the lexicographic order of (start, end, number of positions). *)
Lemma span_cmp_lt a b :
  span_cmp a b = Lt <->
  sp_start a < sp_start b \/
  (sp_start a = sp_start b /\
   (sp_end a < sp_end b \/ (sp_end a = sp_end b /\ span_n_indices a < span_n_indices b))).
Proof.
  unfold span_cmp. destruct (Nat.eqb_spec (sp_start a) (sp_start b)); simpl.
  - destruct (Nat.eqb_spec (sp_end a) (sp_end b)); simpl; rewrite Nat.compare_lt_iff; lia.
  - rewrite Nat.compare_lt_iff. lia.
Qed.
Lemma span_cmp_eq a b :
  span_cmp a b = Eq <->
  sp_start a = sp_start b /\ sp_end a = sp_end b /\ span_n_indices a = span_n_indices b.
Proof.
  unfold span_cmp. destruct (Nat.eqb_spec (sp_start a) (sp_start b)); simpl.
  - destruct (Nat.eqb_spec (sp_end a) (sp_end b)); simpl; rewrite Nat.compare_eq_iff; lia.
  - rewrite Nat.compare_eq_iff. lia.
Qed.
Lemma span_cmp_gt a b :
  span_cmp a b = Gt <->
  sp_start b < sp_start a \/
  (sp_start b = sp_start a /\
   (sp_end b < sp_end a \/ (sp_end b = sp_end a /\ span_n_indices b < span_n_indices a))).
Proof. rewrite <- span_cmp_lt, (span_cmp_antisym a b). destruct (span_cmp a b); naive_solver. Qed.
Lemma span_cmp_trans a b c : span_cmp a b <> Gt -> span_cmp b c <> Gt -> span_cmp a c <> Gt.
Proof. rewrite !span_cmp_gt. lia. Qed.

(** ** Every span the library can build *)
Inductive constructible : span -> Prop :=
| constr_single i : constructible (span_of i)
| constr_vec l s : span_from_vec l = Ret (Ok s) -> constructible s
| constr_merge a b s : constructible a -> constructible b -> span_merge a b = Ret s -> constructible s
| constr_remove s l s' c : constructible s -> span_remove s l = Ret (s', c) -> constructible s'
| constr_extend s : constructible s -> constructible (span_extend s).

Lemma span_remove_dec s (l : list nat) :
  span_ok s ->
  ((forall i, i ∈ l -> sp_start s <= i < sp_end s) /\ exists i, covers s i /\ i ∉ l) \/
  ((exists i, i ∈ l /\ ~ (sp_start s <= i < sp_end s)) \/ (forall i, covers s i -> i ∈ l)).
Proof.
  intros Hok.
  destruct (decide (Forall (fun i => sp_start s <= i < sp_end s) l)) as [Hf|Hf].
  - destruct (decide (Forall (fun i => i ∈ l) (span_iter s))) as [Hg|Hg].
    + right. right. intros i Hi. rewrite Forall_forall in Hg. by apply Hg, elem_of_span_iter.
    + left. rewrite Forall_forall in Hf. split; [done|].
      apply not_Forall_Exists in Hg; [|intros x; apply elem_of_list_dec].
      apply Exists_exists in Hg as (i & Hi & Hn). exists i. by rewrite <- elem_of_span_iter.
  - right. left. apply not_Forall_Exists in Hf; [|intros x; simpl; solve_decision].
    apply Exists_exists in Hf as (i & Hi & Hn). by exists i.
Qed.

Lemma constructible_ok s : constructible s -> span_ok s.
Proof.
  induction 1 as [i|l s E|a b s _ IHa _ IHb E|s l s' c _ IH E|s _ IH].
  - apply span_ok_singleton.
  - destruct l as [|x l]; [done|].
    destruct (span_from_vec_spec (x :: l)) as (s' & E' & Hok & _); [done|]. congruence.
  - destruct (span_merge_spec a b IHa IHb) as (s' & E' & Hok & _). congruence.
  - destruct (span_remove_dec s l IH) as [[H1 H2]|H].
    + destruct (span_remove_spec s l IH H1 H2) as (s2 & E2 & Hok & _). congruence.
    + rewrite (span_remove_panics s l IH H) in E. done.
  - by apply span_extend_spec.
Qed.
