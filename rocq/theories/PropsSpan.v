(** Properties C01-C06: the span algebra.  All statements use the public [contains]. *)
From Verif Require Import SpanModel SpanProofs.

(** C01 *)
Lemma C01_aux l s :
  span_from_vec l = Ret (Ok s) ->
  (forall i, span_contains s i = true <-> i ∈ l) /\
  (forall i, i ∈ l -> sp_start s <= i < sp_end s) /\ sp_start s ∈ l /\ sp_end s - 1 ∈ l /\
  (sp_skips s <> None <-> exists i j k, i < j < k /\ i ∈ l /\ j ∉ l /\ k ∈ l).
Proof.
  intros E. destruct l as [|x l]; [done|].
  destruct (span_from_vec_spec (x :: l)) as (s' & E' & Hok & Hc); [done|].
  assert (s' = s) as -> by congruence.
  split; [exact Hc|]. split; [intros i Hi; by apply covers_bounds, Hc|].
  split; [by apply Hc, span_ok_start|]. split; [by apply Hc, span_ok_last|].
  rewrite (span_ok_skips s Hok). setoid_rewrite Hc. done.
Qed.

Theorem C01_from_vec l :
  (span_from_vec l = Ret Err <-> l = []) /\
  (l <> [] -> exists s, span_from_vec l = Ret (Ok s) /\
     (forall i, span_contains s i = true <-> i ∈ l) /\
     (forall i, i ∈ l -> sp_start s <= i < sp_end s) /\ sp_start s ∈ l /\ sp_end s - 1 ∈ l /\
     (sp_skips s <> None <-> exists i j k, i < j < k /\ i ∈ l /\ j ∉ l /\ k ∈ l)).
Proof.
  assert (H : l <> [] -> exists s, span_from_vec l = Ret (Ok s)).
  { intros Hn. destruct (span_from_vec_spec l Hn) as (s & E & _). eauto. }
  split.
  - split; [|by intros ->]. intros E. destruct l as [|x l]; [done|].
    destruct H as [s H]; [done|]. congruence.
  - intros Hn. destruct (H Hn) as [s E]. exists s. split; [done|]. by apply C01_aux.
Qed.
Print Assumptions C01_from_vec.
Example C01_ex : exists s, span_from_vec [5; 2; 9; 2] = Ret (Ok s) /\ span_contains s 5 = true /\
                           span_contains s 4 = false /\ sp_start s = 2 /\ sp_end s = 10.
Proof. eexists. vm_compute. done. Qed.

(** C02 *)
Theorem C02_iteration s :
  constructible s ->
  StronglySorted lt (span_iter s) /\ NoDup (span_iter s) /\
  (forall i, i ∈ span_iter s <-> span_contains s i = true) /\
  length (span_iter s) = span_n_indices s.
Proof.
  intros H%constructible_ok. split; [apply span_iter_sorted|]. split; [apply span_iter_nodup|].
  split; [intros; apply elem_of_span_iter|by apply span_iter_length].
Qed.
Print Assumptions C02_iteration.
Example C02_ex : exists s, span_from_vec [0; 3] = Ret (Ok s) /\ constructible s /\ span_iter s = [0; 3].
Proof. eexists. split; [reflexivity|]. split; [by eapply (constr_vec [0; 3])|]. reflexivity. Qed.

(** C03 *)
Theorem C03_covers_span a b :
  constructible a -> constructible b ->
  span_covers a b = true <-> (forall i, span_contains b i = true -> span_contains a i = true).
Proof. intros Ha%constructible_ok Hb%constructible_ok. by apply span_covers_iff. Qed.
Print Assumptions C03_covers_span.
Example C03_ex : exists a b, span_from_vec [0; 1; 3; 5] = Ret (Ok a) /\ span_from_vec [1; 3] = Ret (Ok b) /\
  span_covers a b = true /\ span_covers b a = false.
Proof. do 2 eexists. split; [reflexivity|]. split; [reflexivity|]. by vm_compute. Qed.

(** C04 *)
Theorem C04_merge a b :
  constructible a -> constructible b ->
  exists s, span_merge a b = Ret s /\
    (forall i, span_contains s i = true <-> span_contains a i = true \/ span_contains b i = true) /\
    (span_continuity s = Discontinuous <->
     exists i j k, i < j < k /\ span_contains s i = true /\ span_contains s j = false /\
                   span_contains s k = true).
Proof.
  intros Ha%constructible_ok Hb%constructible_ok.
  destruct (span_merge_spec a b Ha Hb) as (s & E & Hok & Hc). exists s. split; [done|].
  split; [exact Hc|]. transitivity (sp_skips s <> None).
  { unfold span_continuity. by destruct (sp_skips s). }
  rewrite (span_ok_skips s Hok). unfold covers. by setoid_rewrite not_true_iff_false.
Qed.
Print Assumptions C04_merge.
Example C04_ex : exists a b s, span_from_vec [0; 4] = Ret (Ok a) /\ span_from_vec [1; 3] = Ret (Ok b) /\
  span_merge a b = Ret s /\ span_iter s = [0; 1; 3; 4].
Proof. do 3 eexists. split; [reflexivity|]. split; [reflexivity|]. split; [reflexivity|]. reflexivity. Qed.

(** C05 *)
Theorem C05_remove s (l : list nat) :
  constructible s ->
  let bad := (exists i, i ∈ l /\ ~ (sp_start s <= i < sp_end s)) \/
             (forall i, span_contains s i = true -> i ∈ l) in
  (span_remove s l = Panic <-> bad) /\
  (~ bad -> exists s' c, span_remove s l = Ret (s', c) /\
     (forall i, span_contains s' i = true <-> span_contains s i = true /\ i ∉ l) /\
     span_contains s' (sp_start s') = true /\ span_contains s' (sp_end s' - 1) = true /\
     (c = Discontinuous <->
      exists i j k, i < j < k /\ span_contains s' i = true /\ span_contains s' j = false /\
                    span_contains s' k = true)).
Proof.
  intros Hok%constructible_ok bad.
  assert (Hgood : ~ bad -> exists s', span_remove s l = Ret (s', span_continuity s') /\ span_ok s' /\
             (forall i, covers s' i <-> covers s i /\ i ∉ l)).
  { intros Hn. destruct (span_remove_dec s l Hok) as [[H1 H2]|H]; [|done].
    by apply span_remove_spec. }
  split.
  - split; [|by apply span_remove_panics]. intros E.
    destruct (span_remove_dec s l Hok) as [[H1 H2]|H]; [|done].
    destruct (span_remove_spec s l Hok H1 H2) as (s' & E' & _). congruence.
  - intros Hn. destruct (Hgood Hn) as (s' & E & Hok' & Hc). exists s', (span_continuity s').
    split; [done|]. split; [exact Hc|]. split; [by apply span_ok_start|].
    split; [by apply span_ok_last|]. transitivity (sp_skips s' <> None).
    { unfold span_continuity. by destruct (sp_skips s'). }
    rewrite (span_ok_skips s' Hok'). unfold covers. by setoid_rewrite not_true_iff_false.
Qed.
Print Assumptions C05_remove.
Example C05_ex : exists s s', span_from_vec [0; 1; 2; 4; 6; 7] = Ret (Ok s) /\
  span_remove s [0; 1; 7] = Ret (s', Discontinuous) /\ span_iter s' = [2; 4; 6] /\
  span_remove s [0; 1; 2; 4; 6; 7] = Panic /\ span_remove s [8] = Panic.
Proof. do 2 eexists. split; [reflexivity|]. split; [reflexivity|]. split_and!; reflexivity. Qed.

(** C06 *)
Theorem C06_eq a b :
  constructible a -> constructible b ->
  span_eqb a b = true <-> (forall i, span_contains a i = span_contains b i).
Proof.
  intros Ha%constructible_ok Hb%constructible_ok. unfold span_eqb. rewrite bool_decide_eq_true.
  split; [by intros ->|]. intros H. apply span_ext; [done|done|].
  intros i. unfold covers. by rewrite H.
Qed.
Print Assumptions C06_eq.

Theorem C06_order :
  (forall a, span_cmp a a = Eq) /\
  (forall a b, span_cmp b a = CompOpp (span_cmp a b)) /\
  (forall a b c, span_cmp a b <> Gt -> span_cmp b c <> Gt -> span_cmp a c <> Gt) /\
  (forall a b, span_cmp a b = Lt <->
     sp_start a < sp_start b \/ (sp_start a = sp_start b /\
     (sp_end a < sp_end b \/ (sp_end a = sp_end b /\ span_n_indices a < span_n_indices b)))).
Proof.
  split; [apply span_cmp_refl|]. split; [apply span_cmp_antisym|].
  split; [apply span_cmp_trans|apply span_cmp_lt].
Qed.
Print Assumptions C06_order.

(** The contract "[cmp] answers [Equal] only for equal values" does not hold. *)
Theorem C06_cmp_eq_refuted :
  exists a b, constructible a /\ constructible b /\ span_cmp a b = Eq /\ span_eqb a b = false.
Proof.
  do 2 eexists. split; [eapply (constr_vec [0; 2; 3]); reflexivity|].
  split; [eapply (constr_vec [0; 1; 3]); reflexivity|]. by vm_compute.
Qed.
Print Assumptions C06_cmp_eq_refuted.
