(** Properties C07, C08 (feature maps) and C51 (label sets). *)
From Verif Require Import FeatModel FeatProofs UtilModel.

(** C07: [insert], [get_val] and [remove] behave like a finite map. *)
Theorem C07_feature_map (m : features) k v k' :
  feats_get (feats_insert m k v).1 k = Some v /\
  (k' <> k -> feats_get (feats_insert m k v).1 k' = feats_get m k') /\
  (feats_insert m k v).2 = match feats_get m k with Some (Some x) => Some x | _ => None end /\
  feats_get (feats_remove m k).1 k = None /\
  (k' <> k -> feats_get (feats_remove m k).1 k' = feats_get m k') /\
  (feats_remove m k).2 = feats_get m k.
Proof.
  unfold feats_get, feats_insert, feats_remove; simpl. split_and!.
  - apply lookup_insert.
  - intros. by apply lookup_insert_ne.
  - by destruct (m !! k) as [[x|]|].
  - apply lookup_delete.
  - intros. by apply lookup_delete_ne.
  - done.
Qed.
Print Assumptions C07_feature_map.

(** C08: the textual form can be parsed back. *)
Theorem C08_roundtrip (m : features) :
  (forall k v, feats_get m k = Some v ->
     (124%N ∉ k /\ 58%N ∉ k) /\
     match v with Some v => 124%N ∉ v /\ 58%N ∉ v | None => k <> [] end) ->
  feats_from (feats_to_string m) = m.
Proof. exact (feats_roundtrip m). Qed.
Print Assumptions C08_roundtrip.
Definition C08_map : features := feats_from (lit "key:value|flag|another:one").
Example C08_ex :
  (forall k v, feats_get C08_map k = Some v ->
     (124%N ∉ k /\ 58%N ∉ k) /\
     match v with Some v => 124%N ∉ v /\ 58%N ∉ v | None => k <> [] end)
  /\ feats_to_string C08_map = lit "another:one|flag|key:value".
Proof.
  split; [|by vm_compute].
  assert (H : map_Forall (fun (k : str) (v : option str) =>
     (124%N ∉ k /\ 58%N ∉ k) /\
     match v with Some v => 124%N ∉ v /\ 58%N ∉ v | None => k <> [] end) C08_map).
  { apply map_Forall_to_list.
    let l := eval vm_compute in (map_to_list C08_map) in
    replace (map_to_list C08_map) with l by (by vm_compute).
    repeat (apply Forall_cons; split); try apply Forall_nil; simpl;
      repeat match goal with |- _ /\ _ => split end; try discriminate; apply (bool_decide_unpack _); by vm_compute. }
  exact H.
Qed.

(** Without the restriction the round trip fails: an empty key without value vanishes, and a
    second [':'] cuts the value off. *)
Theorem C08_unrestricted_refuted :
  (exists m : features, feats_from (feats_to_string m) <> m /\ m !! [] = Some None) /\
  (exists m : features, feats_from (feats_to_string m) <> m /\ m !! lit "k" = Some (Some (lit "a:b"))).
Proof.
  split.
  - exists {[ [] := None ]}. split; [|done]. intros H.
    apply (f_equal (fun m : features => m !! [])) in H. by vm_compute in H.
  - exists {[ lit "k" := Some (lit "a:b") ]}. split; [|done]. intros H.
    apply (f_equal (fun m : features => m !! lit "k")) in H. by vm_compute in H.
Qed.
Print Assumptions C08_unrestricted_refuted.

(** C51: label sets. *)
Theorem C51_label_set (s : gset str) (q : str) :
  (label_matches (Positive s) q = true <-> q ∈ s) /\
  (label_matches (Negative s) q = true <-> q ∉ s).
Proof.
  unfold label_matches. rewrite negb_true_iff, bool_decide_eq_true, bool_decide_eq_false. done.
Qed.
Print Assumptions C51_label_set.
