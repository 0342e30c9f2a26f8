(** Lemmas about feature maps. *)
From Coq Require Import Lia.
From Verif Require Import FeatModel BaseProofs SpanProofs.

Lemma foldl_insert_lookup (l : list (str * option str)) (m : features) k :
  NoDup l.*1 ->
  foldl (fun (m : features) kv => <[kv.1 := kv.2]> m) m l !! k
  = match (list_to_map l : features) !! k with Some v => Some v | None => m !! k end.
Proof.
  revert m. induction l as [|[k' v] l IH]; intros m Hnd; simpl.
  - by rewrite lookup_empty.
  - apply NoDup_cons in Hnd as [Hn Hnd]. rewrite IH by done.
    destruct (decide (k = k')) as [->|Hne].
    + rewrite lookup_insert. rewrite not_elem_of_list_to_map_1 by done. by rewrite lookup_insert.
    + rewrite (lookup_insert_ne (list_to_map l : features)) by done.
      destruct ((list_to_map l : features) !! k); [done|]. by rewrite lookup_insert_ne.
Qed.
Lemma feats_from_iter_perm (m : features) l : l ≡ₚ map_to_list m -> feats_from_iter l = m.
Proof.
  intros Hp. assert (Hnd : NoDup l.*1). { rewrite Hp. apply NoDup_fst_map_to_list. }
  apply map_eq. intros k. unfold feats_from_iter. rewrite foldl_insert_lookup by done.
  rewrite lookup_empty. rewrite (list_to_map_proper l (map_to_list m)) by done.
  rewrite list_to_map_to_list. by destruct (m !! k).
Qed.

(** Strings that can be written into the textual form. *)
Definition feat_str_ok (s : str) : Prop := 124%N ∉ s /\ 58%N ∉ s.
Definition feats_ok (m : features) : Prop :=
  forall k v, m !! k = Some v ->
    feat_str_ok k /\ match v with Some v => feat_str_ok v | None => k <> [] end.

Lemma feat_piece_print kv :
  feat_str_ok kv.1 -> (forall v, kv.2 = Some v -> feat_str_ok v) -> feat_piece (feat_print kv) = kv.
Proof.
  destruct kv as [k [v|]]; simpl; intros [_ Hk] Hv; unfold feat_piece, feat_print; simpl.
  - rewrite split_char_app by done. destruct (Hv v eq_refl) as [_ Hv']. by rewrite split_char_none.
  - by rewrite split_char_none.
Qed.

Lemma feats_roundtrip m : feats_ok m -> feats_from (feats_to_string m) = m.
Proof.
  intros Hok. unfold feats_from, feats_to_string.
  set (l := feats_iter m).
  assert (Hp : l ≡ₚ map_to_list m) by apply sort_by_perm.
  assert (Hl : forall kv, kv ∈ l -> feat_str_ok kv.1 /\
      match kv.2 with Some v => feat_str_ok v | None => kv.1 <> [] end).
  { intros [k v] Hin. rewrite Hp in Hin. apply elem_of_map_to_list in Hin. by apply Hok. }
  assert (Hpr : forall p, p ∈ map feat_print l -> 124%N ∉ p /\ p <> []).
  { intros p Hin. apply elem_of_list_fmap in Hin as ([k v] & -> & Hin).
    destruct (Hl _ Hin) as [[Hk _] Hv]. simpl in *. unfold feat_print. simpl.
    destruct v as [v|]; [|done]. destruct Hv as [Hv _]. split; [set_solver by done|].
    by destruct k. }
  destruct (decide (l = [])) as [E|E].
  - rewrite E. simpl. apply map_eq. intros k.
    rewrite E in Hp. symmetry in Hp. apply Permutation_nil_r in Hp || apply Permutation_nil in Hp.
    assert (m = ∅) as ->. { by apply map_to_list_empty_iff. }
    by vm_compute.
  - rewrite split_char_join; [| |intros p Hin; by apply Hpr].
    2:{ by destruct l. }
    rewrite filter_all by (intros p Hin; by apply Hpr). rewrite map_map.
    rewrite (map_ext_in _ (fun x => x)).
    + rewrite map_id. by apply feats_from_iter_perm.
    + intros kv Hin. apply elem_of_list_In in Hin. destruct (Hl _ Hin) as [Hk Hv].
      apply feat_piece_print; [done|]. intros v E'. by rewrite E' in Hv.
Qed.
