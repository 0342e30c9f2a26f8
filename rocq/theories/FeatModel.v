(** Model of /repo/lumberjack/src/features.rs. *)
From Verif Require Export Base.

(** features.rs:10-13 [Features]: a [BTreeMap<String, Option<String>>].  Equality is map equality;
    the key order matters only for [to_string], which sorts. *)
Notation features := (gmap str (option str)).

(** features.rs:22-29, one piece of the text: [split(':')], first and second part. *)
Definition feat_piece (f : str) : str * option str :=
  match split_char 58%N f with
  | [] => ([], None) (* not reached: [split] yields at least one piece *)
  | [k] => (k, None)
  | k :: v :: _ => (k, Some v)
  end.

(** features.rs:33-48 [FromIterator]: later keys replace earlier ones. *)
Definition feats_from_iter (l : list (str * option str)) : features :=
  foldl (fun (m : features) kv => <[kv.1 := kv.2]> m) ∅ l.

(** features.rs:15-31 [From<S: AsRef<str>>]. *)
Definition feats_from (s : str) : features :=
  feats_from_iter (map feat_piece (filter (fun p => p <> []) (split_char 124%N s))).

(** features.rs:70-78 [Features::insert]: the new map and the replaced value (flattened). *)
Definition feats_insert (m : features) (k : str) (v : option str) : features * option str :=
  (<[k := v]> m, mjoin (m !! k)).

(** features.rs:81-83 [Features::get_val]. *)
Definition feats_get (m : features) (k : str) : option (option str) := m !! k.

(** features.rs:88-90 [Features::remove]. *)
Definition feats_remove (m : features) (k : str) : features * option (option str) :=
  (delete k m, m !! k).

(** [BTreeMap::iter]: in increasing key order. *)
Definition feats_iter (m : features) : list (str * option str) :=
  sort_by (fun a b => str_cmp a.1 b.1) (map_to_list m).

(** features.rs:93-106 [ToString]. *)
Definition feat_print (kv : str * option str) : str :=
  match kv.2 with Some v => kv.1 ++ [58%N] ++ v | None => kv.1 end.
Definition feats_to_string (m : features) : str := join [124%N] (map feat_print (feats_iter m)).

(** The comparison of optional features used by [PartialEq] of both node kinds
    (node.rs:197-202, 324-329): [None] equals the empty map. *)
Definition opt_feats_eqb (a b : option features) : bool :=
  match a, b with
  | Some f, Some g => bool_decide (f = g)
  | None, None => true
  | Some f, None => bool_decide (f = ∅)
  | None, Some f => bool_decide (f = ∅)
  end.
