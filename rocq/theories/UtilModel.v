(** Model of [LabelSet] (/repo/lumberjack/src/util.rs:58-78). *)
From Verif Require Export Base.

(** util.rs:60-66 [LabelSet]. *)
Inductive label_set := Positive (s : gset str) | Negative (s : gset str).
(** util.rs:73-78 [LabelSet::matches]. *)
Definition label_matches (l : label_set) (q : str) : bool :=
  match l with
  | Positive s => bool_decide (q ∈ s)
  | Negative s => negb (bool_decide (q ∈ s))
  end.
