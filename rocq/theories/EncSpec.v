(** Specification vocabulary for tree encodings.  Only data types of the model are used. *)
From Coq Require Import ZArith.
From Verif Require Export EncModel TreeSpec RoseSpec ShapeProofs.

(** The value stored under the key ["unary_chain"]. *)
Definition chain_in (m : option features) : option str :=
  match m with
  | Some m => match m !! lit "unary_chain" with Some (Some c) => Some c | _ => None end
  | None => None
  end.
(** Label of a nonterminal including the chain above it, joined by ["_"]. *)
Definition full_label (nt : nonterminal) : str :=
  match chain_in (nt_feats nt) with
  | Some c => c ++ lit "_" ++ nt_label nt
  | None => nt_label nt
  end.

(** [lca N es p i j]: [p] is the lowest node with both positions in its yield. *)
Definition lca (N : gmap nat node) (es : list erec) (p i j : nat) : Prop :=
  yields N es p i /\ yields N es p j /\
  forall q, yields N es q i -> yields N es q j -> Dom es q p.

(** The number of nodes on the path from [p] to the root, both included. *)
Definition level (es : list erec) (p k : nat) : Prop := exists l, upath es p l /\ k = S (length l).

(** *** Encodings of rose trees *)
(** [x] between any two consecutive lists. *)
Fixpoint interleave {A} (x : A) (ls : list (list A)) : list A :=
  match ls with
  | [] => []
  | [l] => l
  | l :: ls => l ++ x :: interleave x ls
  end.
(** One entry for every pair of neighbouring leaves: their lowest common ancestor's label and how
    many ancestors they share; [d] is the number of nodes above [r]. *)
Fixpoint gaps (d : nat) (r : rose) : list abs_anc :=
  match r with
  | RLeaf _ => []
  | RNode nt cs => interleave (mk_abs (S d) (full_label nt)) (map (fun c => gaps (S d) c.2) cs)
  end.
(** The encoding: the last leaf has no ancestor entry; every leaf carries its chain. *)
Definition rose_enc (r : rose) : abs_enc :=
  zip (map Some (gaps 0 r) ++ [None]) (map (fun tm => chain_in (t_feats tm)) (leaves r)).

(** *** Scales *)
(** All depths at least one. *)
Definition depths_pos (e : abs_enc) : Prop := forall a u, (Some a, u) ∈ e -> 1 <= ab_common a.
(** All depths representable as [isize]. *)
Definition depths_repr (e : abs_enc) : Prop :=
  forall a u, (Some a, u) ∈ e -> (Z.of_nat (ab_common a) < Z.of_N isize_bound)%Z.

(** Depth of the last entry that has an ancestor; [0] if there is none. *)
Definition last_depth (e : abs_enc) : Z :=
  from_option (fun a => Z.of_nat (ab_common a)) 0%Z (last (omap fst e)).

(** The absolute depth a relative label stands for, given the depth before it. *)
Definition exact_depth (prev : Z) (a : rel_anc) : Z :=
  match a with RRegular o _ => (o + prev)%Z | RRoot _ => 1%Z end.
Definition rel_label (a : rel_anc) : str := match a with RRegular _ l => l | RRoot l => l end.
(** [fixed n k]: [k] is the depth used for the exact depth [n]. *)
Definition fixed (n : Z) (k : nat) : Prop :=
  if decide (1 <= n)%Z then Z.of_nat k = n else k = 2.

(** Entry [i] of the absolute encoding [e] answers entry [i] of the relative encoding [r] under [R],
    where the exact depth is computed from the depths of [e] before [i]. *)
Definition answers (R : Z -> nat -> Prop) (r : rel_enc) (e : abs_enc) : Prop :=
  length e = length r /\
  forall i x y, r !! i = Some x -> e !! i = Some y ->
    y.2 = x.2 /\
    match x.1, y.1 with
    | None, None => True
    | Some a, Some b => ab_label b = rel_label a /\ R (exact_depth (last_depth (take i e)) a) (ab_common b)
    | _, _ => False
    end.

(** No [isize] overflow can happen: offsets are [isize]s and the positive ones stay small in total. *)
Definition pos_offset (x : option rel_anc * option str) : Z :=
  match x.1 with Some (RRegular o _) => Z.max o 0 | _ => 0%Z end.
Definition offsets_repr (r : rel_enc) : Prop :=
  (forall o l u, (Some (RRegular o l), u) ∈ r -> (- Z.of_N isize_bound <= o)%Z) /\
  (2 + foldr (fun x s => pos_offset x + s) 0 r < Z.of_N isize_bound)%Z.
