(** Model of /repo/lumberjack/src/span.rs. *)
From Verif Require Export Base.

(** span.rs:7-12 [Continuity]. *)
Inductive continuity := Continuous | Discontinuous.
Global Instance continuity_eq_dec : EqDecision continuity.
Proof. solve_decision. Defined.

(** span.rs:19-26 [Span].  [HashSet<usize>] is a finite set; [PartialEq] is derived, i.e. equality
    of bounds and of the optional sets, which is Leibniz equality here. *)
Record span := mk_span { sp_start : nat; sp_end : nat; sp_skips : option (gset nat) }.
Global Instance span_eq_dec : EqDecision span.
Proof. solve_decision. Defined.
Definition span_eqb (a b : span) : bool := bool_decide (a = b).

(** span.rs:28-36 [From<usize>]. *)
Definition span_of (idx : nat) : span := mk_span idx (idx + 1) None.

(** span.rs:44-57 [Span::new_with_skips].  [upper - lower - skips.len() > 0] panics on underflow in
    a debug build, and is false with truncated subtraction: a panic either way. *)
Definition span_new_with_skips (lower upper : nat) (skips : gset nat) : outcome span :=
  _ ← assert (Nat.ltb lower upper);
  _ ← assert (negb (Nat.eqb (size skips) 0));
  _ ← assert (Nat.ltb 0 (upper - lower - size skips));
  Ret (mk_span lower upper (Some skips)).

(** span.rs:60-67 [Span::new]. *)
Definition span_new (lower upper : nat) : outcome span :=
  _ ← assert (Nat.ltb lower upper);
  Ret (mk_span lower upper None).

(** span.rs:70-79 [Span::contains]. *)
Definition span_contains (s : span) (i : nat) : bool :=
  if (Nat.leb (sp_start s) i && Nat.ltb i (sp_end s))%bool then
    match sp_skips s with
    | Some k => negb (bool_decide (i ∈ k))
    | None => true
    end
  else false.

(** span.rs:82-95 [Span::covers_span].  The loop over the hash set returns [false] as soon as one
    skipped index is contained in [other], so its iteration order is irrelevant. *)
Definition span_covers (s other : span) : bool :=
  if (Nat.leb (sp_start s) (sp_start other) && Nat.leb (sp_end other) (sp_end s))%bool then
    match sp_skips s with
    | Some k => forallb (fun i => negb (span_contains other i)) (elements k)
    | None => true
    end
  else false.

(** span.rs:103-109 [Span::n_indices].  Truncated subtraction; on spans satisfying the
    representation invariant there is no underflow (see [span_n_indices_no_underflow]). *)
Definition span_n_indices (s : span) : nat :=
  match sp_skips s with
  | Some k => sp_end s - sp_start s - size k
  | None => sp_end s - sp_start s
  end.

(** span.rs:119-146 [Span::merge_spans] (does not mutate [self] although it takes [&mut]). *)
Definition span_merge (s o : span) : outcome span :=
  let start := if Nat.leb (sp_start s) (sp_start o) then sp_start s else sp_start o in
  let stop := if Nat.leb (sp_end o) (sp_end s) then sp_end s else sp_end o in
  let skips : gset nat :=
    list_to_set (filter (fun i => span_contains s i = false /\ span_contains o i = false)
                        (seq start (stop - start))) in
  if Nat.eqb (size skips) 0 then span_new start stop
  else span_new_with_skips start stop skips.

(** span.rs:179-181, [while skips.remove(&self.start) { self.start += 1; }].  Each turn removes an
    element, so [size skips] turns suffice; the model answers [Diverge] otherwise. *)
Fixpoint trim_start (fuel : nat) (start : nat) (skips : gset nat) : outcome (nat * gset nat) :=
  if bool_decide (start ∈ skips) then
    match fuel with
    | 0 => Diverge
    | S fuel => trim_start fuel (start + 1) (skips ∖ {[start]})
    end
  else Ret (start, skips).

(** span.rs:183-185, [while skips.remove(&(self.end - 1)) { self.end -= 1; }]. *)
Fixpoint trim_end (fuel : nat) (stop : nat) (skips : gset nat) : outcome (nat * gset nat) :=
  last ← sub_chk stop 1;
  if bool_decide (last ∈ skips) then
    match fuel with
    | 0 => Diverge
    | S fuel => trim_end fuel last (skips ∖ {[last]})
    end
  else Ret (stop, skips).

(** span.rs:152-193 [Span::remove_indices]: the new span and its continuity. *)
Definition span_remove (s : span) (indices : list nat) : outcome (span * continuity) :=
  _ ← assert (forallb (fun i => Nat.leb (sp_start s) i && Nat.ltb i (sp_end s))%bool indices);
  let skips := default ∅ (sp_skips s) ∪ list_to_set indices in
  _ ← assert (Nat.ltb (size skips) (sp_end s - sp_start s));
  '(start, skips) ← trim_start (size skips) (sp_start s) skips;
  '(stop, skips) ← trim_end (size skips) (sp_end s) skips;
  if Nat.eqb (size skips) 0 then Ret (mk_span start stop None, Continuous)
  else Ret (mk_span start stop (Some skips), Discontinuous).

(** span.rs:204-215, the loop collecting the gaps of the sorted list, walked backwards. *)
Fixpoint collect_gaps (rev_ids : list nat) (prev : nat) (skips : gset nat) : gset nat :=
  match rev_ids with
  | [] => skips
  | id :: ids =>
      if Nat.eqb prev (id + 1) then collect_gaps ids id skips
      else collect_gaps ids id (skips ∪ list_to_set (seq (id + 1) (prev - (id + 1))))
  end.

(** span.rs:196-221 [Span::from_vec]. *)
Definition span_from_vec (coverage : list nat) : outcome (result span) :=
  let cov := sort_by Nat.compare coverage in
  match head cov, last cov with
  | Some first, Some lst =>
      let lower := first in
      let upper := lst + 1 in
      let skips := collect_gaps (rev cov) upper ∅ in
      if Nat.eqb (size skips) 0 then s ← span_new lower upper; Ret (Ok s)
      else s ← span_new_with_skips lower upper skips; Ret (Ok s)
  | _, _ => Ret Err
  end.

(** span.rs:224-226 [Span::extend]. *)
Definition span_extend (s : span) : span := mk_span (sp_start s) (sp_end s + 1) (sp_skips s).

(** span.rs:229-243 [Ord::cmp]. *)
Definition span_cmp (a b : span) : comparison :=
  if negb (Nat.eqb (sp_start a) (sp_start b)) then Nat.compare (sp_start a) (sp_start b)
  else if negb (Nat.eqb (sp_end a) (sp_end b)) then Nat.compare (sp_end a) (sp_end b)
  else Nat.compare (span_n_indices a) (span_n_indices b).

(** span.rs:251-284 [IntoIterator for &Span], [SpanIter::next]: the whole sequence. *)
Definition span_iter (s : span) : list nat :=
  filter (fun i => i ∉ default ∅ (sp_skips s))
         (seq (sp_start s) (sp_end s - sp_start s)).

(** The [continuity] methods of node.rs:72-78, 220-226 look only at [skips]. *)
Definition span_continuity (s : span) : continuity :=
  match sp_skips s with Some _ => Discontinuous | None => Continuous end.
