(** Lemmas about outcomes, loops, strings and decimal numbers. *)
From Coq Require Import Lia DecimalFacts DecimalPos DecimalN.
From Verif Require Import Base.

(** ** Outcomes *)
Lemma bind_Ret {A B} (m : outcome A) (f : A -> outcome B) b :
  m ≫= f = Ret b <-> exists a, m = Ret a /\ f a = Ret b.
Proof. destruct m; naive_solver. Qed.
Lemma assert_Ret b : assert b = Ret () <-> b = true.
Proof. by destruct b. Qed.
Lemma unwrap_Ret {A} (o : option A) a : unwrap o = Ret a <-> o = Some a.
Proof. destruct o; naive_solver. Qed.
Lemma unwrap_ok_Ret {A} (r : result A) a : unwrap_ok r = Ret a <-> r = Ok a.
Proof. destruct r; naive_solver. Qed.
Lemma sub_chk_Ret a b c : sub_chk a b = Ret c <-> b <= a /\ c = a - b.
Proof. unfold sub_chk. destruct (Nat.leb_spec b a); naive_solver lia. Qed.
Lemma sub_chk_ok a b : b <= a -> sub_chk a b = Ret (a - b).
Proof. rewrite sub_chk_Ret. done. Qed.

Lemma foldM_app {A S} (f : S -> A -> outcome S) l1 l2 s :
  foldM f (l1 ++ l2) s = (s' ← foldM f l1 s; foldM f l2 s').
Proof.
  revert s. induction l1 as [|x l1 IH]; intros s; simpl; [done|].
  destruct (f s x); simpl; [apply IH|done|done].
Qed.

(** Loop rule: an invariant indexed by the processed and the remaining elements. *)
Lemma foldM_ind {A S} (f : S -> A -> outcome S) (I : list A -> list A -> S -> Prop) l s :
  I [] l s ->
  (forall done_ x rest s, I done_ (x :: rest) s -> exists s', f s x = Ret s' /\ I (done_ ++ [x]) rest s') ->
  exists s', foldM f l s = Ret s' /\ I l [] s'.
Proof.
  intros H0 Hstep.
  assert (forall done_ s, I done_ l s -> exists s', foldM f l s = Ret s' /\ I (done_ ++ l) [] s') as H.
  { clear H0 s. induction l as [|x l IH]; intros d s Hi; simpl.
    - exists s. by rewrite app_nil_r.
    - destruct (Hstep d x l s Hi) as (s1 & E & Hi1). rewrite E. simpl.
      destruct (IH _ _ Hi1) as (s2 & E2 & Hi2). exists s2. split; [done|].
      by rewrite <- app_assoc in Hi2. }
  apply (H [] s H0).
Qed.

Lemma mapO_map {A B} (f : A -> outcome B) (g : A -> B) l :
  (forall x, x ∈ l -> f x = Ret (g x)) -> mapO f l = Ret (map g l).
Proof.
  induction l as [|x l IH]; intros H; simpl; [done|].
  rewrite (H x) by set_solver. simpl. rewrite IH by set_solver. done.
Qed.

Lemma filter_all {A} (P : A -> Prop) `{!forall x, Decision (P x)} (l : list A) :
  (forall x, x ∈ l -> P x) -> filter P l = l.
Proof.
  induction l as [|x l IH]; intros HP; [done|]. rewrite filter_cons.
  rewrite decide_True by (apply HP; set_solver). f_equal. apply IH. set_solver.
Qed.
Lemma filter_none {A} (P : A -> Prop) `{!forall x, Decision (P x)} (l : list A) :
  (forall x, x ∈ l -> ~ P x) -> filter P l = [].
Proof.
  induction l as [|x l IH]; intros HP; [done|]. rewrite filter_cons.
  rewrite decide_False by (apply HP; set_solver). apply IH. set_solver.
Qed.

(** ** Splitting and joining *)
Lemma split_char_nil c s : split_char c s <> [].
Proof.
  destruct s as [|x s]; simpl; [done|]. destruct (N.eqb x c); [done|].
  by destruct (split_char c s).
Qed.
Lemma split_char_none c s : c ∉ s -> split_char c s = [s].
Proof.
  induction s as [|x s IH]; intros H; simpl; [done|].
  apply not_elem_of_cons in H as [Hx H]. rewrite (IH H).
  destruct (N.eqb_spec x c); [congruence|done].
Qed.
Lemma split_char_app c p s :
  c ∉ p -> split_char c (p ++ c :: s) = p :: split_char c s.
Proof.
  induction p as [|x p IH]; intros H; simpl.
  - by rewrite N.eqb_refl.
  - apply not_elem_of_cons in H as [Hx H]. rewrite (IH H).
    destruct (N.eqb_spec x c); [congruence|done].
Qed.
Lemma join_cons2 sep x y l : join sep (x :: y :: l) = x ++ sep ++ join sep (y :: l).
Proof. done. Qed.
Lemma split_char_join c l :
  l <> [] -> (forall p, p ∈ l -> c ∉ p) -> split_char c (join [c] l) = l.
Proof.
  induction l as [|x l IH]; intros Hn Hl; [done|]. destruct l as [|y l].
  - simpl. apply split_char_none, Hl. set_solver.
  - rewrite join_cons2. rewrite <- (IH ltac:(done)) at 2 by set_solver.
    change ([c] ++ join [c] (y :: l)) with (c :: join [c] (y :: l)).
    apply split_char_app, Hl. set_solver.
Qed.

Lemma is_prefix_app p s : is_prefix p (p ++ s) = true.
Proof. induction p as [|x p IH]; simpl; [done|]. by rewrite N.eqb_refl. Qed.
Lemma is_prefix_spec p s : is_prefix p s = true <-> exists r, s = p ++ r.
Proof.
  split.
  - revert s. induction p as [|x p IH]; intros s; simpl; [eauto|].
    destruct s as [|y s]; [done|]. rewrite andb_true_iff, N.eqb_eq. intros [-> H].
    destruct (IH _ H) as [r ->]. by exists r.
  - intros [r ->]. apply is_prefix_app.
Qed.

Lemma split_str_go_skip d k a s : length a = k -> split_str_go d k (a ++ s) = split_str_go d 0 s.
Proof.
  revert k. induction a as [|x a IH]; intros k Hk; simpl in *; subst; [done|]. by apply IH.
Qed.
Lemma split_str_go_none c d s : c ∉ s -> split_str_go (c :: d) 0 s = [s].
Proof.
  induction s as [|x s IH]; intros H; cbn [split_str_go]; [done|].
  apply not_elem_of_cons in H as [Hx H]. rewrite (IH H). cbn [is_prefix].
  destruct (N.eqb_spec c x); [congruence|done].
Qed.
Lemma split_str_go_app c d p s :
  c ∉ p -> split_str_go (c :: d) 0 (p ++ (c :: d) ++ s) = p :: split_str_go (c :: d) 0 s.
Proof.
  induction p as [|x p IH]; intros H.
  - change ([] ++ (c :: d) ++ s) with (c :: (d ++ s)). cbn [split_str_go].
    change (c :: d ++ s) with ((c :: d) ++ s). rewrite is_prefix_app. f_equal.
    apply split_str_go_skip. simpl. lia.
  - apply not_elem_of_cons in H as [Hx H].
    change ((x :: p) ++ (c :: d) ++ s) with (x :: (p ++ (c :: d) ++ s)).
    cbn [split_str_go]. cbn [is_prefix]. destruct (N.eqb_spec c x); [congruence|].
    simpl andb. cbv iota. by rewrite (IH H).
Qed.
(** Joining with a delimiter and splitting is the identity when the delimiter's first character
    does not occur in the pieces. *)
Lemma split_str_join c d l :
  l <> [] -> (forall p, p ∈ l -> c ∉ p) -> split_str (c :: d) (join (c :: d) l) = l.
Proof.
  unfold split_str. induction l as [|x l IH]; intros Hn Hl; [done|]. destruct l as [|y l].
  - apply split_str_go_none, Hl. set_solver.
  - rewrite join_cons2. rewrite split_str_go_app by (apply Hl; set_solver).
    f_equal. apply IH; [done|set_solver].
Qed.

(** ** Decimal numbers *)
Lemma parse_digits_uint d acc :
  parse_digits (uint_digits d) (Npos acc) = Some (Npos (Pos.of_uint_acc d acc)).
Proof.
  revert acc. induction d; intros acc; [done|..]; cbn [Pos.of_uint_acc];
    rewrite <- IHd; cbn [uint_digits parse_digits];
    (let v := eval vm_compute in (digit_val 48%N) in change (digit_val 48%N) with v);
    (let v := eval vm_compute in (digit_val 49%N) in change (digit_val 49%N) with v);
    (let v := eval vm_compute in (digit_val 50%N) in change (digit_val 50%N) with v);
    (let v := eval vm_compute in (digit_val 51%N) in change (digit_val 51%N) with v);
    (let v := eval vm_compute in (digit_val 52%N) in change (digit_val 52%N) with v);
    (let v := eval vm_compute in (digit_val 53%N) in change (digit_val 53%N) with v);
    (let v := eval vm_compute in (digit_val 54%N) in change (digit_val 54%N) with v);
    (let v := eval vm_compute in (digit_val 55%N) in change (digit_val 55%N) with v);
    (let v := eval vm_compute in (digit_val 56%N) in change (digit_val 56%N) with v);
    (let v := eval vm_compute in (digit_val 57%N) in change (digit_val 57%N) with v);
    unfold mbind, option_bind; f_equal; lia.
Qed.
Lemma parse_digits_uint0 d : parse_digits (uint_digits d) 0%N = Some (N.of_uint d).
Proof.
  unfold N.of_uint. induction d; [done|exact IHd|..].
  all: etransitivity; [exact (parse_digits_uint d _)|done].
Qed.
Lemma uint_digits_digit d c : c ∈ uint_digits d -> (48 <= c <= 57)%N.
Proof. induction d; simpl; rewrite ?elem_of_cons, ?elem_of_nil; intros H; [done|..]; naive_solver lia. Qed.
Lemma print_nat_digits n c : c ∈ print_nat n -> (48 <= c <= 57)%N.
Proof. apply uint_digits_digit. Qed.
Lemma uint_digits_nonnil d : d <> Decimal.Nil -> uint_digits d <> [].
Proof. by destruct d. Qed.
Lemma N_to_uint_nonnil n : N.to_uint n <> Decimal.Nil.
Proof.
  destruct n as [|p]; simpl; [done|]. intros H.
  pose proof (DecimalPos.Unsigned.of_to p) as Hp. rewrite H in Hp. done.
Qed.
Lemma print_nat_nonnil n : print_nat n <> [].
Proof. apply uint_digits_nonnil, N_to_uint_nonnil. Qed.
Lemma strip_plus_digits s : (forall c, c ∈ s -> (48 <= c <= 57)%N) -> strip_plus s = s.
Proof.
  destruct s as [|c s]; intros H; simpl; [done|].
  destruct (N.eqb_spec c 43); [|done]. specialize (H c ltac:(set_solver)). lia.
Qed.
Lemma parse_print_Z z : (- Z.of_N isize_bound <= z < Z.of_N isize_bound)%Z ->
  parse_isize (print_Z z) = Some z.
Proof.
  intros Hz.
  assert (Hp : forall n, parse_digits (print_nat n) 0%N = Some (N.of_nat n)).
  { intros n. unfold print_nat. rewrite parse_digits_uint0. by rewrite DecimalN.Unsigned.of_to. }
  assert (Hpos : forall n, (N.of_nat n < isize_bound)%N ->
            parse_isize (print_nat n) = Some (Z.of_nat n)).
  { intros n Hn. pose proof (print_nat_digits n) as Hd. pose proof (print_nat_nonnil n) as Hne.
    specialize (Hp n). pose proof (strip_plus_digits _ Hd) as Hs. unfold parse_isize.
    destruct (print_nat n) as [|c s]; [done|].
    destruct (N.eqb_spec c 45); [specialize (Hd c ltac:(set_solver)); lia|].
    rewrite Hs, Hp. simpl. destruct (N.ltb_spec (N.of_nat n) isize_bound); [|lia].
    f_equal. lia. }
  destruct z as [|p|p].
  - apply (Hpos 0). done.
  - unfold print_Z. rewrite Hpos; [|lia]. f_equal. lia.
  - unfold print_Z, parse_isize. rewrite N.eqb_refl.
    pose proof (print_nat_nonnil (Pos.to_nat p)) as Hne. specialize (Hp (Pos.to_nat p)).
    destruct (print_nat (Pos.to_nat p)) as [|c s]; [done|]. rewrite Hp. simpl.
    destruct (N.leb_spec (N.of_nat (Pos.to_nat p)) isize_bound); [|lia]. f_equal. lia.
Qed.
Lemma parse_print_nat n :
  (N.of_nat n < usize_bound)%N -> parse_usize (print_nat n) = Some n.
Proof.
  intros Hn. pose proof (print_nat_digits n) as Hd. pose proof (print_nat_nonnil n) as Hne.
  assert (Hp : parse_digits (print_nat n) 0%N = Some (N.of_nat n)).
  { unfold print_nat. rewrite parse_digits_uint0. by rewrite DecimalN.Unsigned.of_to. }
  unfold parse_usize. rewrite strip_plus_digits by done.
  destruct (print_nat n) as [|c s]; [done|].
  rewrite Hp. simpl. destruct (N.ltb_spec (N.of_nat n) usize_bound); [|lia].
  by rewrite Nat2N.id.
Qed.
Lemma print_nat_inj n m : print_nat n = print_nat m -> n = m.
Proof.
  unfold print_nat. intros H.
  assert (Some (N.of_nat n) = Some (N.of_nat m)) as E.
  { rewrite <- (DecimalN.Unsigned.of_to (N.of_nat n)), <- (DecimalN.Unsigned.of_to (N.of_nat m)).
    rewrite <- !parse_digits_uint0. by rewrite H. }
  simplify_eq. lia.
Qed.

(** ** String order *)
Lemma str_cmp_refl a : str_cmp a a = Eq.
Proof. induction a as [|x a IH]; simpl; [done|]. by rewrite N.compare_refl. Qed.
Lemma str_cmp_antisym a b : str_cmp b a = CompOpp (str_cmp a b).
Proof.
  revert b. induction a as [|x a IH]; intros [|y b]; simpl; try done.
  rewrite N.compare_antisym. destruct (N.compare x y); simpl; [apply IH|done|done].
Qed.
Lemma str_cmp_eq a b : str_cmp a b = Eq <-> a = b.
Proof.
  split; [|intros ->; apply str_cmp_refl]. revert b.
  induction a as [|x a IH]; intros [|y b]; simpl; try done.
  destruct (N.compare_spec x y); try done. subst. intros E. by rewrite (IH b E).
Qed.
Lemma str_cmp_trans a b c : str_cmp a b <> Gt -> str_cmp b c <> Gt -> str_cmp a c <> Gt.
Proof.
  revert b c. induction a as [|x a IH]; intros [|y b] [|z c]; simpl; try done.
  destruct (N.compare_spec x y), (N.compare_spec y z), (N.compare_spec x z); subst; try done; try lia.
  apply IH.
Qed.
