(** Common vocabulary of the model: outcomes, results, strings.

    Rust source: /repo (sebpuetz/lumberjack).  Nothing in this file mirrors one function of the
    repository; it fixes how Rust's panics, [Result], [String] and [usize] are represented. *)
From Coq Require Import Decimal DecimalN Ascii.
From stdpp Require Export base gmap sorting fin_maps fin_sets strings numbers list.

(** ** Outcomes

    [Panic] is any Rust panic (failed [assert!], [unwrap] of [None], index out of bounds, [usize]
    underflow in a debug build).  [Diverge] is what a fuelled loop answers when its fuel is used
    up; it stands for non-termination. *)
Inductive outcome (A : Type) : Type :=
| Ret (a : A)
| Panic
| Diverge.
Arguments Ret {A} _.
Arguments Panic {A}.
Arguments Diverge {A}.

Global Instance outcome_ret : MRet outcome := fun A a => Ret a.
Global Instance outcome_bind : MBind outcome := fun A B f m =>
  match m with Ret a => f a | Panic => Panic | Diverge => Diverge end.
Global Instance outcome_map : FMap outcome := fun A B f m =>
  match m with Ret a => Ret (f a) | Panic => Panic | Diverge => Diverge end.

Arguments outcome_ret {_} _ / : assert.
Arguments outcome_bind {_ _} _ !_ / : assert.
Arguments outcome_map {_ _} _ !_ / : assert.

(** [Result<A, failure::Error>]; error messages are not modelled. *)
Inductive result (A : Type) : Type :=
| Ok (a : A)
| Err.
Arguments Ok {A} _.
Arguments Err {A}.

Definition is_ok {A} (r : result A) : bool := match r with Ok _ => true | Err => false end.

(** [Option::unwrap]/[expect]. *)
Definition unwrap {A} (o : option A) : outcome A :=
  match o with Some a => Ret a | None => Panic end.
(** [Result::unwrap]. *)
Definition unwrap_ok {A} (r : result A) : outcome A :=
  match r with Ok a => Ret a | Err => Panic end.
(** [assert!]. *)
Definition assert (b : bool) : outcome () := if b then Ret () else Panic.
(** [usize] subtraction, panicking on underflow (debug build). *)
Definition sub_chk (a b : nat) : outcome nat := if Nat.leb b a then Ret (a - b) else Panic.

(** Running a list of effects from left to right. *)
Fixpoint foldM {A S} (f : S -> A -> outcome S) (l : list A) (s : S) : outcome S :=
  match l with
  | [] => Ret s
  | x :: l => s' ← f s x; foldM f l s'
  end.

Fixpoint mapO {A B} (f : A -> outcome B) (l : list A) : outcome (list B) :=
  match l with
  | [] => Ret []
  | x :: l => y ← f x; ys ← mapO f l; Ret (y :: ys)
  end.

(** A loop over the elements whose body can return an [Err] early ([?] inside [for]). *)
Fixpoint foldR {A S} (f : S -> A -> outcome (S * result ())) (l : list A) (s : S)
  : outcome (S * result ()) :=
  match l with
  | [] => Ret (s, Ok ())
  | x :: l =>
      '(s', r) ← f s x;
      match r with Ok _ => foldR f l s' | Err => Ret (s', Err) end
  end.

(** ** Strings

    [String]/[&str] are lists of Unicode code points. *)
Definition char := N.
Definition str := list char.

Fixpoint lit (s : string) : str :=
  match s with
  | EmptyString => []
  | String a s => N_of_ascii a :: lit s
  end.

Definition str_eqb (a b : str) : bool := bool_decide (a = b).

(** Rust orders strings by UTF-8 bytes, which is the lexicographic order of code points. *)
Fixpoint str_cmp (a b : str) : comparison :=
  match a, b with
  | [], [] => Eq
  | [], _ :: _ => Lt
  | _ :: _, [] => Gt
  | x :: a, y :: b => match N.compare x y with Eq => str_cmp a b | c => c end
  end.

(** Stable insertion sort by a [comparison]; [slice::sort_by] is a stable sort. *)
Fixpoint insert_by {A} (cmp : A -> A -> comparison) (x : A) (l : list A) : list A :=
  match l with
  | [] => [x]
  | y :: l' => match cmp x y with Gt => y :: insert_by cmp x l' | _ => x :: l end
  end.
Fixpoint sort_by {A} (cmp : A -> A -> comparison) (l : list A) : list A :=
  match l with
  | [] => []
  | x :: l => insert_by cmp x (sort_by cmp l)
  end.

(** [str::split(char)]: always at least one piece. *)
Fixpoint split_char (c : char) (s : str) : list str :=
  match s with
  | [] => [[]]
  | x :: s' =>
      if N.eqb x c then [] :: split_char c s'
      else match split_char c s' with
           | [] => [[x]]
           | p :: ps => (x :: p) :: ps
           end
  end.

(** [Itertools::join]. *)
Fixpoint join (sep : str) (l : list str) : str :=
  match l with
  | [] => []
  | [x] => x
  | x :: l => x ++ sep ++ join sep l
  end.

Fixpoint is_prefix (p s : str) : bool :=
  match p, s with
  | [], _ => true
  | _ :: _, [] => false
  | x :: p, y :: s => N.eqb x y && is_prefix p s
  end.

(** [str::split(&str)] for a non-empty delimiter: leftmost, non-overlapping matches.  [skip] is
    the number of characters of the current match still to be dropped. *)
Fixpoint split_str_go (d : str) (skip : nat) (s : str) : list str :=
  match s with
  | [] => [[]]
  | x :: s' =>
      match skip with
      | S k => split_str_go d k s'
      | 0 =>
          if is_prefix d s then
            (* the match consumes [length d] characters, this one included *)
            [] :: split_str_go d (length d - 1) s'
          else match split_str_go d 0 s' with
               | [] => [[x]]
               | p :: ps => (x :: p) :: ps
               end
      end
  end.
(** With the empty delimiter Rust splits at every character boundary:
    ["ab".split("")] is ["", "a", "b", ""]. *)
Definition split_str (d : str) (s : str) : list str :=
  match d with
  | [] => [] :: map (fun x => [x]) s ++ [[]]
  | _ => split_str_go d 0 s
  end.

(** ** Decimal numbers *)
Fixpoint uint_digits (d : Decimal.uint) : str :=
  match d with
  | Decimal.Nil => []
  | Decimal.D0 d => 48%N :: uint_digits d
  | Decimal.D1 d => 49%N :: uint_digits d
  | Decimal.D2 d => 50%N :: uint_digits d
  | Decimal.D3 d => 51%N :: uint_digits d
  | Decimal.D4 d => 52%N :: uint_digits d
  | Decimal.D5 d => 53%N :: uint_digits d
  | Decimal.D6 d => 54%N :: uint_digits d
  | Decimal.D7 d => 55%N :: uint_digits d
  | Decimal.D8 d => 56%N :: uint_digits d
  | Decimal.D9 d => 57%N :: uint_digits d
  end.
(** [usize::to_string]. *)
Definition print_nat (n : nat) : str := uint_digits (N.to_uint (N.of_nat n)).

Definition digit_val (c : char) : option N :=
  if (N.leb 48 c && N.leb c 57)%bool then Some (c - 48)%N else None.

(** The accumulating loop of [usize::from_str] ([core::num], radix 10). *)
Fixpoint parse_digits (s : str) (acc : N) : option N :=
  match s with
  | [] => Some acc
  | c :: s => d ← digit_val c; parse_digits s (acc * 10 + d)%N
  end.
Definition usize_bound : N := (2 ^ 64)%N.
Definition isize_bound : N := (2 ^ 63)%N.

(** [usize::from_str]: optional leading ['+'], at least one digit, no overflow. *)
Definition strip_plus (s : str) : str :=
  match s with c :: s' => if N.eqb c 43 then s' else s | [] => [] end.
Definition parse_usize (s : str) : option nat :=
  match strip_plus s with
  | [] => None
  | d => n ← parse_digits d 0%N;
         if N.ltb n usize_bound then Some (N.to_nat n) else None
  end.

(** [isize::to_string] and [isize::from_str]. *)
Definition print_Z (z : Z) : str :=
  match z with
  | Zneg p => 45%N :: print_nat (Pos.to_nat p)
  | _ => print_nat (Z.to_nat z)
  end.
Definition parse_isize (s : str) : option Z :=
  match s with
  | [] => None
  | c :: s' =>
      if N.eqb c 45 then
        match s' with
        | [] => None
        | d => n ← parse_digits d 0%N;
               if N.leb n isize_bound then Some (- Z.of_N n)%Z else None
        end
      else
        match strip_plus s with
        | [] => None
        | d => n ← parse_digits d 0%N;
               if N.ltb n isize_bound then Some (Z.of_N n) else None
        end
  end.
