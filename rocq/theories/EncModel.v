(** Model of /repo/lumberjack/src/io/encode.rs: tree encodings as label sequences. *)
From Coq Require Import ZArith.
From Verif Require Export ModModel.

(** ** [isize] arithmetic

    [as isize] wraps, [+] and [-] panic on overflow (debug build). *)
Definition isize_chk (z : Z) : outcome Z :=
  if ((- Z.of_N isize_bound <=? z) && (z <? Z.of_N isize_bound))%Z%bool then Ret z else Panic.
Definition as_isize (n : nat) : Z :=
  let z := (Z.of_nat n mod Z.of_N usize_bound)%Z in
  if (z <? Z.of_N isize_bound)%Z then z else (z - Z.of_N usize_bound)%Z.

(** ** Data *)
(** encode.rs:24 [EMPTY_NODE]. *)
Definition DUMMY : str := lit "DUMMY".
(** encode.rs:331-335 [AbsoluteAncestor]. *)
Record abs_anc := mk_abs { ab_common : nat; ab_label : str }.
(** encode.rs:386-390 [RelativeAncestor]. *)
Inductive rel_anc := RRegular (offset : Z) (label : str) | RRoot (label : str).
(** encode.rs:440-441 [AbsoluteEncoding]; encode.rs:613-620 [RelativeEncoding]. *)
Notation abs_enc := (list (option abs_anc * option str)).
Notation rel_enc := (list (option rel_anc * option str)).

(** ** Encoding *)
(** [features().and_then(|f| f.get_val("unary_chain"))] with a value present
    (encode.rs:72-75, 91-94, 125-128, 157-160, 185-187). *)
Definition chain_of (w : node) : option str :=
  match node_feats w with
  | Some m => match feats_get m unary_chain with Some (Some c) => Some c | _ => None end
  | None => None
  end.

(** encode.rs:184-192, the label of a common ancestor. *)
Definition common_label (nt : nonterminal) : str :=
  match chain_of (NT nt) with
  | Some c => c ++ [95%N] ++ nt_label nt
  | None => nt_label nt
  end.

(** encode.rs:173-199, the climb of [get_common]. *)
Fixpoint common_climb (fuel : nat) (t : tree) (idx : nat) (c : climber) (common : option str) (n : nat)
  : outcome (result (option (str * nat))) :=
  match climber_next c t with
  | None => Ret (Ok ((fun l => (l, n)) <$> common))
  | Some ((p, _), c) =>
      match fuel with
      | 0 => Diverge
      | S fuel =>
          w ← node_at t p;
          match sp_skips (node_span w) with
          | Some _ => Ret Err
          | None =>
              match (if (span_contains (node_span w) (idx + 1) && bool_decide (common = None))%bool then
                       match node_nonterminal w with
                       | None => Err
                       | Some nt => Ok (Some (common_label nt))
                       end
                     else Ok common) with
              | Err => Ret Err
              | Ok common =>
                  common_climb fuel t idx c common (match common with Some _ => S n | None => n end)
              end
          end
      end
  end.
(** encode.rs:169-200 [get_common]. *)
Definition get_common (t : tree) (n : nat) : outcome (result (option (str * nat))) :=
  w ← node_at t n;
  common_climb (climb_fuel t) t (sp_start (node_span w)) (climber_new n t) None 0.

(** encode.rs:68-78, the loop of [encode_absolute]. *)
Fixpoint encode_abs_loop (t : tree) (l : list nat) (acc : abs_enc) : outcome (result abs_enc) :=
  match l with
  | [] => Ret (Ok acc)
  | n :: l =>
      r ← get_common t n;
      match r with
      | Err => Ret Err
      | Ok o =>
          w ← node_at t n;
          encode_abs_loop t l (acc ++ [((fun '(c, k) => mk_abs k c) <$> o, chain_of w)])
      end
  end.
(** encode.rs:61-79 [encode_absolute]. *)
Definition encode_absolute (t : tree) : outcome (result abs_enc) :=
  if negb (is_projective t) then Ret Err
  else encode_abs_loop t (sort_indices t (terminals t)) [].

(** encode.rs:114-121, one relative label and the new [prev_n]. *)
Definition rel_of (prev_n : Z) (o : option (str * nat)) : outcome (option rel_anc * Z) :=
  match o with
  | None => Ret (None, prev_n)
  | Some (c, k) =>
      if Nat.eqb k 1 then Ret (Some (RRoot c), as_isize k)
      else d ← isize_chk (as_isize k - prev_n); Ret (Some (RRegular d c), as_isize k)
  end.
(** encode.rs:112-132, the loop of [encode_relative]. *)
Fixpoint encode_rel_loop (t : tree) (l : list nat) (prev_n : Z) (acc : rel_enc)
  : outcome (result rel_enc) :=
  match l with
  | [] => Ret (Ok acc)
  | n :: l =>
      r ← get_common t n;
      match r with
      | Err => Ret Err
      | Ok o =>
          '(a, prev_n) ← rel_of prev_n o;
          w ← node_at t n;
          encode_rel_loop t l prev_n (acc ++ [(a, chain_of w)])
      end
  end.
(** encode.rs:105-134 [encode_relative]. *)
Definition encode_relative (t : tree) : outcome (result rel_enc) :=
  if negb (is_projective t) then Ret Err
  else encode_rel_loop t (sort_indices t (terminals t)) 0 [].

(** ** Ancestor tags as text *)
Definition plus_sign : char := 43%N.
Definition tilde : char := 126%N.
(** encode.rs:336-340 [AbsoluteAncestor::to_string]. *)
Definition abs_to_string (a : abs_anc) : str := ab_label a ++ [plus_sign] ++ print_nat (ab_common a).
(** encode.rs:370-385 [TryFrom<&str> for AbsoluteAncestor]. *)
Definition abs_try_from (s : str) : result abs_anc :=
  match split_char plus_sign s with
  | l :: o :: _ => match parse_usize o with Some k => Ok (mk_abs k l) | None => Err end
  | _ => Err
  end.
(** encode.rs:406-413 [RelativeAncestor::to_string]. *)
Definition rel_to_string (a : rel_anc) : str :=
  match a with
  | RRegular o l => l ++ [plus_sign] ++ print_Z o
  | RRoot l => l
  end.
(** encode.rs:415-431 [TryFrom<&str> for RelativeAncestor]. *)
Definition rel_try_from (s : str) : result rel_anc :=
  match split_char plus_sign s with
  | [] | [] :: _ => Err
  | l :: o :: _ => match parse_isize o with Some k => Ok (RRegular k l) | None => Err end
  | [l] => Ok (RRoot l)
  end.

(** encode.rs:87-96, 143-161: the feature value for one terminal. *)
Definition tag_string (o : option str) (chain : option str) : str :=
  let s := default (lit "NONE") o in
  match chain with Some c => s ++ [tilde] ++ c | None => s end.
(** The keys (encode.rs:98, 163). *)
Definition ABS_KEY : str := lit "abs_ancestor".
Definition REL_KEY : str := lit "rel_ancestor".

(** encode.rs:87-101, the loop of [annotate_absolute]. *)
Fixpoint annotate_abs_loop (t : tree) (l : list nat) : outcome (tree * result ()) :=
  match l with
  | [] => Ret (t, Ok ())
  | n :: l =>
      r ← get_common t n;
      match r with
      | Err => Ret (t, Err)
      | Ok o =>
          w ← node_at t n;
          let s := tag_string ((fun '(c, k) => abs_to_string (mk_abs k c)) <$> o) (chain_of w) in
          annotate_abs_loop (put_node t n (node_insert_feat w ABS_KEY (Some s))) l
      end
  end.
(** encode.rs:81-103 [annotate_absolute]. *)
Definition annotate_absolute (t : tree) : outcome (tree * result ()) :=
  if negb (is_projective t) then Ret (t, Err)
  else annotate_abs_loop t (sort_indices t (terminals t)).

(** encode.rs:143-166, the loop of [annotate_relative]. *)
Fixpoint annotate_rel_loop (t : tree) (l : list nat) (prev_n : Z) : outcome (tree * result ()) :=
  match l with
  | [] => Ret (t, Ok ())
  | n :: l =>
      r ← get_common t n;
      match r with
      | Err => Ret (t, Err)
      | Ok o =>
          '(a, prev_n) ← rel_of prev_n o;
          w ← node_at t n;
          let s := tag_string (rel_to_string <$> a) (chain_of w) in
          annotate_rel_loop (put_node t n (node_insert_feat w REL_KEY (Some s))) l prev_n
      end
  end.
(** encode.rs:136-168 [annotate_relative]. *)
Definition annotate_relative (t : tree) : outcome (tree * result ()) :=
  if negb (is_projective t) then Ret (t, Err)
  else annotate_rel_loop t (sort_indices t (terminals t)) 0.

(** ** Decoding *)
(** petgraph [neighbors_directed(n, Outgoing)]: targets of all outgoing edges, newest first. *)
Definition nbrs_out (g : graph) (n : nat) : list nat := map e_tgt (out_edges g n).
(** [!graph[n].is_terminal()]; the targets of edges are live, so the [None] case does not occur. *)
Definition inner_node (g : graph) (n : nat) : bool :=
  match g_nodes g !! n with Some w => negb (is_terminal w) | None => false end.

(** encode.rs:256-266, the descent for a label without ancestor. *)
Fixpoint descend_inner (g : graph) (cur k : nat) : nat :=
  match k with
  | 0 => cur
  | S k =>
      match head (filter (fun n => inner_node g n = true) (nbrs_out g cur)) with
      | Some n => descend_inner g n k
      | None => cur
      end
  end.
(** encode.rs:270-287, the descent for a label with an ancestor; [k] turns remain, [i] is the loop
    variable. *)
Fixpoint descend_common (g : graph) (cur i k prev_n idx : nat) : outcome (graph * nat) :=
  match k with
  | 0 => Ret (g, cur)
  | S k =>
      let child := match head (nbrs_out g cur) with
                   | Some n => if inner_node g n then Some n else None
                   | None => None
                   end in
      match (if Nat.ltb prev_n i then None else child) with
      | Some n => descend_common g n (S i) k prev_n idx
      | None =>
          let '(g, n) := add_node g (NT (nt_new DUMMY (span_of idx))) in
          '(g, _) ← add_edge g cur n (Primary None);
          descend_common g n (S i) k prev_n idx
      end
  end.

(** [str::rfind('_')] with [split_at]: the parts before and after the last ['_']. *)
Fixpoint rsplit_us (s : str) : option (str * str) :=
  match s with
  | [] => None
  | c :: s' =>
      match rsplit_us s' with
      | Some (a, b) => Some (c :: a, b)
      | None => if N.eqb c 95 then Some ([], s') else None
      end
  end.
(** encode.rs:289-298, labelling the common ancestor. *)
Definition relabel (w : node) (l : str) : node :=
  match rsplit_us l with
  | Some (chain, l) => node_insert_feat (node_set_label w l) unary_chain (Some chain)
  | None => node_set_label w l
  end.

(** encode.rs:229-311, the loop of [decode]; [nt] is the number of terminals.  The result is the
    graph and the root. *)
Fixpoint decode_loop (nt : nat) (l : list (option abs_anc * option str * terminal)) (idx : nat)
    (g : graph) (root : nat) (prev : option nat) (prev_n : nat) : outcome (graph * nat) :=
  match l with
  | [] => Ret (g, root)
  | (a, chain, tm) :: l =>
      let w := match chain with
               | Some c => node_insert_feat (T tm) unary_chain (Some c)
               | None => T tm
               end in
      let '(g, term) := add_node g w in
      match a with
      | None =>
          if Nat.eqb nt 1 then
            let '(g, _) := remove_node_g g root in Ret (g, term)
          else
            '(g, _) ← add_edge g (descend_inner g root prev_n) term (Primary None);
            decode_loop nt l (S idx) g root prev prev_n
      | Some a =>
          '(g, cur) ← descend_common g root 1 (ab_common a - 1) prev_n idx;
          wc ← unwrap (g_nodes g !! cur);
          let g := set_node g cur (relabel wc (ab_label a)) in
          target ← (match prev with
                    | None => Ret cur
                    | Some p => if Nat.ltb prev_n (ab_common a) then Ret cur else Ret p
                    end);
          '(g, _) ← add_edge g target term (Primary None);
          prev_n ← sub_chk (ab_common a) 1;
          decode_loop nt l (S idx) g root (Some cur) prev_n
      end
  end.
(** encode.rs:226-314 [decode]. *)
Definition decode (enc : abs_enc) (terms : list terminal) : outcome tree :=
  let n := length terms in
  let '(g, root) := add_node graph_empty (NT (nt_new DUMMY (span_of 0))) in
  '(g, root) ← decode_loop n (zip enc terms) 0 g root None 0;
  reset_nt_spans (mk_tree g n root 0).

(** encode.rs:316-328 [remove_dummy_nodes]. *)
Definition remove_dummy_nodes (t : tree) : outcome (tree * result ()) :=
  '(t, r) ← filter_nonterminals t (fun t n => match g_nodes (tr_graph t) !! n with
                                              | Some w => negb (str_eqb (node_label w) DUMMY)
                                              | None => true
                                              end);
  match r with
  | Err => Ret (t, Err)
  | Ok _ =>
      w ← node_at t (tr_root t);
      if (match node_nonterminal w with Some nt => str_eqb (nt_label nt) DUMMY | None => false end
          && Nat.eqb (length (children t (tr_root t))) 1)%bool then
        '(t, r) ← remove_node t (tr_root t);
        match r with Ok _ => Ret (t, Ok ()) | Err => Ret (t, Err) end
      else Ret (t, Ok ())
  end.

(** ** Conversion between the scales *)
(** encode.rs:583-603 [From<AbsoluteEncoding> for RelativeEncoding]. *)
Fixpoint rel_from_abs (e : abs_enc) (prev_n : Z) : outcome rel_enc :=
  match e with
  | [] => Ret []
  | (Some a, u) :: e =>
      d ← isize_chk (as_isize (ab_common a) - prev_n);
      r ← rel_from_abs e (as_isize (ab_common a));
      Ret ((Some (if Nat.eqb (ab_common a) 1 then RRoot (ab_label a) else RRegular d (ab_label a)), u) :: r)
  | (None, u) :: e => r ← rel_from_abs e prev_n; Ret ((None, u) :: r)
  end.

(** encode.rs:544-551 [RelativeToAbsoluteError]; encode.rs:509-514 [ConversionResult]. *)
Record conv_error := mk_cerr {
  ce_iter : rel_enc; ce_prev : Z; ce_leaf : option str; ce_label : str; ce_abs : abs_enc }.
Inductive conv_result := CSuccess (e : abs_enc) | CError (e : conv_error).

(** encode.rs:462-492 [try_from_relative]. *)
Fixpoint abs_from_rel (e : rel_enc) (prev_n : Z) (acc : abs_enc) : outcome conv_result :=
  match e with
  | [] => Ret (CSuccess acc)
  | (None, u) :: e => abs_from_rel e prev_n (acc ++ [(None, u)])
  | (Some (RRoot l), u) :: e => abs_from_rel e 1 (acc ++ [(Some (mk_abs 1 l), u)])
  | (Some (RRegular o l), u) :: e =>
      n ← isize_chk (o + prev_n);
      if (n <? 1)%Z then Ret (CError (mk_cerr e prev_n u l acc))
      else abs_from_rel e n (acc ++ [(Some (mk_abs (Z.to_nat n) l), u)])
  end.
Definition try_from_relative (e : rel_enc) : outcome conv_result := abs_from_rel e 0 [].

(** encode.rs:562-579, the loop of [fix]. *)
Fixpoint fix_loop (e : rel_enc) (prev_n : Z) (acc : abs_enc) : outcome abs_enc :=
  match e with
  | [] => Ret acc
  | (None, u) :: e => fix_loop e prev_n (acc ++ [(None, u)])
  | (Some (RRoot l), u) :: e => fix_loop e 1 (acc ++ [(Some (mk_abs 1 l), u)])
  | (Some (RRegular o l), u) :: e =>
      n ← isize_chk (o + prev_n);
      let n := if (n <? 1)%Z then 2%Z else n in
      fix_loop e n (acc ++ [(Some (mk_abs (Z.to_nat n) l), u)])
  end.
(** encode.rs:555-580 [fix]. *)
Definition fix_error (e : conv_error) : outcome abs_enc :=
  fix_loop (ce_iter e) 2 (ce_abs e ++ [(Some (mk_abs 2 (ce_label e)), ce_leaf e)]).
(** encode.rs:516-525 [unwrap_or_fix]. *)
Definition unwrap_or_fix (r : conv_result) : outcome abs_enc :=
  match r with CSuccess e => Ret e | CError e => fix_error e end.
