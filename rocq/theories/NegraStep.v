(** One line of a NEGRA sentence: what it says, and what the builder does with it. *)
From Coq Require Import Lia.
From Verif Require Import NegraModel TreeSpec BaseProofs SpanProofs ShapeProofs GraphProofs SortProofs TreeOps NegraSpec.

Notation bnodes b := (g_nodes (b_graph b)).
Notation bedges b := (g_edges (b_graph b)).

(** ** The content of a line *)
Inductive nline :=
| TLine (tm : terminal) (edge : option str) (pid : nat) (sec : option (str * nat))
| NLine (id : nat) (label : str) (ann : option str) (edge : option str) (pid : nat)
        (sec : option (str * nat)).
Definition line_pid (a : nline) : nat := match a with TLine _ _ p _ => p | NLine _ _ _ _ p _ => p end.
Definition line_edge (a : nline) : option str := match a with TLine _ e _ _ => e | NLine _ _ _ e _ _ => e end.
Definition line_sec (a : nline) : option (str * nat) :=
  match a with TLine _ _ _ s => s | NLine _ _ _ _ _ s => s end.
Definition line_own (a : nline) : option nat := match a with TLine _ _ _ _ => None | NLine i _ _ _ _ _ => Some i end.

Definition undash (s : str) : option str := if str_eqb s dashes then None else Some s.
Definition opt_fields (parts : list str) : option (option (str * nat)) :=
  match parts with
  | p :: parts =>
      if starts_percent p then Some None
      else match head parts with
           | Some s => match parse_usize s with Some id => Some (Some (p, id)) | None => None end
           | None => None
           end
  | [] => Some None
  end.
(** Edge label, parent, secondary edge: the fields from the fifth one on. *)
Definition edge_part (fs : list str) : option (option str * nat * option (str * nat)) :=
  match fs !! 4, fs !! 5 with
  | Some e, Some p =>
      match parse_usize p, opt_fields (drop 6 fs) with
      | Some pid, Some sec => Some (undash e, pid, sec)
      | _, _ => None
      end
  | _, _ => None
  end.
Definition term_content (k : nat) (form lemma pos morph : str) : terminal :=
  mk_term form pos (undash lemma)
    (match undash morph with Some m => Some (<[morph_key := Some m]> ∅) | None => None end) (span_of k).
(** The content of the line with the given fields; [k] is the number of terminals before it. *)
Definition parse_fields (k : nat) (nt : bool) (fs : list str) : option nline :=
  match fs !! 0, fs !! 1, fs !! 2, fs !! 3 with
  | Some f0, Some f1, Some f2, Some f3 =>
      match edge_part fs with
      | Some (edge, pid, sec) =>
          if nt then
            match parse_usize (tail f0), split_char 61%N f2 with
            | Some id, label :: rest => Some (NLine id label (head rest) edge pid sec)
            | _, _ => None
            end
          else Some (TLine (term_content k f0 f1 f2 f3) edge pid sec)
      | None => None
      end
  | _, _, _, _ => None
  end.
Definition parse_line (k : nat) (l : str) : option nline :=
  parse_fields k (starts_with (lit "#") l) (split_whitespace l).

(** ** The effect of a line *)

(** The parent with number [pid] is looked up or created. *)
Definition grown (b : builder) (N : gmap nat node) (pid p : nat) (idx' : gmap nat nat) (N' : gmap nat node) : Prop :=
  b_idx b !! pid = Some p /\ idx' = b_idx b /\ N' = N \/
  b_idx b !! pid = None /\ N !! p = None /\ idx' = <[pid := p]> (b_idx b) /\
    N' = <[p := NT (nt_new [] (span_of (b_nterm b)))]> N.
Definition add_sec (l : list (nat * str * nat)) (sec : option (str * nat)) (n : nat) : list (nat * str * nat) :=
  match sec with Some (label, id) => l ++ [(id, label, n)] | None => l end.
Definition named (nt : nonterminal) (label : str) (ann : option str) : nonterminal :=
  mk_nt label (match ann with
               | Some a => Some (<[annotation_key := Some a]> (default ∅ (nt_feats nt)))
               | None => nt_feats nt
               end) (nt_span nt).

Definition stepped (b : builder) (a : nline) (b' : builder) : Prop :=
  b_sid b' = b_sid b /\ graph_ok (b_graph b') /\
  match a with
  | TLine tm edge pid sec =>
      t_span tm = span_of (b_nterm b) /\
      b_fin b = false /\ b_fin b' = false /\ b_nterm b' = b_nterm b + 1 /\ b_nproj b' = b_nproj b /\
      b_done b' = b_done b /\
      exists n p e, bnodes b !! n = None /\
        grown b (<[n := T tm]> (bnodes b)) pid p (b_idx b') (bnodes b') /\
        bedges b' = mk_e e p n (Primary edge) :: bedges b /\ b_sec b' = add_sec (b_sec b) sec n
  | NLine id label ann edge pid sec =>
      0 < b_nterm b /\ b_fin b' = true /\ b_nterm b' = b_nterm b /\ b_done b' = b_done b + 1 /\
      exists n nt p e sp N', b_idx b !! id = Some n /\ bnodes b !! n = Some (NT nt) /\
        grown b (<[n := NT (named nt label ann)]> (bnodes b)) pid p (b_idx b') N' /\
        bedges b' = mk_e e p n (Primary edge) :: bedges b /\ b_sec b' = add_sec (b_sec b) sec n /\
        span_ok sp /\
        (forall i, covers sp i <-> exists c w, PE (bedges b') n c /\ N' !! c = Some w /\ covers (node_span w) i) /\
        bnodes b' = <[n := NT (nt_set_span (named nt label ann) sp)]> N' /\
        b_nproj b' = b_nproj b + match sp_skips sp with Some _ => 1 | None => 0 end
  end.
(** The line is possible at this point. *)
Definition enabled (b : builder) (a : nline) : Prop :=
  match a with
  | TLine _ _ _ _ => b_fin b = false
  | NLine id _ _ _ pid _ => 0 < b_nterm b /\ (id <> 0 \/ pid = 0 \/ exists c, PE (bedges b) 0 c) /\ is_Some (b_idx b !! id)
  end.

(** What holds of a builder after any lines. *)
Record B0 (b : builder) : Prop := {
  b0_graph : graph_ok (b_graph b);
  b0_root : b_idx b !! 0 = Some 0;
  b0_idx : forall i n, b_idx b !! i = Some n -> exists nt, bnodes b !! n = Some (NT nt);
  b0_child : forall i n, b_idx b !! i = Some n -> i <> 0 -> exists c, PE (bedges b) n c;
  b0_leaf : forall r, r ∈ bedges b -> is_primary (e_w r) = true /\ exists i, b_idx b !! i = Some (e_src r);
  b0_span : forall n w, bnodes b !! n = Some w -> span_ok (node_span w);
  b0_sec : forall id l n, (id, l, n) ∈ b_sec b -> is_Some (bnodes b !! n)
}.

(** *** Fields *)
Lemma process_edges_spec b n (fs : list str) :
  graph_ok (b_graph b) -> is_Some (bnodes b !! n) ->
  (forall i m, b_idx b !! i = Some m -> is_Some (bnodes b !! m)) ->
  exists r, process_edges b n (drop 4 fs) = Ret r /\
    match edge_part fs with
    | None => r = Err
    | Some (edge, pid, sec) =>
        exists b' p e, r = Ok b' /\ graph_ok (b_graph b') /\
          grown b (bnodes b) pid p (b_idx b') (bnodes b') /\
          bedges b' = mk_e e p n (Primary edge) :: bedges b /\ b_sec b' = add_sec (b_sec b) sec n /\
          b_nterm b' = b_nterm b /\ b_sid b' = b_sid b /\ b_fin b' = b_fin b /\
          b_nproj b' = b_nproj b /\ b_done b' = b_done b
    end.
Proof.
  intros G Hn Hidx. unfold process_edges, edge_part.
  assert (D0 : drop 4 fs !! 0 = fs !! 4) by (by rewrite lookup_drop).
  assert (D1 : drop 4 fs !! 1 = fs !! 5) by (by rewrite lookup_drop).
  rewrite D0, D1, drop_drop. cbn [Nat.add].
  destruct (fs !! 4) as [e|]; [|by eexists]. cbn [field].
  destruct (fs !! 5) as [ps|]; [|by eexists]. cbn [num_field].
  destruct (parse_usize ps) as [pid|]; [|by eexists].
  assert (Hgrow : exists idx g p, graph_ok g /\ is_Some (g_nodes g !! p) /\ is_Some (g_nodes g !! n) /\
     g_edges g = bedges b /\ grown b (bnodes b) pid p idx (g_nodes g) /\
     match b_idx b !! pid with
      | Some p => (b_idx b, b_graph b, p)
      | None =>
          let '(g, p) := add_node (b_graph b) (NT (nt_new [] (span_of (b_nterm b)))) in
          (<[pid := p]> (b_idx b), g, p)
      end = (idx, g, p)).
  { destruct (b_idx b !! pid) as [p|] eqn:Ep.
    - exists (b_idx b), (b_graph b), p. split_and!; try done; [by eapply Hidx|]. by left.
    - destruct (add_node _ _) as [g p] eqn:Ea.
      destruct (add_node_spec _ _ _ _ G Ea) as (G' & Hp & HN & HE).
      exists (<[pid := p]> (b_idx b)), g, p. split_and!; try done.
      + rewrite HN. rewrite lookup_insert. eauto.
      + rewrite HN. destruct (decide (n = p)) as [->|]; [rewrite lookup_insert; eauto|].
        by rewrite lookup_insert_ne.
      + right. by rewrite HN. }
  destruct Hgrow as (idx & g & p & G' & Hp & Hn' & HE & Hgr & ->). clear D0 D1.
  destruct (add_edge_spec g p n (Primary (if str_eqb e dashes then None else Some e)) G' Hp Hn')
    as (g' & eid & -> & G'' & HN'' & HE'' & _).
  cbn [mbind outcome_bind].
  assert (Ho : parse_optional_fields (drop 6 fs) = Ret match opt_fields (drop 6 fs) with Some o => Ok o | None => Err end).
  { unfold parse_optional_fields, opt_fields. destruct (drop 6 fs) as [|q qs]; [done|].
    destruct (starts_percent q); [done|]. destruct (head qs) as [s|]; [|done]. simpl.
    by destruct (parse_usize s). }
  rewrite Ho. unfold try. cbn [mbind outcome_bind].
  destruct (opt_fields (drop 6 fs)) as [sec|]; [|by eexists].
  eexists. split; [done|]. eexists _, p, eid. split; [done|]. simpl.
  rewrite HN''. split_and!; try done. rewrite HE'', HE. done.
Qed.

Lemma grown_live b N pid p idx' N' :
  (forall i m, b_idx b !! i = Some m -> exists nt, N !! m = Some (NT nt)) -> grown b N pid p idx' N' ->
  (forall m w, N !! m = Some w -> N' !! m = Some w) /\ (exists nt, N' !! p = Some (NT nt)) /\
  idx' !! pid = Some p /\ (forall i m, b_idx b !! i = Some m -> idx' !! i = Some m) /\
  (forall i m, idx' !! i = Some m -> b_idx b !! i = Some m \/ i = pid /\ m = p).
Proof.
  intros HN [(H1 & -> & ->)|(H1 & H2 & -> & ->)].
  - split_and!; try done; [by eapply HN|]. by left.
  - split_and!.
    + intros m w Hm. rewrite lookup_insert_ne; [done|]. intros ->. congruence.
    + rewrite lookup_insert. eauto.
    + by rewrite lookup_insert.
    + intros i m Hi. rewrite lookup_insert_ne; [done|]. intros ->. congruence.
    + intros i m. rewrite lookup_insert_Some. intros [[<- <-]|[_ ?]]; [by right|by left].
Qed.

(** The invariant is kept. *)
Lemma stepped_B0 b a b' : B0 b -> stepped b a b' -> B0 b'.
Proof.
  intros B (_ & G' & H). destruct a as [tm edge pid sec|id label ann edge pid sec].
  - destruct H as (Htm & _ & _ & _ & _ & _ & n & p & e & Hn & Hgr & HE & HS).
    assert (Hnt : forall i m, b_idx b !! i = Some m -> exists nt0, <[n:=T tm]> (bnodes b) !! m = Some (NT nt0)).
    { intros i m Hi. destruct (b0_idx _ B _ _ Hi) as [nt Hm]. exists nt. rewrite lookup_insert_ne; [done|congruence]. }
    destruct (grown_live b _ pid p _ _ Hnt Hgr) as (G1 & (ntp & G2) & G3 & G4 & G5).
    split; [done|apply G4, B| | | | |].
    + intros i m [Hi|[-> ->]]%G5; [|eauto]. destruct (b0_idx _ B i m Hi) as [nt Hm]. exists nt. apply G1.
      rewrite lookup_insert_ne; [done|congruence].
    + intros i m [Hi|[-> ->]]%G5 Hne.
      * destruct (b0_child _ B i m Hi Hne) as (c & r & H1 & H2 & H3). exists c, r. split; [|done]. rewrite HE. set_solver.
      * exists n. exists (mk_e e p n (Primary edge)). split; [|done]. rewrite HE. set_solver.
    + intros r. rewrite HE. intros [->|Hr]%elem_of_cons; [split; [done|by exists pid]|].
      destruct (b0_leaf _ B r Hr) as [H1 [i Hi]]. split; [done|]. exists i. auto.
    + intros m w Hm. assert (Hnw : forall m w, <[n:=T tm]> (bnodes b) !! m = Some w -> span_ok (node_span w)).
      { intros m' w'. rewrite lookup_insert_Some. intros [[<- <-]|[_ H]]; [|by eapply b0_span].
        simpl. rewrite Htm. apply span_ok_singleton. }
      destruct Hgr as [(_ & _ & E)|(_ & _ & _ & E)]; rewrite E in Hm; [by eapply Hnw|].
      apply lookup_insert_Some in Hm as [[<- <-]|[_ Hm]]; [apply span_ok_singleton|by eapply Hnw].
    + intros i l m Hin. rewrite HS in Hin. unfold add_sec in Hin.
      assert (Hold : (i, l, m) ∈ b_sec b -> is_Some (bnodes b' !! m)).
      { intros [w Hw]%(b0_sec _ B). exists w. apply G1. rewrite lookup_insert_ne; [done|congruence]. }
      destruct sec as [[lab i']|]; [|auto]. apply elem_of_app in Hin as [Hin|Hin]; [auto|].
      apply elem_of_list_singleton in Hin as [= -> -> ->]. exists (T tm). apply G1, lookup_insert.
  - destruct H as (_ & _ & _ & _ & n & nt & p & e & sp & N' & Hid & Hn & Hgr & HE & HS & Hok & _ & HN & _).
    assert (Hnt : forall i m, b_idx b !! i = Some m -> exists nt0, <[n:=NT (named nt label ann)]> (bnodes b) !! m = Some (NT nt0)).
    { intros i m Hi. destruct (decide (m = n)) as [->|Hne]; [rewrite lookup_insert; eauto|].
      rewrite lookup_insert_ne by done. by eapply b0_idx. }
    destruct (grown_live b _ pid p _ _ Hnt Hgr) as (G1 & (ntp & G2) & G3 & G4 & G5).
    assert (Hlive : forall m nt0, N' !! m = Some (NT nt0) -> exists nt1, bnodes b' !! m = Some (NT nt1)).
    { intros m nt0 Hm. rewrite HN. destruct (decide (m = n)) as [->|Hne]; [rewrite lookup_insert; eauto|].
      rewrite lookup_insert_ne by done. eauto. }
    split; [done|apply G4, B| | | | |].
    + intros i m [Hi|[-> ->]]%G5; [|by eapply Hlive].
      destruct (Hnt i m Hi) as [nt0 Hm]. eapply Hlive. by apply G1.
    + intros i m [Hi|[-> ->]]%G5 Hne.
      * destruct (b0_child _ B i m Hi Hne) as (c & r & H1 & H2 & H3). exists c, r. split; [|done]. rewrite HE. set_solver.
      * exists n. exists (mk_e e p n (Primary edge)). split; [|done]. rewrite HE. set_solver.
    + intros r. rewrite HE. intros [->|Hr]%elem_of_cons; [split; [done|by exists pid]|].
      destruct (b0_leaf _ B r Hr) as [H1 [i Hi]]. split; [done|]. exists i. auto.
    + intros m w Hm. rewrite HN in Hm. apply lookup_insert_Some in Hm as [[<- <-]|[Hne Hm]]; [done|].
      assert (Hnw : forall m w, m <> n -> <[n:=NT (named nt label ann)]> (bnodes b) !! m = Some w -> span_ok (node_span w)).
      { intros m' w' Hne'. rewrite lookup_insert_ne by done. by apply (b0_span _ B). }
      destruct Hgr as [(_ & _ & E)|(_ & _ & _ & E)]; rewrite E in Hm; [by eapply Hnw|].
      apply lookup_insert_Some in Hm as [[<- <-]|[_ Hm]]; [apply span_ok_singleton|by eapply Hnw].
    + intros i l m Hin. rewrite HS in Hin. unfold add_sec in Hin.
      assert (Hup : forall m, is_Some (bnodes b !! m) -> is_Some (bnodes b' !! m)).
      { intros m' [w Hw]. rewrite HN. apply lookup_insert_is_Some'. destruct (decide (m' = n)) as [->|Hne]; [by left|right].
        exists w. apply G1. rewrite lookup_insert_ne; done. }
      destruct sec as [[lab i']|]; [|by eapply Hup, b0_sec]. apply elem_of_app in Hin as [Hin|Hin]; [by eapply Hup, b0_sec|].
      apply elem_of_list_singleton in Hin as [= -> -> ->]. apply Hup. eauto.
Qed.

(** Processing a line never panics; it succeeds exactly when the line is readable and possible at
    this point, with the described effect. *)
Lemma process_terminal_line_spec b l : B0 b ->
  exists r, process_terminal_line b l = Ret r /\
    match parse_fields (b_nterm b) false (split_whitespace l) with
    | None => r = Err
    | Some a => (enabled b a -> exists b', r = Ok b') /\ forall b', r = Ok b' -> stepped b a b'
    end.
Proof.
  intros B. pose proof (b0_graph _ B) as G. unfold process_terminal_line, parse_fields.
  set (fs := split_whitespace l). clearbody fs.
  destruct (fs !! 0) as [f0|] eqn:E0; [|exists Err; by destruct (b_fin b)].
  destruct (fs !! 1) as [f1|] eqn:E1; [|exists Err; by destruct (b_fin b)].
  destruct (fs !! 2) as [f2|] eqn:E2; [|exists Err; by destruct (b_fin b)].
  destruct (fs !! 3) as [f3|] eqn:E3; [|exists Err; by destruct (b_fin b)].
  destruct (b_fin b) eqn:Hfin.
  { exists Err. split; [done|]. destruct (edge_part fs) as [[[edge pid] sec]|]; [|done].
    split; [|done]. intros H. simpl in H. congruence. }
  cbn [field].
  assert (Hw : (if str_eqb f3 dashes
      then T (if str_eqb f1 dashes then term_new f0 f2 (b_nterm b) else t_set_lemma (term_new f0 f2 (b_nterm b)) (Some f1))
      else node_insert_feat (T (if str_eqb f1 dashes then term_new f0 f2 (b_nterm b) else t_set_lemma (term_new f0 f2 (b_nterm b)) (Some f1))) morph_key (Some f3))
      = T (term_content (b_nterm b) f0 f1 f2 f3)).
  { unfold term_content, undash. by destruct (str_eqb f3 dashes), (str_eqb f1 dashes). }
  rewrite Hw. set (tm := term_content (b_nterm b) f0 f1 f2 f3).
  assert (Htm : t_span tm = span_of (b_nterm b)) by done. clearbody tm.
  destruct (add_node (b_graph b) (T tm)) as [g n] eqn:Ea.
  destruct (add_node_spec _ _ _ _ G Ea) as (G' & Hn & HN & HE).
  destruct (process_edges_spec (b_set_graph b g) n fs) as (r & Hr & HP).
  { done. }
  { simpl. rewrite HN, lookup_insert. eauto. }
  { intros i m (nt & Hm)%(b0_idx _ B). simpl. rewrite HN. apply lookup_insert_is_Some'. right. eauto. }
  rewrite Hr. unfold try. cbn [mbind outcome_bind].
  destruct (edge_part fs) as [[[edge pid] sec]|].
  - destruct HP as (b' & p & e & -> & G'' & Hgr & HE' & HS & Hk & Hsid & Hf & Hnp & Hd).
    eexists. split; [done|]. split; [eauto|]. intros b'' [= <-].
    simpl in *. rewrite HN in Hgr. rewrite HE in HE'. split; [done|]. split; [done|]. simpl.
    split_and!; try done; [congruence|congruence|]. by exists n, p, e.
  - subst r. by eexists.
Qed.

Lemma process_nonterminal_line_spec b l : B0 b ->
  exists r, process_nonterminal_line b l = Ret r /\
    match parse_fields (b_nterm b) true (split_whitespace l) with
    | None => r = Err
    | Some a => (enabled b a -> exists b', r = Ok b') /\ forall b', r = Ok b' -> stepped b a b'
    end.
Proof.
  intros B. pose proof (b0_graph _ B) as G. unfold process_nonterminal_line, parse_fields.
  set (fs := split_whitespace l). clearbody fs.
  destruct (Nat.eqb_spec (b_nterm b) 0) as [Hk|Hk].
  { exists Err. split; [done|]. destruct (fs !! 0), (fs !! 1), (fs !! 2), (fs !! 3); try done.
    destruct (edge_part fs) as [[[edge pid] sec]|]; [|done]. destruct (parse_usize _); [|done].
    destruct (split_char _ _); [done|]. split; [|done]. intros (H & _). lia. }
  destruct (fs !! 0) as [f0|] eqn:E0; [|by eexists]. cbn [fmap option_fmap option_map num_field].
  destruct (parse_usize (tail f0)) as [id|]; cycle 1.
  { exists Err. split; [done|]. destruct (fs !! 1), (fs !! 2), (fs !! 3); try done.
    destruct (edge_part fs) as [[[edge pid] sec]|]; done. }
  destruct (b_idx b !! id) as [n|] eqn:Eid; cbn [field]; cycle 1.
  { exists Err. split; [done|]. destruct (fs !! 1), (fs !! 2), (fs !! 3); try done.
    destruct (edge_part fs) as [[[edge pid] sec]|]; [|done].
    destruct (split_char _ _); [done|]. split; [|done]. intros (_ & _ & H). rewrite Eid in H. by destruct H. }
  destruct (fs !! 1) as [f1|] eqn:E1; [|by eexists]. cbn [field].
  destruct (fs !! 2) as [f2|] eqn:E2; [|by eexists]. cbn [field].
  destruct (split_char 61%N f2) as [|label rest] eqn:E61; [by apply split_char_nil in E61|].
  change ((label :: rest) !! 0) with (Some label). change ((label :: rest) !! 1) with (rest !! 0).
  assert (Hhd : rest !! 0 = head rest) by (by destruct rest). rewrite Hhd. cbn [field].
  destruct (b0_idx _ B _ _ Eid) as [nt Hn]. rewrite Hn. cbn [unwrap mbind outcome_bind].
  destruct (fs !! 3) as [f3|] eqn:E3; [|by eexists]. cbn [field].
  assert (Hw : match head rest with
             | Some a => node_insert_feat (node_set_label (NT nt) label) annotation_key (Some a)
             | None => node_set_label (NT nt) label
             end = NT (named nt label (head rest))).
  { by destruct (head rest). }
  rewrite Hw. set (nt1 := named nt label (head rest)).
  set (b1 := mk_b (b_idx b) (set_node (b_graph b) n (NT nt1)) (b_nterm b) (b_sid b) true (b_nproj b)
                     (b_done b + 1) (b_sec b)).
  destruct (process_edges_spec b1 n fs) as (r & Hr & HP).
  { simpl. apply set_node_ok; eauto. }
  { simpl. rewrite lookup_insert. eauto. }
  { intros i m (nt' & Hm)%(b0_idx _ B). simpl. apply lookup_insert_is_Some'. right. eauto. }
  rewrite Hr. unfold try at 1. cbn [mbind outcome_bind].
  destruct (edge_part fs) as [[[edge pid] sec]|]; [|subst r; by eexists].
  destruct HP as (b2 & p & e & -> & G2 & Hgr & HE & HS & Hk2 & Hsid & Hf & Hnp & Hd).
  simpl in Hgr, HE, HS, Hk2, Hsid, Hf, Hnp, Hd.
  assert (Hnt : forall i m, b_idx b !! i = Some m -> exists nt0, <[n := NT nt1]> (bnodes b) !! m = Some (NT nt0)).
  { intros i m Hi. destruct (decide (m = n)) as [->|Hne]; [rewrite lookup_insert; eauto|].
    rewrite lookup_insert_ne by done. by eapply b0_idx. }
  assert (Hgr' : grown b (<[n := NT nt1]> (bnodes b)) pid p (b_idx b2) (bnodes b2)) by exact Hgr.
  destruct (grown_live b _ pid p _ _ Hnt Hgr') as (G1 & (ntp & GP) & G3 & G4 & G5).
  assert (Hn2 : bnodes b2 !! n = Some (NT nt1)) by (apply G1, lookup_insert).
  assert (Hnb : forall c, c ∈ neighbors (b_graph b2) n <-> PE (bedges b2) n c).
  { intros c. unfold neighbors, out_edges. rewrite elem_of_list_fmap. split.
    - intros (x & -> & Hx). rewrite !elem_of_list_filter in Hx. exists x. tauto.
    - intros (x & H1 & H2 & H3 & H4). exists x. rewrite !elem_of_list_filter. done. }
  assert (Hmap : mapO (fun m => w ← unwrap (bnodes b2 !! m); Ret (span_iter (node_span w))) (neighbors (b_graph b2) n)
    = Ret (map (fun m => match bnodes b2 !! m with Some w => span_iter (node_span w) | None => [] end) (neighbors (b_graph b2) n))).
  { apply mapO_map. intros c Hc%Hnb. destruct Hc as (x & H1 & H2 & H3 & <-).
    destruct (go_ends _ G2 x H1) as [_ [w ->]]. done. }
  rewrite Hmap. cbn [mbind outcome_bind].
  set (cov := concat (map _ (neighbors (b_graph b2) n))).
  assert (Hcov : forall i, i ∈ cov <-> exists c w, PE (bedges b2) n c /\ bnodes b2 !! c = Some w /\ covers (node_span w) i).
  { intros i. unfold cov. rewrite elem_of_list_In, in_concat. split.
    - intros (l0 & Hl0 & Hi). apply in_map_iff in Hl0 as (c & <- & Hc). rewrite <- elem_of_list_In in Hc, Hi.
      destruct (bnodes b2 !! c) as [w|] eqn:Ec; [|set_solver]. exists c, w. split_and!; [by apply Hnb|done|].
      by apply elem_of_span_iter.
    - intros (c & w & Hc & Hw' & Hi). exists (span_iter (node_span w)). rewrite in_map_iff. split.
      + exists c. rewrite Hw'. split; [done|]. by apply elem_of_list_In, Hnb.
      + by apply elem_of_list_In, elem_of_span_iter. }
  destruct (decide (cov = [])) as [Hnil|Hnil].
  - rewrite Hnil. exists Err. split; [done|]. split; [|done]. intros (H1 & H2 & H3). exfalso.
    assert ((id = 0 /\ pid = 0) \/ exists c, PE (bedges b) n c) as [[-> ->]|(c & x & Hx1 & Hx2 & Hx3 & <-)].
    { destruct (decide (id = 0)) as [->|Hid]; [|right; by eapply b0_child]. rewrite (b0_root _ B) in Eid. injection Eid as <-.
      destruct H2 as [?|[->|?]]; [done|by left|by right]. }
    { apply (not_elem_of_nil (sp_start (nt_span nt))). rewrite <- Hnil. apply Hcov. exists n, (NT nt1).
      split_and!; [|done|apply span_ok_start, (b0_span _ B _ _ Hn)].
      assert (p = n) as ->. { apply G4 in Eid. congruence. }
      eexists. split; [rewrite HE; by left|]. done. }
    destruct (go_ends _ G x Hx1) as [_ [w Hc]].
    assert (Hc' : exists w', bnodes b2 !! e_tgt x = Some w' /\ span_ok (node_span w')).
    { destruct (decide (e_tgt x = n)) as [->|Hne].
      - exists (NT nt1). split; [done|]. apply (b0_span _ B _ _ Hn).
      - exists w. split; [apply G1; by rewrite lookup_insert_ne|by eapply b0_span]. }
    destruct Hc' as (w' & Hc' & Hok'). apply (not_elem_of_nil (sp_start (node_span w'))). rewrite <- Hnil.
    apply Hcov. exists (e_tgt x), w'. split_and!; [|done|by apply span_ok_start].
    exists x. split; [rewrite HE; set_solver|done].
  - destruct (span_from_vec_spec cov Hnil) as (sp & -> & Hok & Hsp). unfold try. cbn [mbind outcome_bind].
    rewrite Hn2. cbn [unwrap mbind outcome_bind node_set_span].
    eexists. split; [done|]. split; [eauto|]. intros b' [= <-].
    split; [done|]. split; [simpl; apply set_node_ok; eauto|]. simpl.
    split_and!; [lia|done|done|done|].
    exists n, nt, p, e, sp, (bnodes b2). split_and!; try done.
    + intros i. by rewrite Hsp, Hcov.
    + by rewrite Hnp.
Qed.

Lemma process_line_spec b l : B0 b ->
  exists r, process_line b l = Ret r /\
    match parse_line (b_nterm b) l with
    | None => r = Err
    | Some a => (enabled b a -> exists b', r = Ok b') /\ forall b', r = Ok b' -> stepped b a b'
    end.
Proof.
  intros B. unfold process_line, parse_line. destruct (starts_with (lit "#") l).
  - by apply process_nonterminal_line_spec.
  - by apply process_terminal_line_spec.
Qed.

(** ** Header and footer *)
Definition header_of (l : str) : option (nat * option str) :=
  match (cut_white l).2 with
  | Some r =>
      match parse_usize (cut_white r).1 with
      | Some id => Some (id, trim <$> (cut_white r).2)
      | None => None
      end
  | None => None
  end.
Definition root_nt (id : nat) (meta : option str) : nonterminal :=
  mk_nt (lit "VROOT")
    (Some match meta with
          | Some m => <[meta_key := Some m]> (<[sid_key := Some (print_nat id)]> ∅)
          | None => <[sid_key := Some (print_nat id)]> ∅
          end) (span_of 0).
Record fresh (id : nat) (meta : option str) (b : builder) : Prop := {
  fr_idx : b_idx b = {[0 := 0]};
  fr_nodes : bnodes b = {[0 := NT (root_nt id meta)]};
  fr_edges : bedges b = [];
  fr_graph : graph_ok (b_graph b);
  fr_rest : b_nterm b = 0 /\ b_sid b = print_nat id /\ b_fin b = false /\ b_nproj b = 0 /\ b_done b = 1 /\ b_sec b = []
}.
Lemma graph_empty_ok : graph_ok graph_empty.
Proof.
  constructor; simpl; try (by constructor); try set_solver.
  - intros n [? H]. by rewrite lookup_empty in H.
Qed.
Lemma add_first w : graph_ok (add_node graph_empty w).1.
Proof. destruct (add_node_spec graph_empty w _ _ graph_empty_ok eq_refl) as (G & _). exact G. Qed.
Lemma from_header_spec l : starts_with (lit "#BOS") l = true ->
  match header_of l with
  | None => from_header l = Ret Err
  | Some (id, meta) => exists b, from_header l = Ret (Ok b) /\ fresh id meta b
  end.
Proof.
  intros H. unfold from_header, header_of. rewrite H. cbn [assert mbind outcome_bind].
  destruct (cut_white l) as [x [r|]]; [|done]. cbn [snd].
  destruct (cut_white r) as [ids meta]. cbn [fst snd num_field].
  destruct (parse_usize ids) as [id|]; [|done].
  destruct meta as [m|]; cbn [fmap option_fmap option_map].
  - eexists. split; [reflexivity|]. split; simpl; try done.
    exact (add_first (NT _)).
  - eexists. split; [reflexivity|]. split; simpl; try done.
    exact (add_first (NT _)).
Qed.
Lemma fresh_B0 id meta b : fresh id meta b -> B0 b.
Proof.
  intros [H1 H2 H3 H4 (H5 & _ & _ & _ & _ & H6)]. split; [done| | | | | |].
  - by rewrite H1.
  - intros i n. rewrite H1, H2. intros [<- <-]%lookup_singleton_Some. rewrite lookup_singleton. eauto.
  - intros i n. rewrite H1. intros [<- <-]%lookup_singleton_Some. done.
  - rewrite H3. set_solver.
  - intros n w. rewrite H2. intros [<- <-]%lookup_singleton_Some. apply span_ok_singleton.
  - rewrite H6. set_solver.
Qed.

(** The secondary edges added at the end. *)
Lemma sec_fold (idx : gmap nat nat) sec g :
  graph_ok g -> (forall id l n, (id, l, n) ∈ sec -> is_Some (g_nodes g !! n)) ->
  (forall id n, idx !! id = Some n -> is_Some (g_nodes g !! n)) ->
  (forall id l n, (id, l, n) ∈ sec -> is_Some (idx !! id)) ->
  exists g' new, foldM (fun g (e : nat * str * nat) =>
                 let '(source, label, target) := e in
                 p ← unwrap (idx !! source);
                 '(g, _) ← add_edge g p target (Secondary (Some label));
                 Ret g) sec g = Ret g' /\
    graph_ok g' /\ g_nodes g' = g_nodes g /\ g_edges g' = new ++ g_edges g /\
    (forall r, r ∈ new -> exists id l, (id, l, e_tgt r) ∈ sec /\ idx !! id = Some (e_src r) /\ e_w r = Secondary (Some l)) /\
    (forall id l n, (id, l, n) ∈ sec -> exists r, r ∈ new /\ e_tgt r = n /\ idx !! id = Some (e_src r) /\ e_w r = Secondary (Some l)).
Proof.
  revert g. induction sec as [|[[id l] n] sec IH]; intros g G Ht Hi Hs.
  - exists g, []. split_and!; try done; set_solver.
  - cbn [foldM]. destruct (Hs id l n ltac:(set_solver)) as [p Hp]. rewrite Hp. cbn [unwrap mbind outcome_bind].
    destruct (add_edge_spec g p n (Secondary (Some l)) G) as (g1 & e & -> & G1 & HN & HE & _);
      [by eapply Hi|by apply (Ht id l); set_solver|].
    cbn [mbind outcome_bind].
    destruct (IH g1 G1) as (g' & new & Hf & G' & HN' & HE' & Hnew & Hall).
    { rewrite HN. intros id' l' n' H. apply (Ht id' l'). set_solver. }
    { by rewrite HN. }
    { intros id' l' n' H. apply (Hs id' l' n'). set_solver. }
    exists g', (new ++ [mk_e e p n (Secondary (Some l))]). split_and!; [exact Hf|done|congruence| | |].
    + by rewrite HE', HE, <- (assoc_L (++)).
    + intros r [Hr|Hr%elem_of_list_singleton]%elem_of_app.
      * destruct (Hnew r Hr) as (id' & l' & H1 & H2 & H3). exists id', l'. split; [set_solver|done].
      * subst r. exists id, l. split; [simpl; set_solver|done].
    + intros id' l' n' [[= -> -> ->]|H]%elem_of_cons.
      * exists (mk_e e p n (Secondary (Some l))). split; [set_solver|done].
      * destruct (Hall _ _ _ H) as (r & Hr & H'). exists r. split; [set_solver|done].
Qed.

(** The tree made from a builder. *)
Definition finished (b : builder) (t : tree) : Prop :=
  exists nt new,
    b_done b = size (b_idx b) /\ 0 < b_nterm b /\ bnodes b !! 0 = Some (NT nt) /\
    graph_ok (tr_graph t) /\ tr_root t = 0 /\ tr_nterm t = b_nterm b /\ tr_ndisc t = b_nproj b /\
    nodes t = <[0 := NT (nt_set_span nt (mk_span 0 (b_nterm b) None))]> (bnodes b) /\
    edges t = new ++ bedges b /\
    (forall r, r ∈ new -> exists id l, (id, l, e_tgt r) ∈ b_sec b /\ b_idx b !! id = Some (e_src r) /\ e_w r = Secondary (Some l)) /\
    (forall id l n, (id, l, n) ∈ b_sec b -> exists r, r ∈ new /\ e_tgt r = n /\ b_idx b !! id = Some (e_src r) /\ e_w r = Secondary (Some l)).
Lemma try_into_tree_spec b footer : B0 b -> starts_with (lit "#EOS") footer = true ->
  (0 < b_nterm b -> (forall id l n, (id, l, n) ∈ b_sec b -> is_Some (b_idx b !! id)) ->
   exists r, try_into_tree b footer = Ret r /\
     (split_whitespace footer !! 1 = Some (b_sid b) -> b_done b = size (b_idx b) -> exists t, r = Ok t)) /\
  (forall t, try_into_tree b footer = Ret (Ok t) -> split_whitespace footer !! 1 = Some (b_sid b) /\ finished b t).
Proof.
  intros B Hf. pose proof (b0_graph _ B) as G. unfold try_into_tree. rewrite Hf. cbn [assert mbind outcome_bind].
  destruct (split_whitespace footer !! 1) as [eos|]; cbn [field]; cycle 1.
  { split; [|done]. intros _ _. exists Err. done. }
  destruct (str_eqb eos (b_sid b)) eqn:Es; cbn [negb]; cycle 1.
  { split; [|done]. intros _ _. exists Err. split; [done|]. intros [= ->]. unfold str_eqb in Es.
    by rewrite bool_decide_eq_false in Es. }
  unfold str_eqb in Es. apply bool_decide_eq_true in Es as ->.
  assert (Hidx : forall id n, b_idx b !! id = Some n -> is_Some (bnodes b !! n)).
  { intros id n (nt & ->)%(b0_idx _ B). eauto. }
  destruct (b0_idx _ B _ _ (b0_root _ B)) as [nt0 H0].
  assert (Hmain : (forall id l n, (id, l, n) ∈ b_sec b -> is_Some (b_idx b !! id)) ->
    exists r, (g ← foldM (fun g (e : nat * str * nat) =>
                 let '(source, label, target) := e in
                 p ← unwrap (b_idx b !! source);
                 '(g, _) ← add_edge g p target (Secondary (Some label));
                 Ret g) (b_sec b) (b_graph b);
    root ← unwrap (b_idx b !! 0);
    if negb (Nat.eqb (b_done b) (size (b_idx b))) then Ret Err else
    sp ← span_new 0 (b_nterm b);
    w ← unwrap (g_nodes g !! root);
    match node_set_span w sp with
    | Err => Ret Err
    | Ok w => Ret (Ok (mk_tree (set_node g root w) (b_nterm b) root (b_nproj b)))
    end) = r /\ (0 < b_nterm b -> exists x, r = Ret x /\ (b_done b = size (b_idx b) -> exists t, x = Ok t)) /\
      forall t, r = Ret (Ok t) -> finished b t).
  { intros Hs.
    destruct (sec_fold (b_idx b) (b_sec b) (b_graph b) G (b0_sec _ B) Hidx Hs)
      as (g & new & -> & G' & HN & HE & Hnew & Hall).
    cbn [mbind outcome_bind]. rewrite (b0_root _ B). cbn [unwrap mbind outcome_bind].
    destruct (Nat.eqb_spec (b_done b) (size (b_idx b))) as [Hd|Hd]; cbn [negb]; cycle 1.
    { eexists. split; [done|]. split; [|done]. intros _. exists Err. done. }
    unfold span_new. destruct (Nat.ltb_spec 0 (b_nterm b)) as [Hk|Hk]; cbn [assert mbind outcome_bind]; cycle 1.
    { eexists. split; [done|]. split; [lia|done]. }
    rewrite HN, H0. cbn [unwrap mbind outcome_bind node_set_span].
    eexists. split; [done|]. split; [eauto|]. intros t [= <-].
    exists nt0, new. simpl. split_and!; try done; [|by rewrite HN].
    apply set_node_ok; [done|]. rewrite HN. eauto. }
  split.
  - intros Hk Hs. destruct (Hmain Hs) as (r & E & H1 & _). destruct (H1 Hk) as (x & -> & H2). eauto.
  - intros t Ht. split; [done|].
    destruct (decide (Forall (fun e : nat * str * nat => is_Some (b_idx b !! e.1.1)) (b_sec b))) as [Hs|Hs].
    + rewrite Forall_forall in Hs. destruct Hmain as (r & E & _ & H2); [intros id l n H; apply (Hs _ H)|].
      apply H2. by rewrite <- E.
    + exfalso. apply Hs. apply bind_Ret in Ht as (g & Ht & _). clear - Ht.
      revert Ht. generalize (b_graph b). induction (b_sec b) as [|[[id l] n] sec IH]; intros g0 Ht; [constructor|].
      cbn [foldM] in Ht. apply bind_Ret in Ht as (g1 & H1 & H2). apply bind_Ret in H1 as (p & H3%unwrap_Ret & H4).
      constructor; [simpl; eauto|]. by eapply IH.
Qed.
