(** Histories of calls to the editing API of a tree. *)
From Coq Require Import Lia.
From Verif Require Import TreeSpec BaseProofs ShapeProofs GraphProofs DfsProofs ResetProofs ShapeOps TreeOps MoveProofs
  UnaryProofs SortProofs RemoveProofs ReattachProofs NavProofs EditProofs.

(** One call of the public mutating API of tree.rs.  [OEditNode] stands for the setters reachable
    through [IndexMut<NodeIndex>] (node.rs [set_label], [set_form], [set_lemma], [set_features],
    [features_mut]); [OEditEdge] for [Edge::set_label].  The result value of a call is dropped. *)
Inductive op :=
| OPush (form pos : str)
| OInsert (p : nat) (form pos : str) (idx : nat)
| OMove (n i : nat)
| OAbove (c : nat) (l : str)
| OBelow (n : nat) (l : str)
| ORemove (n : nat)
| OReattach (np e : nat)
| OAddSec (p c : nat) (l : option str)
| ORemSec (e : nat)
| OEditNT (n : nat) (label : str) (f : option features)
| OEditT (n : nat) (form pos : str) (lemma : option str) (f : option features)
| OEditEdge (e : nat) (l : option str).

Definition run (o : op) (t : tree) : outcome tree :=
  match o with
  | OPush f p => '(t, _) ← push_terminal t f p; Ret t
  | OInsert p f pos i => '(t, _) ← insert_terminal t p (term_new f pos i); Ret t
  | OMove n i => move_terminal t n i
  | OAbove c l => '(t, _) ← insert_unary_above t c l; Ret t
  | OBelow n l => '(t, _) ← insert_unary_below t n l; Ret t
  | ORemove n => '(t, _) ← remove_node t n; Ret t
  | OReattach np e => '(t, _) ← reattach_node t np e; Ret t
  | OAddSec p c l => '(t, _) ← add_secondary_edge t p c l; Ret t
  | ORemSec e => '(t, _) ← remove_secondary_edge t e; Ret t
  | OEditNT n label f =>
      w ← node_at t n; nt ← unwrap (node_nonterminal w);
      Ret (put_node t n (NT (mk_nt label f (nt_span nt))))
  | OEditT n form pos lemma f =>
      w ← node_at t n; tm ← unwrap (node_terminal w);
      Ret (put_node t n (T (mk_term form pos lemma f (t_span tm))))
  | OEditEdge e l =>
      w ← edge_at t e;
      Ret (put_edge t e (match w with Primary _ => Primary l | Secondary _ => Secondary l end))
  end.
Definition runs (ops : list op) (t : tree) : outcome tree := foldM (fun t o => run o t) ops t.

(** The calls after which the tree is well-formed again. *)
Definition safe (t : tree) (o : op) : Prop :=
  match o with
  | OAbove c _ => forall w, nodes t !! c = Some w -> ~ gappy w
  | OBelow n _ => forall nt, nodes t !! n = Some (NT nt) -> ~ gappy (NT nt)
  | ORemove n =>
      forall tm p c, nodes t !! n = Some (T tm) -> PE (edges t) p n -> PE (edges t) p c -> c = n
  | OReattach np e =>
      forall r, r ∈ edges t -> e_id r = e -> is_primary (e_w r) = true ->
        e_tgt r = np \/
        (exists tm, nodes t !! np = Some (T tm)) \/
        (e_src r <> np /\ forall s, PE (edges t) (e_src r) s -> s = e_tgt r) \/
        (~ Dom (edges t) (e_tgt r) np /\ (Dom (edges t) np (e_src r) \/ Dom (edges t) (e_src r) np))
  | _ => True
  end.

Lemma tree_new_WF form pos : WF (tree_new form pos).
Proof.
  assert (HN : forall n w, nodes (tree_new form pos) !! n = Some w <-> n = 0 /\ w = T (term_new form pos 0)).
  { intros n w. simpl. rewrite insert_empty, lookup_singleton_Some. naive_solver. }
  assert (HPE : forall a b, ~ PE (edges (tree_new form pos)) a b).
  { intros a b (r & Hr & _). simpl in Hr. set_solver. }
  assert (H0 : term_pos (nodes (tree_new form pos)) 0 0) by (eexists; split; [by apply HN|done]).
  constructor.
  - constructor; simpl; try set_solver; try by constructor.
    intros n [w Hw]. apply HN in Hw as [-> _]. lia.
  - constructor.
    + simpl. rewrite lookup_insert. eauto.
    + intros p. apply HPE.
    + simpl. set_solver.
    + intros p c H. by apply HPE in H.
    + intros n [w Hw]. apply HN in Hw as [-> _]. done.
    + intros n tm c _. apply HPE.
    + intros n nt H. by apply HN in H as [_ ?].
  - constructor.
    + intros n tm Hn. apply HN in Hn as [_ [= ->]]. exists 0. split; [done|]. simpl. lia.
    + intros n m i (tn & Hn & _) (tm & Hm & _). apply HN in Hn as [-> _], Hm as [-> _]. done.
    + intros i Hi. simpl in Hi. exists 0. replace i with 0 by lia. done.
  - intros n nt H. by apply HN in H as [_ ?].
  - simpl. rewrite insert_empty. unfold ndisc_of. rewrite map_filter_singleton_False; [done|]. simpl.
    unfold gappy. simpl. tauto.
Qed.

Lemma run_dead_node {A} t n (k : node -> outcome A) : nodes t !! n = None -> (w ← node_at t n; k w) = Panic.
Proof. intros H. unfold node_at. by rewrite H. Qed.
Lemma node_dec t n : nodes t !! n = None \/ (exists nt, nodes t !! n = Some (NT nt)) \/ (exists tm, nodes t !! n = Some (T tm)).
Proof. destruct (nodes t !! n) as [[nt|tm]|]; eauto. Qed.
Lemma set_ndisc_id t : set_ndisc t (tr_ndisc t) = t.
Proof. by destruct t. Qed.
Lemma sibling_dec t p n :
  WF t -> PE (edges t) p n -> (forall c, PE (edges t) p c -> c = n) \/ (exists c, PE (edges t) p c /\ c <> n).
Proof.
  intros W Hp. destruct (filter (fun c => c <> n) (map fst (children t p))) as [|c l] eqn:E.
  - left. intros c Hc. destruct (decide (c = n)); [done|]. exfalso.
    assert (H : c ∈ filter (fun c => c <> n) (map fst (children t p))).
    { apply elem_of_list_filter. split; [done|]. by apply children_fst. }
    rewrite E in H. by apply elem_of_nil in H.
  - right. exists c. assert (H : c ∈ filter (fun c => c <> n) (map fst (children t p))) by (rewrite E; left).
    apply elem_of_list_filter in H as [H1 H2]. split; [by apply children_fst|done].
Qed.

(** What is known about one call on a well-formed tree: it is well-formed afterwards exactly when
    the call was safe. *)
Lemma unary_not_gappy t t' w : WF t' -> tr_ndisc t' = tr_ndisc t ->
  WF (set_ndisc t' (tr_ndisc t + b2n (gappy w))) -> ~ gappy w.
Proof.
  intros W' Hd W. destruct W' as [_ _ _ _ D1]. destruct W as [_ _ _ _ D2]. simpl in D2.
  unfold b2n in D2. destruct (decide (gappy w)); [lia|done].
Qed.
Lemma unary_not_gappy_WF t t' w : ~ gappy w -> tr_ndisc t' = tr_ndisc t ->
  WF (set_ndisc t' (tr_ndisc t + b2n (gappy w))) -> WF t'.
Proof.
  intros Hg Hd. unfold b2n. rewrite decide_False by done. rewrite Nat.add_0_r, <- Hd. by rewrite set_ndisc_id.
Qed.
Lemma remove_secondary_cases t e :
  WF t -> remove_secondary_edge t e = Panic \/ exists t' o, remove_secondary_edge t e = Ret (t', o) /\ WF t'.
Proof.
  intros W. destruct (find_edge (tr_graph t) e) as [r|] eqn:E.
  - apply find_edge_Some in E as [Hr <-]; [|by destruct W]. right.
    destruct (is_primary (e_w r)) eqn:P.
    + exists t, None. split; [by apply remove_secondary_edge_primary|done].
    + destruct (remove_secondary_edge_ok t r W Hr P) as (t' & H & W' & _). eauto.
  - left. unfold remove_secondary_edge, edge_at. by rewrite E.
Qed.

Lemma run_exact t o t' : WF t -> run o t = Ret t' -> WF t' <-> safe t o.
Proof.
  intros W Hrun. pose proof W as [G Sh Tm Nt Nd].
  destruct o as [f p|p f ps i|n i|c l|n l|n|np e|p c l|e|n lb fe|n fo ps le fe|e l]; simpl in Hrun.
  - split; [done|]. intros _. destruct (sh_root _ _ _ Sh) as [[nt|tm] Hr].
    + destruct (push_terminal_ok t f p nt W Hr) as (t1 & n & e & H & W1 & _). rewrite H in Hrun. by (simpl in Hrun; simplify_eq).
    + rewrite (push_terminal_err t f p tm Hr) in Hrun. by (simpl in Hrun; simplify_eq).
  - split; [done|]. intros _. destruct (node_dec t p) as [H|[[nt H]|[tm H]]].
    + unfold insert_terminal in Hrun. by rewrite run_dead_node in Hrun.
    + destruct (decide (i <= tr_nterm t)) as [Hi|Hi].
      * destruct (insert_terminal_ok t p nt (term_new f ps i) i W H eq_refl Hi) as (t1 & n & e & H1 & W1 & _).
        rewrite H1 in Hrun. by (simpl in Hrun; simplify_eq).
      * rewrite (insert_terminal_panics t p _ (term_new f ps i) H) in Hrun; [done|]. right. simpl. lia.
    + rewrite (insert_terminal_panics t p _ (term_new f ps i) H) in Hrun; [done|]. by left.
  - split; [done|]. intros _. destruct (node_dec t n) as [H|[[nt H]|[tm H]]].
    + unfold move_terminal in Hrun. by rewrite run_dead_node in Hrun.
    + unfold move_terminal in Hrun. rewrite (node_at_Some _ _ _ H) in Hrun. simpl in Hrun.
      destruct (Nat.eqb (sp_start (nt_span nt)) i); [by (simpl in Hrun; simplify_eq)|done].
    + destruct (to_pos _ _ Tm n tm H) as (old & Hs & Ho).
      destruct (decide (i < tr_nterm t)) as [Hi|Hi].
      * destruct (move_terminal_ok t n tm old i W H Hs Hi) as (t1 & H1 & W1 & _). rewrite H1 in Hrun. by (simpl in Hrun; simplify_eq).
      * unfold move_terminal in Hrun. rewrite (node_at_Some _ _ _ H) in Hrun. cbn [mbind outcome_bind node_span] in Hrun.
        rewrite Hs in Hrun. destruct (Nat.eqb_spec (sp_start (span_of old)) i) as [E|E]; [simpl in E; lia|].
        cbn [is_terminal assert mbind outcome_bind] in Hrun. destruct (Nat.ltb_spec i (tr_nterm t)); [lia|done].
  - destruct (nodes t !! c) as [w|] eqn:H.
    + destruct (insert_unary_above_ok t c w l W H) as (t1 & ins & H1 & W1 & D1 & _). rewrite H1 in Hrun.
      (simpl in Hrun; simplify_eq). simpl. rewrite H. split.
      * intros W' w' [= <-]. by eapply unary_not_gappy.
      * intros Hg. eapply unary_not_gappy_WF; [|done|done]. by apply Hg.
    + unfold insert_unary_above in Hrun. by rewrite run_dead_node in Hrun.
  - destruct (node_dec t n) as [H|[[nt H]|[tm H]]].
    + unfold insert_unary_below in Hrun. by rewrite run_dead_node in Hrun.
    + destruct (insert_unary_below_ok t n nt l W H) as (t1 & ins & H1 & W1 & D1 & _). rewrite H1 in Hrun.
      (simpl in Hrun; simplify_eq). simpl. rewrite H. split.
      * intros W' w' [= <-]. by eapply unary_not_gappy.
      * intros Hg. eapply unary_not_gappy_WF; [|done|done]. by apply Hg.
    + rewrite (insert_unary_below_err t n tm l H) in Hrun. (simpl in Hrun; simplify_eq). simpl. rewrite H. split; [done|done].
  - unfold remove_node in Hrun. destruct (node_dec t n) as [H|[[nt H]|[tm H]]].
    + by rewrite run_dead_node in Hrun.
    + rewrite (node_at_Some _ _ _ H) in Hrun. simpl in Hrun. split; [by intros _ tm p c H'; rewrite H in H'|intros _].
      destruct (parent t n) as [[p e]|] eqn:E.
      * assert (Hp : PE (edges t) p n) by (apply parent_PE; eauto).
        destruct (remove_nonterminal_ok t n nt p W H Hp) as (t1 & H1 & W1 & _). rewrite H1 in Hrun. by (simpl in Hrun; simplify_eq).
      * apply parent_None_root in E; [|done|eauto]. subst n. destruct (sh_inner _ _ _ Sh _ _ H) as [c Hc].
        destruct (sibling_dec t _ _ W Hc) as [Hu|(c' & Hc' & Hne)].
        -- destruct (remove_nonterminal_root_ok t nt c W H Hc Hu) as (t1 & H1 & W1 & _). rewrite H1 in Hrun. by (simpl in Hrun; simplify_eq).
        -- rewrite (remove_nonterminal_root_err t nt c c' W H) in Hrun by done. by (simpl in Hrun; simplify_eq).
    + rewrite (node_at_Some _ _ _ H) in Hrun. simpl in Hrun. simpl. split.
      * intros W' tm' p c H' Hp Hc. destruct (decide (c = n)) as [|Hne]; [done|exfalso].
        destruct (remove_terminal_ok t n tm p c W H Hp Hc Hne) as (t1 & H1 & _). rewrite H1 in Hrun. (simpl in Hrun; simplify_eq).
        by apply (remove_terminal_not_wf _ _ _ _ W H H1).
      * intros Hsafe. rewrite (remove_terminal_err t n tm W H) in Hrun; [by (simpl in Hrun; simplify_eq)|].
        intros p c Hp Hc. by apply (Hsafe tm p c).
  - unfold reattach_node, assert in Hrun.
    destruct (contains_node (tr_graph t) np) eqn:Hnp; [|done]. apply contains_node_true in Hnp.
    destruct (find_edge (tr_graph t) e) as [r|] eqn:E; [|done]. apply find_edge_Some in E as [Hr <-]; [|done].
    assert (Huniq : forall r', r' ∈ edges t -> e_id r' = e_id r -> r' = r).
    { intros r' Hr' E. by apply (eid_inj _ _ _ G). }
    cbn [mbind outcome_bind unwrap] in Hrun. destruct (Nat.eqb_spec (e_tgt r) np) as [Et|Et].
    { (simpl in Hrun; simplify_eq). split; [|done]. intros _ r' Hr' E' _. left. by rewrite (Huniq r'). }
    assert (Hnode : reattach_node t np (e_id r) = match e_w r with
       | Primary _ => reattach_primary t np (e_id r)
       | Secondary _ => '(t, x) ← reattach_secondary t np (e_id r); Ret (t, Ok x) end).
    { unfold reattach_node, assert. rewrite (proj2 (contains_node_true _ _) Hnp). simpl.
      rewrite (proj2 (find_edge_Some _ _ r G) (conj Hr eq_refl)). simpl. by destruct (Nat.eqb_spec (e_tgt r) np). }
    destruct (is_primary (e_w r)) eqn:P.
    + assert (Hrun' : exists x, reattach_primary t np (e_id r) = Ret (t', x)).
      { destruct (e_w r); [|done]. destruct (reattach_primary t np (e_id r)) as [[t1 x]| |]; try done.
        (simpl in Hrun; simplify_eq). eauto. }
      clear Hrun Hnode. destruct Hrun' as [x Hrun]. simpl.
      destruct (node_dec t np) as [H|[[nt H]|[tm H]]]; [rewrite H in Hnp; by destruct Hnp| |].
      * destruct (decide (e_src r = np)) as [Esrc|Esrc].
        -- assert (Hex : exists t1 e1, reattach_primary t np (e_id r) = Ret (t1, Ok (e1, e_w r)) /\ WF t1).
           { assert (Hc : PE (edges t) np (e_tgt r)) by (exists r; done).
             destruct (reattach_primary_ok t np nt r W Hr P H) as (t1 & e1 & H1 & W1 & _); [|left; by rewrite Esrc|by left|eauto].
             intros HD. by apply (Dom_PE_acyclic Sh (e_tgt r) np). }
           destruct Hex as (t1 & e1 & H1 & W1). rewrite H1 in Hrun. (simpl in Hrun; simplify_eq). split; [|done].
           intros _ r' Hr' E' _. rewrite (Huniq r' Hr' E'). right. right. right. split; [|by left].
           intros HD. apply (Dom_PE_acyclic Sh (e_tgt r) (e_src r)); [done|]. exists r; done.
        -- assert (Hc : PE (edges t) (e_src r) (e_tgt r)) by (exists r; done).
           destruct (sibling_dec t _ _ W Hc) as [Hu|(s & Hs & Hne)].
           ++ rewrite (reattach_primary_err t np r W Hr P) in Hrun; [|done|by right]. (simpl in Hrun; simplify_eq). split; [|done].
              intros _ r' Hr' E' _. rewrite (Huniq r' Hr' E'). right. right. left. done.
           ++ split.
              ** intros W' r' Hr' E' _. rewrite (Huniq r' Hr' E'). right. right. right.
                 destruct x as [x|]; [by apply (reattach_primary_bad t np r x t')|].
                 exfalso. unfold reattach_primary in Hrun.
                 rewrite (proj2 (find_edge_Some _ _ r G) (conj Hr eq_refl)) in Hrun. cbn [unwrap mbind outcome_bind] in Hrun.
                 rewrite (node_at_Some _ _ _ H) in Hrun. cbn [mbind outcome_bind is_terminal] in Hrun.
                 assert (Hl : Nat.eqb (length (siblings t (e_tgt r))) 0 = false).
                 { apply Nat.eqb_neq. intros El. apply nil_length_inv in El.
                   apply children_PE in Hs as [es Hs].
                   assert (Hin : (s, es) ∈ siblings t (e_tgt r)) by (apply elem_of_siblings; eauto).
                   rewrite El in Hin. by apply elem_of_nil in Hin. }
                 rewrite Hl in Hrun. cbn [andb] in Hrun.
                 repeat match type of Hrun with
                 | (x ← ?m; _) = _ => destruct m as [?| |]; [cbn [mbind outcome_bind] in Hrun|done|done]
                 | context [remove_edge ?a ?b] => destruct (remove_edge a b)
                 | context [let '(_, _) := ?p in _] => destruct p
                 end; try done.
              ** intros Hsafe. destruct (Hsafe r Hr eq_refl P) as [Hx|[[tm Hx]|[[_ Hx]|[H1 H2]]]].
                 --- done.
                 --- congruence.
                 --- by apply Hx in Hs.
                 --- destruct (reattach_primary_ok t np nt r W Hr P H H1 H2) as (t1 & e1 & HH & W1 & _); [eauto|].
                     rewrite HH in Hrun. by (simpl in Hrun; simplify_eq).
      * rewrite (reattach_primary_err t np r W Hr P) in Hrun; [|done|eauto]. (simpl in Hrun; simplify_eq). split; [|done].
        intros _ r' _ _ _. eauto.
    + destruct (reattach_secondary_ok t np r W Hr P Hnp Et) as (t1 & e1 & H1 & W1 & _).
      rewrite Hnode in H1. destruct (e_w r) as [|l] eqn:Ew; [done|]. rewrite H1 in Hrun. (simpl in Hrun; simplify_eq). split; [|done].
      intros _ r' Hr' E' P'. rewrite (Huniq r' Hr' E') in P'. by rewrite Ew in P'.
  - split; [done|]. intros _. destruct (nodes t !! p) eqn:Hp; [destruct (nodes t !! c) eqn:Hc|].
    + destruct (add_secondary_edge_ok t p c l W) as (t1 & e & H1 & W1 & _); [by eauto..|].
      rewrite H1 in Hrun. by (simpl in Hrun; simplify_eq).
    + unfold add_secondary_edge, add_edge, contains_node in Hrun.
      rewrite (bool_decide_false (is_Some (nodes t !! c))) in Hrun by (rewrite Hc; by intros []).
      by rewrite andb_false_r in Hrun.
    + unfold add_secondary_edge, add_edge, contains_node in Hrun.
      by rewrite (bool_decide_false (is_Some (nodes t !! p))) in Hrun by (rewrite Hp; by intros []).
  - split; [done|]. intros _. destruct (remove_secondary_cases t e W) as [H|(t1 & o & H & W1)]; rewrite H in Hrun; by (simpl in Hrun; simplify_eq).
  - split; [done|]. intros _. destruct (node_dec t n) as [H|[[nt H]|[tm H]]].
    + by rewrite run_dead_node in Hrun.
    + rewrite (node_at_Some _ _ _ H) in Hrun. simpl in Hrun. (simpl in Hrun; simplify_eq). by eapply put_node_WF.
    + by rewrite (node_at_Some _ _ _ H) in Hrun.
  - split; [done|]. intros _. destruct (node_dec t n) as [H|[[nt H]|[tm H]]].
    + by rewrite run_dead_node in Hrun.
    + by rewrite (node_at_Some _ _ _ H) in Hrun.
    + rewrite (node_at_Some _ _ _ H) in Hrun. simpl in Hrun. (simpl in Hrun; simplify_eq). by eapply put_node_WF.
  - split; [done|]. intros _. unfold edge_at in Hrun.
    destruct (find_edge (tr_graph t) e) as [r|] eqn:E; [|done]. apply find_edge_Some in E as [Hr He]; [|done].
    simpl in Hrun. (simpl in Hrun; simplify_eq). eapply put_edge_WF; [done|done|done|]. by destruct (e_w r).
Qed.

(** ** A checker for concrete histories *)
Fixpoint anc (fuel : nat) (t : tree) (n : nat) : list nat :=
  match fuel with
  | 0 => []
  | S fuel => n :: match parent t n with Some (p, _) => anc fuel t p | None => [] end
  end.
Lemma anc_sound fuel t n a : shape_ok (nodes t) (edges t) (tr_root t) -> a ∈ anc fuel t n -> Dom (edges t) a n.
Proof.
  intros Sh. revert n. induction fuel as [|fuel IH]; simpl; intros n; [set_solver|].
  rewrite elem_of_cons. intros [->|H]; [done|]. destruct (parent t n) as [[p e]|] eqn:E; [|set_solver].
  apply IH in H. eapply rtc_r; [exact H|]. apply parent_PE; eauto.
Qed.
Lemma anc_upath fuel t n l :
  shape_ok (nodes t) (edges t) (tr_root t) -> upath (edges t) n l -> length l < fuel -> anc fuel t n = n :: l.
Proof.
  intros Sh. revert fuel. induction l as [|p l IH] in n |- *; intros fuel H Hl; (destruct fuel as [|fuel]; [simpl in Hl; lia|]); simpl.
  - inversion H as [? Hn|]; subst. by rewrite (proj2 (parent_None t n Sh) Hn).
  - inversion H as [|? p' ? Hp Hu]; subst. apply parent_PE in Hp as [e ->]; [|done]. f_equal.
    apply IH; [done|]. simpl in Hl. lia.
Qed.
(** Dominance in concrete trees can be computed. *)
Lemma anc_Dom t n a : WF t -> is_Some (nodes t !! n) -> a ∈ anc (climb_fuel t) t n <-> Dom (edges t) a n.
Proof.
  intros W Hn. pose proof (wf_shape _ W) as Sh. destruct (upath_exists Sh n Hn) as [l Hl].
  rewrite (anc_upath _ _ _ _ Sh Hl).
  - rewrite elem_of_cons, (upath_elem Sh n l a Hl). split.
    + intros [->|H]; [done|]. by apply tc_rtc.
    + intros H. apply rtc_tc in H as [->|H]; eauto.
  - pose proof (upath_length Sh n l Hn Hl). unfold climb_fuel, node_count. lia.
Qed.
Definition domb (t : tree) (a n : nat) : bool := bool_decide (a ∈ anc (climb_fuel t) t n).
Lemma domb_spec t a n : WF t -> bool_decide (is_Some (nodes t !! n)) = true -> domb t a n = true <-> Dom (edges t) a n.
Proof. intros W Hn%bool_decide_eq_true. unfold domb. rewrite bool_decide_eq_true. by apply anc_Dom. Qed.
Definition safeb (t : tree) (o : op) : bool :=
  match o with
  | OAbove n _ | OBelow n _ =>
      match nodes t !! n with Some w => negb (bool_decide (gappy w)) | None => true end
  | ORemove n => negb (node_is_term t n)
  | OReattach np e =>
      match find_edge (tr_graph t) e with
      | Some r => bool_decide (np ∈ anc (climb_fuel t) t (e_src r))
      | None => true
      end
  | _ => true
  end.
Local Arguments anc : simpl never.
Lemma safeb_sound t o : WF t -> safeb t o = true -> safe t o.
Proof.
  intros [G Sh Tm Nt Nd]. destruct o as [f p|p f ps i|n i|c l|n l|n|np e|p c l|e|n lb fe|n fo ps le fe|e l]; simpl; try done.
  - intros H w Hw. rewrite Hw in H. by rewrite negb_true_iff, bool_decide_eq_false in H.
  - intros H w Hw. rewrite Hw in H. by rewrite negb_true_iff, bool_decide_eq_false in H.
  - intros H tm p c Hn. unfold node_is_term in H. by rewrite Hn in H.
  - intros H r Hr He P. rewrite (proj2 (find_edge_Some _ _ r G) (conj Hr He)) in H.
    apply bool_decide_eq_true, anc_sound in H; [|done]. right. right. right. split; [|by left].
    intros HD. apply (Dom_PE_acyclic Sh (e_tgt r) (e_src r)); [by etrans|]. by exists r.
Qed.
Definition runb (ops : list op) (t : tree) : outcome tree :=
  foldM (fun t o => if safeb t o then run o t else Panic) ops t.
Lemma runb_WF ops t t' : WF t -> runb ops t = Ret t' -> WF t'.
Proof.
  revert t. unfold runb. induction ops as [|o ops IH]; simpl; intros t W H; [by simplify_eq|].
  destruct (safeb t o) eqn:S; [|done]. destruct (run o t) as [t1| |] eqn:E; [|done|done]. simpl in H.
  apply (IH t1); [|done]. apply (run_exact t o t1 W E). by apply safeb_sound.
Qed.
(** The tree built by a history, for examples. *)
Definition build (form pos : str) (ops : list op) : tree :=
  match runb ops (tree_new form pos) with Ret t => t | _ => tree_new form pos end.
Lemma build_WF form pos ops : WF (build form pos ops).
Proof.
  unfold build. destruct (runb ops (tree_new form pos)) as [t| |] eqn:E; try apply tree_new_WF.
  eapply runb_WF; [apply tree_new_WF|done].
Qed.
