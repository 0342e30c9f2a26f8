(** Properties C09 - C19: the editing API of trees. *)
From Coq Require Import Lia.
From Verif Require Import TreeSpec BaseProofs ShapeProofs GraphProofs DfsProofs ResetProofs ShapeOps TreeOps MoveProofs
  UnaryProofs SortProofs RemoveProofs ReattachProofs NavProofs EditProofs Api.

(** ** Example trees

    [ex_proj]: (S (NP the dog) (VP barks) loudly).  Node indices: the 0, NP 1, dog 2, S 3, barks 4,
    loudly 5, VP 6. *)
Definition ex_proj : tree :=
  build (lit "the") (lit "D")
    [OAbove 0 (lit "NP"); OPush (lit "dog") (lit "N"); OAbove 1 (lit "S"); OPush (lit "barks") (lit "V");
     OPush (lit "loudly") (lit "ADV"); OAbove 4 (lit "VP")].
(** [ex_disc]: the same tree after moving "the" to position 2: NP has a gap. *)
Definition ex_disc : tree := build (lit "the") (lit "D")
    [OAbove 0 (lit "NP"); OPush (lit "dog") (lit "N"); OAbove 1 (lit "S"); OPush (lit "barks") (lit "V");
     OPush (lit "loudly") (lit "ADV"); OAbove 4 (lit "VP"); OMove 0 2].
Lemma ex_proj_WF : WF ex_proj.
Proof. apply build_WF. Qed.
Lemma ex_disc_WF : WF ex_disc.
Proof. apply build_WF. Qed.
Global Opaque ex_proj ex_disc.
Lemma PE_of_children t p c : existsb (Nat.eqb c) (map fst (children t p)) = true -> PE (edges t) p c.
Proof.
  intros H. apply children_fst. apply existsb_exists in H as (x & Hx & E). apply Nat.eqb_eq in E. subst.
  by apply elem_of_list_In.
Qed.
Lemma not_PE_of_children t p c : existsb (Nat.eqb c) (map fst (children t p)) = false -> ~ PE (edges t) p c.
Proof.
  intros H Hp. apply children_fst, elem_of_list_In in Hp. apply not_true_iff_false in H. apply H.
  apply existsb_exists. exists c. split; [done|by apply Nat.eqb_refl].
Qed.
Example ex_shape :
  map (fun n => map fst (children ex_proj n)) (seq 0 7) = [[]; [2; 0]; []; [6; 5; 1]; []; []; [4]] /\
  map (fun n => span_iter <$> (node_span <$> nodes ex_proj !! n)) (seq 0 7) =
    [Some [0]; Some [0; 1]; Some [1]; Some [0; 1; 2; 3]; Some [2]; Some [3]; Some [2]] /\
  map (fun n => span_iter <$> (node_span <$> nodes ex_disc !! n)) (seq 0 7) =
    [Some [2]; Some [0; 2]; Some [0]; Some [0; 1; 2; 3]; Some [1]; Some [3]; Some [1]] /\
  is_projective ex_proj = true /\ is_projective ex_disc = false.
Proof. by vm_compute. Qed.

(** ** C09: histories *)

(** A history all of whose calls are safe when they are made. *)
Fixpoint all_safe (ops : list op) (t : tree) : Prop :=
  match ops with
  | [] => True
  | o :: ops => safe t o /\ forall t', run o t = Ret t' -> all_safe ops t'
  end.

(** Every tree reached from [Tree::new] by safe calls is well-formed.  Missing for the full
    statement: the calls excluded by [safe], which really break well-formedness (see
    [C09_safe_exact] and [C09_all_histories_refuted]). *)
Theorem C09_histories_partial form pos ops t :
  all_safe ops (tree_new form pos) -> runs ops (tree_new form pos) = Ret t -> WF t.
Proof.
  assert (H : forall t0, WF t0 -> all_safe ops t0 -> runs ops t0 = Ret t -> WF t).
  { unfold runs. induction ops as [|o ops IH]; intros t0 W Hs H; simpl in *; [by simplify_eq|].
    destruct Hs as [Hs Hn]. destruct (run o t0) as [t1| |] eqn:E; try done. simpl in H.
    apply (IH t1); [by apply (run_exact t0 o t1)|by apply Hn|done]. }
  apply H, tree_new_WF.
Qed.
Print Assumptions C09_histories_partial.
(** The guard cannot be weakened: a call that returns leaves a well-formed tree well-formed exactly
    when it is safe. *)
Theorem C09_safe_exact t o t' : WF t -> run o t = Ret t' -> (WF t' <-> safe t o).
Proof. exact (run_exact t o t'). Qed.
Print Assumptions C09_safe_exact.

(** [is_projective] of a well-formed tree says whether all yields are intervals. *)
Theorem C09_projective t :
  WF t ->
  is_projective t = true <->
  forall n i j k, yields (nodes t) (edges t) n i -> yields (nodes t) (edges t) n k -> i < j < k ->
                  yields (nodes t) (edges t) n j.
Proof.
  intros [G Sh Tm Nt Nd]. unfold is_projective. rewrite Nat.eqb_eq, Nd, ndisc_of_zero. split.
  - intros H n i j k Hi Hk Hj.
    assert (Hn : is_Some (nodes t !! n)).
    { destruct Hi as (m & Hm & tm & Ht & _). apply (Dom_live_l Sh n m); eauto. }
    destruct Hn as [w Hw]. destruct (node_span_ok _ _ _ _ _ _ Sh Tm Nt Hw) as [Ho Hc].
    destruct (decide (covers (node_span w) j)) as [Hy|Hy]; [by apply Hc|]. exfalso.
    apply (H n w Hw). unfold gappy. apply span_ok_skips; [done|]. exists i, j, k. rewrite !Hc. rewrite Hc in Hy. done.
  - intros H n w Hw Hg. destruct (node_span_ok _ _ _ _ _ _ Sh Tm Nt Hw) as [Ho Hc].
    apply span_ok_skips in Hg as (i & j & k & Hlt & Hi & Hj & Hk); [|done]. apply Hj, Hc.
    apply (H n i j k); [by apply Hc|by apply Hc|done].
Qed.
Print Assumptions C09_projective.

(** Histories that end in a tree that is not well-formed: (a) removing a terminal, (b) inserting a
    node above a discontinuous one, (c) reattaching to a node that is not on one path with the old
    parent, (d) reattaching a node below its own descendant. *)
Definition ex_base : list op :=
  [OAbove 0 (lit "NP"); OPush (lit "dog") (lit "N"); OAbove 1 (lit "S"); OPush (lit "barks") (lit "V");
   OPush (lit "loudly") (lit "ADV"); OAbove 4 (lit "VP")].
Lemma runs_snoc ops o t t1 : runs ops t = Ret t1 -> runs (ops ++ [o]) t = run o t1.
Proof.
  unfold runs. revert t. induction ops as [|o' ops IH]; simpl; intros t H.
  - simplify_eq. by destruct (run o t1).
  - destruct (run o' t) as [t2| |]; try done. simpl in *. by apply IH.
Qed.
Lemma runs_build ops t : runb ops (tree_new (lit "the") (lit "D")) = Ret t ->
  runs ops (tree_new (lit "the") (lit "D")) = Ret t /\ build (lit "the") (lit "D") ops = t.
Proof.
  intros H. split; [|unfold build; by rewrite H]. unfold runb in H. unfold runs. revert H.
  generalize (tree_new (lit "the") (lit "D")). induction ops as [|o ops IH]; simpl; intros t0 H; [done|].
  destruct (safeb t0 o); [|done]. destruct (run o t0) as [t1| |]; try done. by apply IH.
Qed.
Lemma unsafe_step ops o t1 t' :
  runb ops (tree_new (lit "the") (lit "D")) = Ret t1 ->
  run o (build (lit "the") (lit "D") ops) = Ret t' -> ~ safe (build (lit "the") (lit "D") ops) o ->
  exists t, runs (ops ++ [o]) (tree_new (lit "the") (lit "D")) = Ret t /\ ~ WF t.
Proof.
  intros H1 H2 H3. apply runs_build in H1 as [H1 E]. exists t'. rewrite E in *. split.
  - by rewrite (runs_snoc _ _ _ _ H1).
  - intros W. apply H3. apply (run_exact t1 o t'); [|done|done]. rewrite <- E. apply build_WF.
Qed.
Lemma not_Dom_of t a n : WF t -> bool_decide (is_Some (nodes t !! n)) = true -> domb t a n = false -> ~ Dom (edges t) a n.
Proof. intros W Hn H HD. apply (domb_spec t a n W Hn) in HD. congruence. Qed.
Theorem C09_all_histories_refuted :
  Forall (fun ops => exists t, runs ops (tree_new (lit "the") (lit "D")) = Ret t /\ ~ WF t)
    [ex_base ++ [ORemove 2];
     (ex_base ++ [OMove 0 2]) ++ [OAbove 1 (lit "X")];
     ex_base ++ [OReattach 6 1];
     (ex_base ++ [OAbove 2 (lit "N1")]) ++ [OReattach 7 2]].
Proof.
  apply Forall_cons; split; [|apply Forall_cons; split; [|apply Forall_cons; split; [|apply Forall_cons; split; [|apply Forall_nil; done]]]].
  - eapply unsafe_step; [by vm_compute|by vm_compute|]. intros H.
    assert (0 = 2); [|done]. eapply (H _ 1 0); [by vm_compute| |]; apply PE_of_children; by vm_compute.
  - eapply unsafe_step; [by vm_compute|by vm_compute|]. intros H. eapply H; [by vm_compute|].
    unfold gappy. by vm_compute.
  - eapply unsafe_step; [by vm_compute|by vm_compute|]. intros H.
    destruct (H (mk_e 1 1 2 (Primary None))) as [E|[[tm E]|[[_ E]|[_ [E|E]]]]].
    + apply elem_of_list_In. vm_compute. tauto.
    + reflexivity.
    + reflexivity.
    + discriminate E.
    + vm_compute in E. discriminate E.
    + assert (0 = 2); [|done]. apply E, PE_of_children. by vm_compute.
    + revert E. apply not_Dom_of; [apply build_WF|by vm_compute..].
    + revert E. apply not_Dom_of; [apply build_WF|by vm_compute..].
  - eapply unsafe_step; [by vm_compute|by vm_compute|]. intros H.
    destruct (H (mk_e 2 3 1 (Primary None))) as [E|[[tm E]|[[_ E]|[E _]]]].
    + apply elem_of_list_In. vm_compute. tauto.
    + reflexivity.
    + reflexivity.
    + discriminate E.
    + vm_compute in E. discriminate E.
    + assert (5 = 1); [|done]. apply E, PE_of_children. by vm_compute.
    + apply E. apply domb_spec; [apply build_WF|by vm_compute..].
Qed.
Print Assumptions C09_all_histories_refuted.
(** A history using every kind of call, all of them safe. *)
Example C09_ex :
  let ops := ex_base ++ [OBelow 3 (lit "VROOT"); OInsert 1 (lit "old") (lit "ADJ") 1; OMove 0 3; ORemove 6;
     OReattach 3 1; OAddSec 1 5 (Some (lit "sec")); ORemSec 8; OEditNT 3 (lit "TOP") None;
     OEditT 2 (lit "cat") (lit "NN") (Some (lit "cat")) None; OEditEdge 0 (Some (lit "HD"))] in
  exists t, runb ops (tree_new (lit "the") (lit "D")) = Ret t /\ WF t /\ tr_nterm t = 5.
Proof.
  intros ops. destruct (runb ops (tree_new (lit "the") (lit "D"))) as [t| |] eqn:E.
  - exists t. split; [done|]. split; [eapply runb_WF; [apply tree_new_WF|exact E]|].
    assert (Hk : (match runb ops (tree_new (lit "the") (lit "D")) with Ret t => tr_nterm t | _ => 0 end) = 5) by (by vm_compute).
    by rewrite E in Hk.
  - exfalso. by vm_compute in E.
  - exfalso. by vm_compute in E.
Qed.

(** ** C10: push_terminal *)
Theorem C10_push_terminal t form pos :
  WF t ->
  ((exists tm, nodes t !! tr_root t = Some (T tm)) -> push_terminal t form pos = Ret (t, Err)) /\
  (forall nt, nodes t !! tr_root t = Some (NT nt) ->
    exists t' n e, push_terminal t form pos = Ret (t', Ok n) /\ WF t' /\
      nodes t !! n = None /\ tr_nterm t' = tr_nterm t + 1 /\ tr_root t' = tr_root t /\
      nodes t' !! n = Some (T (mk_term form pos None None (span_of (tr_nterm t)))) /\
      (exists s, nodes t' !! tr_root t = Some (NT (mk_nt (nt_label nt) (nt_feats nt) s))) /\
      (forall m, m <> n -> m <> tr_root t -> nodes t' !! m = nodes t !! m) /\
      edges t' = mk_e e (tr_root t) n (Primary None) :: edges t).
Proof.
  intros W. split.
  - intros [tm H]. by eapply push_terminal_err.
  - intros nt H. destruct (push_terminal_ok t form pos nt W H) as (t' & n & e & H1 & W' & Hn & HN & HE & Hr & Hk & Hd).
    assert (Hne : n <> tr_root t) by (intros ->; congruence).
    exists t', n, e. split_and!; try done; rewrite HN.
    + rewrite lookup_insert_ne by done. by rewrite lookup_insert.
    + rewrite lookup_insert. eauto.
    + intros m H2 H3. by rewrite !lookup_insert_ne.
Qed.
Print Assumptions C10_push_terminal.
Example C10_ex : WF ex_proj /\ (exists nt, nodes ex_proj !! tr_root ex_proj = Some (NT nt)) /\
  (exists tm, nodes (tree_new [] []) !! tr_root (tree_new [] []) = Some (T tm)).
Proof. split; [apply ex_proj_WF|]. split; eexists; by vm_compute. Qed.

(** ** C11: insert_terminal *)
Theorem C11_insert_terminal t p form pos i :
  WF t ->
  (forall pn, nodes t !! p = Some (NT pn) -> i <= tr_nterm t ->
    exists t' n e, insert_terminal t p (term_new form pos i) = Ret (t', n) /\ WF t' /\
      nodes t !! n = None /\ nodes t' !! n = Some (T (mk_term form pos None None (span_of i))) /\
      (forall m j, m <> n -> term_pos (nodes t) m j -> j < i -> term_pos (nodes t') m j) /\
      (forall m j, m <> n -> term_pos (nodes t) m j -> i <= j -> term_pos (nodes t') m (j + 1)) /\
      eq_strip (delete n (nodes t')) (nodes t) /\
      edges t' = mk_e e p n (Primary None) :: edges t /\ tr_root t' = tr_root t /\ tr_nterm t' = tr_nterm t + 1) /\
  (insert_terminal t p (term_new form pos i) = Panic <->
     nodes t !! p = None \/ (exists tm, nodes t !! p = Some (T tm)) \/ tr_nterm t < i).
Proof.
  intros W. split.
  - intros pn Hp Hi. destruct (insert_terminal_ok t p pn (term_new form pos i) i W Hp eq_refl Hi)
      as (t' & n & e & H1 & W' & Hn & Hn' & Hs & Hpos & HE & Hr & Hk).
    exists t', n, e. split_and!; try done.
    + intros m j Hm Ht Hj. apply (Hpos m j) in Ht; [|done]. unfold ins_shift in Ht.
      destruct (Nat.leb_spec i j); [lia|done].
    + intros m j Hm Ht Hj. apply (Hpos m j) in Ht; [|done]. unfold ins_shift in Ht.
      destruct (Nat.leb_spec i j); [done|lia].
  - destruct (node_dec t p) as [H|[[pn H]|[tm H]]].
    + split; [eauto|]. intros _. unfold insert_terminal. by rewrite run_dead_node.
    + destruct (decide (i <= tr_nterm t)) as [Hi|Hi].
      * destruct (insert_terminal_ok t p pn (term_new form pos i) i W H eq_refl Hi) as (t' & n & e & H1 & _).
        rewrite H1, H. split; [done|]. intros [?|[[? ?]|?]]; [done|done|lia].
      * split; [intros _; right; right; lia|]. intros _. eapply insert_terminal_panics; [done|]. right. simpl. lia.
    + split; [eauto|]. intros _. eapply insert_terminal_panics; [done|by left].
Qed.
Print Assumptions C11_insert_terminal.
Example C11_ex : WF ex_disc /\ (exists pn, nodes ex_disc !! 1 = Some (NT pn)) /\ 1 <= tr_nterm ex_disc.
Proof. split; [apply ex_disc_WF|]. split; [eexists; by vm_compute|vm_compute; lia]. Qed.

(** ** C12: move_terminal *)
Theorem C12_move_terminal_partial t n tm i :
  WF t -> nodes t !! n = Some (T tm) ->
  (i < tr_nterm t ->
    exists t', move_terminal t n i = Ret t' /\ WF t' /\ term_pos (nodes t') n i /\
      (forall m1 m2 j1 j2 k1 k2, m1 <> n -> m2 <> n ->
         term_pos (nodes t) m1 j1 -> term_pos (nodes t) m2 j2 ->
         term_pos (nodes t') m1 k1 -> term_pos (nodes t') m2 k2 -> (j1 < j2 <-> k1 < k2)) /\
      eq_strip (nodes t') (nodes t) /\ edges t' = edges t /\ tr_root t' = tr_root t /\ tr_nterm t' = tr_nterm t) /\
  (tr_nterm t <= i -> move_terminal t n i = Panic).
Proof.
  intros W Hn. pose proof (wf_terms _ W) as Tm. destruct (to_pos _ _ Tm n tm Hn) as (old & Hs & Ho).
  assert (Hold : term_pos (nodes t) n old) by (by exists tm). split.
  - intros Hi. destruct (move_terminal_ok t n tm old i W Hn Hs Hi) as (t' & H1 & W' & Hst & Hpos & HE & Hr & Hk).
    exists t'. split_and!; try done.
    + apply Hpos in Hold. unfold move_pos in Hold. by rewrite Nat.eqb_refl in Hold.
    + intros m1 m2 j1 j2 k1 k2 N1 N2 P1 P2 Q1 Q2.
      assert (j1 <> old) by (intros ->; apply N1; by eapply (to_inj _ _ Tm)).
      assert (j2 <> old) by (intros ->; apply N2; by eapply (to_inj _ _ Tm)).
      rewrite (term_pos_inj _ _ _ _ Q1 (Hpos _ _ P1)), (term_pos_inj _ _ _ _ Q2 (Hpos _ _ P2)).
      destruct (move_pos_spec old i j1) as (A1 & A2 & A3 & A4). destruct (move_pos_spec old i j2) as (B1 & B2 & B3 & B4).
      clear A1 B1. specialize (A2 ltac:(done)). specialize (A3 ltac:(done)). specialize (A4 ltac:(done)).
      specialize (B2 ltac:(done)). specialize (B3 ltac:(done)). specialize (B4 ltac:(done)).
      lia.
  - intros Hi. unfold move_terminal. rewrite (node_at_Some _ _ _ Hn). cbn [mbind outcome_bind node_span]. rewrite Hs.
    destruct (Nat.eqb_spec (sp_start (span_of old)) i) as [E|E]; [simpl in E; lia|].
    cbn [is_terminal assert mbind outcome_bind]. destruct (Nat.ltb_spec i (tr_nterm t)); [lia|done].
Qed.
Print Assumptions C12_move_terminal_partial.
Example C12_ex : WF ex_proj /\ (exists tm, nodes ex_proj !! 0 = Some (T tm)) /\ 3 < tr_nterm ex_proj.
Proof. split; [apply ex_proj_WF|]. split; [eexists; by vm_compute|vm_compute; lia]. Qed.
(** On a nonterminal the call panics unless the index is the start of its span; then it returns. *)
Theorem C12_nonterminal t n nt i :
  nodes t !! n = Some (NT nt) ->
  move_terminal t n i = if Nat.eqb (sp_start (nt_span nt)) i then Ret t else Panic.
Proof. intros H. unfold move_terminal. rewrite (node_at_Some _ _ _ H). simpl. by destruct (Nat.eqb (sp_start (nt_span nt)) i). Qed.
Print Assumptions C12_nonterminal.
Theorem C12_panics_on_nonterminal_refuted :
  exists t n nt i, WF t /\ nodes t !! n = Some (NT nt) /\ move_terminal t n i <> Panic.
Proof.
  exists ex_proj, 1. eexists _, 0. split; [apply ex_proj_WF|]. split; [by vm_compute|]. by vm_compute.
Qed.
Print Assumptions C12_panics_on_nonterminal_refuted.

(** ** C13: unary insertion *)
Theorem C13_above_partial t c w label :
  WF t -> nodes t !! c = Some w -> ~ gappy w ->
  exists t' ins, insert_unary_above t c label = Ret (t', ins) /\ WF t' /\
    nodes t !! ins = None /\ nodes t' = <[ins := NT (mk_nt label None (node_span w))]> (nodes t) /\
    (forall b, PE (edges t') ins b <-> b = c) /\
    (forall p, PE (edges t') p ins <-> PE (edges t) p c) /\
    (c = tr_root t -> tr_root t' = ins) /\ (c <> tr_root t -> tr_root t' = tr_root t) /\
    (forall a b, a <> ins -> b <> ins -> b <> c -> PE (edges t') a b <-> PE (edges t) a b) /\
    (forall a b, a <> ins -> b <> ins -> Dom (edges t') a b <-> Dom (edges t) a b).
Proof.
  intros W Hc Hg. destruct (insert_unary_above_ok t c w label W Hc)
    as (t' & ins & H1 & W' & Hd & Hins & HN & Hk & Hr & HPE & _).
  apply unary_not_gappy_WF in W'; [|done|done]. pose proof (wf_shape _ W) as Sh.
  assert (Hfresh : forall x, ~ PE (edges t) ins x /\ ~ PE (edges t) x ins).
  { intros x. split; intros H; apply (sh_live _ _ _ Sh) in H as [[? H] [? H']]; congruence. }
  exists t', ins. split_and!; try done.
  - intros b. rewrite HPE. split.
    + intros [[H _]|[[_ ->]|[H _]]]; [|done|]; by apply Hfresh in H.
    + intros ->. tauto.
  - intros p. rewrite HPE. split.
    + intros [[H _]|[[-> H]|[H _]]]; [done| |by apply Hfresh in H]. subst. congruence.
    + intros H. left. done.
  - intros ->. rewrite Hr. by rewrite decide_True.
  - intros Hne. rewrite Hr. by rewrite decide_False.
  - intros a b Ha Hb Hbc. rewrite HPE. split; [|by right; right]. intros [[_ ?]|[[? _]|[? _]]]; done.
  - intros a b Ha Hb. split.
    + revert b Hb. enough (Hgen : forall b, Dom (edges t') a b -> (b <> ins -> Dom (edges t) a b) /\ (b = ins -> forall p, PE (edges t') p ins -> Dom (edges t) a p)).
      { intros b Hb HD. by apply Hgen in HD as [HD _]; auto. }
      refine (rtc_ind_r _ _ _ _).
      * split; [done|]. intros ->. done.
      * intros x y Hx Hxy [IH1 IH2]. split.
        -- intros Hy. apply HPE in Hxy as [[_ E]|[[-> ->]|[Hxy Hne]]]; [done| |].
           ++ destruct (live_parent (wf_shape _ W') ins) as [p Hp].
              { rewrite HN, lookup_insert. eauto. }
              { intros E. rewrite E in Hx. apply (Dom_root (wf_shape _ W')) in Hx. congruence. }
              pose proof (IH2 eq_refl p Hp) as HD. apply HPE in Hp as [[Hp _]|[[-> Hp]|[Hp _]]].
              ** eapply rtc_r; [exact HD|exact Hp].
              ** subst. congruence.
              ** by apply Hfresh in Hp.
           ++ eapply rtc_r; [apply IH1|exact Hxy]. intros ->. by apply Hfresh in Hxy.
        -- intros -> p Hp. rewrite (PE_parent_unique (wf_shape _ W') p x ins Hp Hxy).
           apply IH1. intros ->. by apply (PE_irrefl (wf_shape _ W')) in Hxy.
    + intros HD. clear Hb. induction HD as [|x y z Hxy _ IH]; [done|].
      assert (Hy : y <> ins) by (intros ->; by apply Hfresh in Hxy).
      etrans; [|by apply IH]. destruct (decide (y = c)) as [->|Hyc].
      * eapply rtc_l; [apply HPE; left; split; [exact Hxy|reflexivity]|]. apply rtc_once, HPE. by right; left.
      * apply rtc_once, HPE. by right; right.
Qed.
Print Assumptions C13_above_partial.
Example C13_above_ex : WF ex_proj /\ (exists w, nodes ex_proj !! 1 = Some w /\ ~ gappy w).
Proof. split; [apply ex_proj_WF|]. eexists. split; [by vm_compute|]. unfold gappy. vm_compute. tauto. Qed.

Theorem C13_below_partial t n nt label :
  WF t -> nodes t !! n = Some (NT nt) -> ~ gappy (NT nt) ->
  exists t' ins, insert_unary_below t n label = Ret (t', Ok ins) /\ WF t' /\
    nodes t !! ins = None /\ nodes t' = <[ins := NT (mk_nt label None (nt_span nt))]> (nodes t) /\
    (forall b, PE (edges t') n b <-> b = ins) /\
    (forall b, PE (edges t') ins b <-> PE (edges t) n b) /\
    tr_root t' = tr_root t /\
    (forall a b, a <> ins -> b <> ins -> a <> n -> PE (edges t') a b <-> PE (edges t) a b) /\
    (forall a b, a <> ins -> b <> ins -> Dom (edges t') a b <-> Dom (edges t) a b).
Proof.
  intros W Hn Hg. destruct (insert_unary_below_ok t n nt label W Hn)
    as (t' & ins & H1 & W' & Hd & Hins & HN & Hk & Hr & HPE & _).
  apply unary_not_gappy_WF in W'; [|done|done]. pose proof (wf_shape _ W) as Sh.
  assert (Hfresh : forall x, ~ PE (edges t) ins x /\ ~ PE (edges t) x ins).
  { intros x. split; intros H; apply (sh_live _ _ _ Sh) in H as [[? H] [? H']]; congruence. }
  assert (Hne : n <> ins) by (intros ->; congruence).
  exists t', ins. split_and!; try done.
  - intros b. rewrite HPE. split.
    + intros [[_ ->]|[[-> _]|[? _]]]; done.
    + intros ->. tauto.
  - intros b. rewrite HPE. split.
    + intros [[-> _]|[[_ H]|[_ H]]]; [done|done|]. by apply Hfresh in H.
    + intros H. tauto.
  - intros a b Ha Hb Han. rewrite HPE. split; [|by right; right]. intros [[? _]|[[? _]|[_ ?]]]; done.
  - intros a b Ha Hb. split.
    + revert b Hb. enough (Hgen : forall b, Dom (edges t') a b -> (b <> ins -> Dom (edges t) a b) /\ (b = ins -> Dom (edges t) a n)).
      { intros b Hb HD. by apply Hgen in HD as [HD _]; auto. }
      refine (rtc_ind_r _ _ _ _).
      * split; [done|]. intros ->. done.
      * intros x y Hx Hxy [IH1 IH2]. apply HPE in Hxy as [[-> ->]|[[-> Hxy]|[Hxn Hxy]]].
        -- split; [done|]. intros _. by apply IH1.
        -- split; [intros _; eapply rtc_r; [by apply IH2|done]|]. intros ->. by apply Hfresh in Hxy.
        -- split; [|intros ->; by apply Hfresh in Hxy]. intros Hy. eapply rtc_r; [apply IH1|exact Hxy].
           intros ->. by apply Hfresh in Hxy.
    + intros HD. clear Hb. induction HD as [|x y z Hxy _ IH]; [done|].
      assert (Hy : y <> ins) by (intros ->; by apply Hfresh in Hxy).
      etrans; [|by apply IH]. destruct (decide (x = n)) as [->|Hxn].
      * eapply rtc_l; [apply HPE; left; done|]. apply rtc_once, HPE. by right; left.
      * apply rtc_once, HPE. by right; right.
Qed.
Print Assumptions C13_below_partial.
Example C13_below_ex : WF ex_proj /\ (exists nt, nodes ex_proj !! 1 = Some (NT nt) /\ ~ gappy (NT nt)).
Proof. split; [apply ex_proj_WF|]. eexists. split; [by vm_compute|]. unfold gappy. vm_compute. tauto. Qed.
Theorem C13_below_terminal t n tm label :
  nodes t !! n = Some (T tm) -> insert_unary_below t n label = Ret (t, Err).
Proof. exact (insert_unary_below_err t n tm label). Qed.
Print Assumptions C13_below_terminal.

(** Missing: on a node with a gap the structure is right, but the count of discontinuous nodes is
    not updated.  Consequence: after removing the inserted node and its child, a tree that still
    has a discontinuous node claims to be projective. *)
Theorem C13_gap_structure t c w label :
  WF t -> nodes t !! c = Some w -> gappy w ->
  exists t' ins, insert_unary_above t c label = Ret (t', ins) /\ ~ WF t' /\
    WF (set_ndisc t' (S (tr_ndisc t'))) /\ tr_ndisc t' = tr_ndisc t.
Proof.
  intros W Hc Hg. destruct (insert_unary_above_ok t c w label W Hc) as (t' & ins & H1 & W' & Hd & _).
  exists t', ins. split_and!; [done| | |done].
  - intros Wt. by eapply unary_not_gappy in W'.
  - unfold b2n in W'. rewrite decide_True in W' by done. rewrite Hd. by rewrite Nat.add_1_r in W'.
Qed.
Print Assumptions C13_gap_structure.
Example C13_gap_ex : WF ex_disc /\ (exists w, nodes ex_disc !! 1 = Some w /\ gappy w).
Proof. split; [apply ex_disc_WF|]. eexists. split; [by vm_compute|]. unfold gappy. by vm_compute. Qed.
Theorem C13_projective_accurate_refuted :
  exists t ops t', WF t /\ runs ops t = Ret t' /\ is_projective t' = true /\
    exists n w, nodes t' !! n = Some w /\ gappy w.
Proof.
  exists ex_disc, [OAbove 1 (lit "X"); ORemove 1].
  assert (H : match runs [OAbove 1 (lit "X"); ORemove 1] ex_disc with
    | Ret t' => is_projective t' && match nodes t' !! 7 with Some w => bool_decide (gappy w) | None => false end
    | _ => false end = true) by (by vm_compute).
  destruct (runs [OAbove 1 (lit "X"); ORemove 1] ex_disc) as [t'| |]; [|done|done]. exists t'.
  apply andb_true_iff in H as [H1 H2]. split_and!; [apply ex_disc_WF|done|done|].
  destruct (nodes t' !! 7) as [w|] eqn:E; [|done]. exists 7, w. split; [done|]. by apply bool_decide_eq_true in H2.
Qed.
Print Assumptions C13_projective_accurate_refuted.

(** ** C14: removing a nonterminal *)
Theorem C14_remove_inner t n nt p :
  WF t -> nodes t !! n = Some (NT nt) -> PE (edges t) p n ->
  exists t', remove_node t n = Ret (t', Ok (NT nt)) /\ WF t' /\
    nodes t' = delete n (nodes t) /\ tr_root t' = tr_root t /\
    (forall a b, PE (edges t') a b <->
        (a = p /\ PE (edges t) n b) \/ (a <> n /\ b <> n /\ PE (edges t) a b)).
Proof.
  intros W Hn Hp. destruct (remove_nonterminal_ok t n nt p W Hn Hp) as (t' & H1 & W' & HN & Hk & Hr & HPE & _).
  exists t'. split_and!; try done. unfold remove_node. by rewrite (node_at_Some _ _ _ Hn).
Qed.
Print Assumptions C14_remove_inner.
Theorem C14_remove_root t nt :
  WF t -> nodes t !! tr_root t = Some (NT nt) ->
  ((exists c, forall x, PE (edges t) (tr_root t) x <-> x = c) /\
   exists t', remove_node t (tr_root t) = Ret (t', Ok (NT nt)) /\ WF t' /\
     nodes t' = delete (tr_root t) (nodes t) /\ PE (edges t) (tr_root t) (tr_root t') /\
     (forall a b, PE (edges t') a b <-> PE (edges t) a b /\ a <> tr_root t)) \/
  ((exists c1 c2, c1 <> c2 /\ PE (edges t) (tr_root t) c1 /\ PE (edges t) (tr_root t) c2) /\
   remove_node t (tr_root t) = Ret (t, Err)).
Proof.
  intros W Hn. pose proof (wf_shape _ W) as Sh. destruct (sh_inner _ _ _ Sh _ _ Hn) as [c Hc].
  assert (Hrm : remove_node t (tr_root t) = remove_nonterminal t (tr_root t)).
  { unfold remove_node. by rewrite (node_at_Some _ _ _ Hn). }
  rewrite Hrm. destruct (sibling_dec t _ _ W Hc) as [Hu|(c' & Hc' & Hne)].
  - left. split; [exists c; naive_solver|].
    destruct (remove_nonterminal_root_ok t nt c W Hn Hc Hu) as (t' & H1 & W' & HN & Hk & Hr & HE).
    exists t'. split_and!; try done; [by rewrite Hr|]. intros a b. unfold PE. split.
    + intros (r & Hr0 & P & <- & <-). apply HE in Hr0 as (Hr0 & Hs & Ht). split; [by exists r|done].
    + intros [(r & Hr0 & P & <- & <-) Ha]. exists r. split_and!; try done. apply HE. split_and!; try done.
      intros E. apply (sh_root_top _ _ _ Sh (e_src r)). rewrite <- E. by exists r.
  - right. split; [exists c, c'; naive_solver|]. by apply (remove_nonterminal_root_err t nt c c').
Qed.
Print Assumptions C14_remove_root.
Example C14_ex : WF ex_disc /\ (exists nt, nodes ex_disc !! 1 = Some (NT nt)) /\ PE (edges ex_disc) 3 1 /\
  (exists nt, nodes ex_disc !! tr_root ex_disc = Some (NT nt)).
Proof.
  split; [apply ex_disc_WF|]. split; [eexists; by vm_compute|]. split; [apply PE_of_children; by vm_compute|].
  eexists; by vm_compute.
Qed.
(** Dominance and spans of the remaining nodes are those of the original tree. *)
Theorem C14_dominance t n nt p t' :
  WF t -> nodes t !! n = Some (NT nt) -> PE (edges t) p n -> remove_node t n = Ret (t', Ok (NT nt)) ->
  forall a b, a <> n -> b <> n -> Dom (edges t') a b <-> Dom (edges t) a b.
Proof.
  intros W Hn Hp Hrm. destruct (C14_remove_inner t n nt p W Hn Hp) as (t1 & H1 & W' & HN & Hr & HPE).
  rewrite H1 in Hrm. injection Hrm as <-. pose proof (wf_shape _ W) as Sh.
  assert (Hpn : p <> n) by (intros ->; by apply (PE_irrefl Sh) in Hp).
  intros a b Ha Hb. split.
  - intros HD. clear Ha Hb. induction HD as [|x y z Hxy _ IH]; [done|]. etrans; [|exact IH].
    apply HPE in Hxy as [[-> Hxy]|(_ & _ & Hxy)]; [|by apply rtc_once].
    eapply rtc_l; [exact Hp|]. by apply rtc_once.
  - intros HD. revert b Hb HD. enough (Hgen : forall b, Dom (edges t) a b -> (b <> n -> Dom (edges t1) a b) /\ (b = n -> Dom (edges t1) a p)).
    { intros b Hb HD. by apply Hgen in HD as [HD _]; auto. }
    refine (rtc_ind_r _ _ _ _).
    + split; [done|]. intros ->. done.
    + intros x y Hx Hxy [IH1 IH2]. split.
      * intros Hy. destruct (decide (x = n)) as [->|Hxn].
        -- eapply rtc_r; [by apply IH2|]. apply HPE. by left.
        -- eapply rtc_r; [by apply IH1|]. apply HPE. by right.
      * intros ->. rewrite (PE_parent_unique Sh p x n Hp Hxy) in Hpn |- *. by apply IH1.
Qed.
Print Assumptions C14_dominance.

(** ** C15: removing a terminal *)
Theorem C15_fails_iff t n tm :
  WF t -> nodes t !! n = Some (T tm) ->
  ((forall p c, PE (edges t) p n -> PE (edges t) p c -> c = n) /\ remove_node t n = Ret (t, Err)) \/
  ((exists p c, PE (edges t) p n /\ PE (edges t) p c /\ c <> n) /\
   exists t', remove_node t n = Ret (t', Ok (T tm)) /\
     nodes t' = delete n (nodes t) /\ (forall a b, PE (edges t') a b <-> PE (edges t) a b /\ b <> n) /\
     tr_root t' = tr_root t /\ tr_nterm t' = tr_nterm t - 1).
Proof.
  intros W Hn. pose proof (wf_shape _ W) as Sh.
  assert (Hrm : remove_node t n = remove_terminal t n) by (unfold remove_node; by rewrite (node_at_Some _ _ _ Hn)).
  rewrite Hrm. destruct (parent t n) as [[p e]|] eqn:E.
  - assert (Hp : PE (edges t) p n) by (apply parent_PE; eauto).
    destruct (sibling_dec t _ _ W Hp) as [Hu|(c & Hc & Hne)].
    + left. assert (Hu' : forall q c, PE (edges t) q n -> PE (edges t) q c -> c = n).
      { intros q c Hq Hc. rewrite (PE_parent_unique Sh q p n Hq Hp) in Hc. by apply Hu. }
      split; [done|]. by apply (remove_terminal_err t n tm).
    + right. split; [eauto|]. destruct (remove_terminal_ok t n tm p c W Hn Hp Hc Hne)
        as (t' & H1 & _ & _ & HN & _ & HPE & Hr & Hk & _). exists t'. done.
  - left. pose proof (proj1 (parent_None t n Sh) E) as E'.
    assert (Hu' : forall q c, PE (edges t) q n -> PE (edges t) q c -> c = n) by (intros q c Hq; by apply E' in Hq).
    split; [done|]. by apply (remove_terminal_err t n tm).
Qed.
Print Assumptions C15_fails_iff.
Example C15_ex : WF ex_proj /\ (exists tm, nodes ex_proj !! 2 = Some (T tm)).
Proof. split; [apply ex_proj_WF|]. eexists. by vm_compute. Qed.
(** Renumbering and recalculated spans are missing: no removal of a terminal ever gives a
    well-formed tree, because all other nodes keep the spans they had. *)
Theorem C15_never_wellformed t n tm t' :
  WF t -> nodes t !! n = Some (T tm) -> remove_node t n = Ret (t', Ok (T tm)) -> ~ WF t'.
Proof.
  intros W Hn Hrm. apply (remove_terminal_not_wf t n tm t' W Hn).
  revert Hrm. unfold remove_node. by rewrite (node_at_Some _ _ _ Hn).
Qed.
Print Assumptions C15_never_wellformed.
(** Concretely: removing "dog" from "the dog barks loudly" leaves the words at positions 0, 2, 3. *)
Theorem C15_positions_refuted :
  exists t n tm t', WF t /\ nodes t !! n = Some (T tm) /\ remove_node t n = Ret (t', Ok (T tm)) /\
    tr_nterm t' = 3 /\ exists m, term_pos (nodes t') m 3.
Proof.
  assert (H : match remove_node ex_proj 2 with
    | Ret (t', Ok _) => Nat.eqb (tr_nterm t') 3 && match nodes t' !! 5 with Some (T tm) => bool_decide (t_span tm = span_of 3) | _ => false end
    | _ => false end = true) by (by vm_compute).
  assert (Hn : exists tm, nodes ex_proj !! 2 = Some (T tm)) by (eexists; by vm_compute). destruct Hn as [tm Hn].
  destruct (C15_fails_iff ex_proj 2 tm ex_proj_WF Hn) as [[_ E]|[_ (t' & E & _)]].
  { rewrite E in H. discriminate H. }
  rewrite E in H.
  apply andb_true_iff in H as [H1 H2]. apply Nat.eqb_eq in H1. exists ex_proj, 2, tm, t'.
  split_and!; [apply ex_proj_WF|exact Hn|exact E|exact H1|]. exists 5. destruct (nodes t' !! 5) as [[|tm']|] eqn:E5; [discriminate H2| |discriminate H2].
  exists tm'. split; [done|]. by apply bool_decide_eq_true in H2.
Qed.
Print Assumptions C15_positions_refuted.

(** ** C16: reattaching *)
Theorem C16_fails t np r :
  WF t -> r ∈ edges t -> is_primary (e_w r) = true -> is_Some (nodes t !! np) ->
  e_tgt r = np \/ (exists tm, nodes t !! np = Some (T tm)) \/
    (e_src r <> np /\ forall s, PE (edges t) (e_src r) s -> s = e_tgt r) ->
  reattach_node t np (e_id r) = Ret (t, Err).
Proof.
  intros W Hr P Hnp H. destruct (decide (e_tgt r = np)) as [E|E]; [by apply reattach_node_self|].
  rewrite reattach_node_primary by done. apply reattach_primary_err; try done. destruct H as [H|[H|H]]; [done|by left|by right].
Qed.
Print Assumptions C16_fails.
(** The success case, for a new parent on one path with the old one. *)
Theorem C16_reattach_partial t np ntp r :
  WF t -> r ∈ edges t -> is_primary (e_w r) = true -> nodes t !! np = Some (NT ntp) ->
  ~ Dom (edges t) (e_tgt r) np -> Dom (edges t) np (e_src r) \/ Dom (edges t) (e_src r) np ->
  e_src r = np \/ (exists s, PE (edges t) (e_src r) s /\ s <> e_tgt r) ->
  exists t' e', reattach_node t np (e_id r) = Ret (t', Ok (e', e_w r)) /\ WF t' /\
    eq_strip_nt (nodes t') (nodes t) /\
    (forall x, x ∈ edges t' <-> x = mk_e e' np (e_tgt r) (Primary None) \/ (x ∈ edges t /\ x <> r)) /\
    tr_root t' = tr_root t /\ tr_nterm t' = tr_nterm t.
Proof.
  intros W Hr P Hnp HnD Hcomp Hsib.
  assert (Hne : e_tgt r <> np) by (intros E; apply HnD; by rewrite E).
  destruct (reattach_primary_ok t np ntp r W Hr P Hnp HnD Hcomp Hsib) as (t' & e' & H1 & W' & Hst & _ & HE & Hroot & Hk).
  exists t', e'. split_and!; try done. rewrite reattach_node_primary; eauto.
Qed.
Print Assumptions C16_reattach_partial.
Example C16_ex : WF ex_proj /\ mk_e 1 1 2 (Primary None) ∈ edges ex_proj /\
  (exists nt, nodes ex_proj !! 3 = Some (NT nt)) /\ ~ Dom (edges ex_proj) 2 3 /\ Dom (edges ex_proj) 3 1 /\
  (PE (edges ex_proj) 1 0 /\ 0 <> 2).
Proof.
  split_and!; [apply ex_proj_WF| | | | | |done].
  - apply elem_of_list_In. vm_compute. tauto.
  - eexists; by vm_compute.
  - apply not_Dom_of; [apply ex_proj_WF|by vm_compute..].
  - apply domb_spec; [apply ex_proj_WF|by vm_compute..].
  - apply PE_of_children. by vm_compute.
Qed.
(** In every other case where the call succeeds the result is not well-formed: a parent beside the
    old one leaves stale spans, a parent below the moved node detaches a cycle. *)
Theorem C16_guard_exact t np r x t' :
  WF t -> r ∈ edges t -> is_primary (e_w r) = true -> reattach_node t np (e_id r) = Ret (t', Ok x) ->
  Dom (edges t) (e_tgt r) np \/ (~ Dom (edges t) np (e_src r) /\ ~ Dom (edges t) (e_src r) np) -> ~ WF t'.
Proof.
  intros W Hr P HR H W'.
  assert (Hnp : is_Some (nodes t !! np)).
  { unfold reattach_node, assert in HR. destruct (contains_node (tr_graph t) np) eqn:E; [|done]. by apply contains_node_true. }
  assert (Hne : e_tgt r <> np).
  { intros E. by rewrite (reattach_node_self t np r) in HR. }
  rewrite reattach_node_primary in HR by done.
  destruct (reattach_primary_bad t np r x t' W Hr P Hnp HR W') as [H1 H2]. tauto.
Qed.
Print Assumptions C16_guard_exact.
Theorem C16_accurate_refuted :
  exists t np r x t', WF t /\ r ∈ edges t /\ is_primary (e_w r) = true /\
    reattach_node t np (e_id r) = Ret (t', Ok x) /\ ~ WF t'.
Proof.
  destruct (reattach_node ex_proj 6 1) as [[t' [x|]]| |] eqn:E; try (exfalso; by vm_compute in E).
  exists ex_proj, 6, (mk_e 1 1 2 (Primary None)), x, t'.
  assert (Hin : mk_e 1 1 2 (Primary None) ∈ edges ex_proj) by (apply elem_of_list_In; vm_compute; tauto).
  split_and!; [apply ex_proj_WF|done|done|done|].
  eapply (C16_guard_exact ex_proj 6 (mk_e 1 1 2 (Primary None))); [apply ex_proj_WF|done|done|exact E|].
  right. clear E. split; (apply not_Dom_of; [apply ex_proj_WF|vm_compute; reflexivity|vm_compute; reflexivity]).
Qed.
Print Assumptions C16_accurate_refuted.

(** ** C17: secondary edges *)
Definition sec_op (t : tree) (o : op) : Prop :=
  match o with
  | OAddSec _ _ _ | ORemSec _ => True
  | OReattach _ e => forall r, r ∈ edges t -> e_id r = e -> is_primary (e_w r) = false
  | _ => False
  end.
Fixpoint all_sec (ops : list op) (t : tree) : Prop :=
  match ops with
  | [] => True
  | o :: ops => sec_op t o /\ forall t', run o t = Ret t' -> all_sec ops t'
  end.
Lemma psame_trans t1 t2 t3 : psame t1 t2 -> psame t2 t3 -> psame t1 t3.
Proof. intros [] []. constructor; congruence. Qed.
Lemma sec_step t o t' : WF t -> sec_op t o -> run o t = Ret t' -> WF t' /\ psame t t'.
Proof.
  intros W Hs Hrun. pose proof W as [G Sh Tm Nt Nd].
  assert (W' : WF t').
  { apply (run_exact t o t' W Hrun). destruct o; try done. simpl in *. intros r Hr He P. rewrite (Hs r Hr He) in P. done. }
  split; [done|]. destruct o as [f p|p f ps i|n i|c l|n l|n|np e|p c l|e|n lb fe|n fo ps le fe|e l]; try done; simpl in *.
  - destruct (find_edge (tr_graph t) e) as [r|] eqn:E; [|unfold reattach_node in Hrun; rewrite E in Hrun; by destruct (assert _)].
    apply find_edge_Some in E as [Hr <-]; [|done]. pose proof (Hs r Hr eq_refl) as P.
    assert (Hnp : is_Some (nodes t !! np)).
    { unfold reattach_node, assert in Hrun. destruct (contains_node (tr_graph t) np) eqn:E; [|done]. by apply contains_node_true. }
    destruct (decide (e_tgt r = np)) as [E|E].
    + rewrite (reattach_node_self t np r) in Hrun by done. simpl in Hrun. by simplify_eq.
    + destruct (reattach_secondary_ok t np r W Hr P Hnp E) as (t1 & e1 & H1 & _ & Hps & _). rewrite H1 in Hrun. simpl in Hrun. by simplify_eq.
  - assert (Hpc : is_Some (nodes t !! p) /\ is_Some (nodes t !! c)).
    { unfold add_secondary_edge, add_edge in Hrun. destruct (contains_node (tr_graph t) p) eqn:E1; [|done].
      destruct (contains_node (tr_graph t) c) eqn:E2; [|done]. by rewrite !contains_node_true in *. }
    destruct (add_secondary_edge_ok t p c l W) as (t1 & e & H1 & _ & Hps & _); [by apply Hpc..|].
    rewrite H1 in Hrun. simpl in Hrun. by simplify_eq.
  - destruct (find_edge (tr_graph t) e) as [r|] eqn:E.
    + apply find_edge_Some in E as [Hr <-]; [|done]. destruct (is_primary (e_w r)) eqn:P.
      * rewrite (remove_secondary_edge_primary t r W Hr P) in Hrun. simpl in Hrun. by simplify_eq.
      * destruct (remove_secondary_edge_ok t r W Hr P) as (t1 & H1 & _ & Hps & _). rewrite H1 in Hrun. simpl in Hrun. by simplify_eq.
    + unfold remove_secondary_edge, edge_at in Hrun. by rewrite E in Hrun.
Qed.
Lemma sec_steps ops t t' : WF t -> all_sec ops t -> runs ops t = Ret t' -> WF t' /\ psame t t'.
Proof.
  unfold runs. revert t. induction ops as [|o ops IH]; simpl; intros t W Hs H; [by simplify_eq|].
  destruct Hs as [Hs Hn]. destruct (run o t) as [t1| |] eqn:E; try done. simpl in H.
  destruct (sec_step t o t1 W Hs E) as [W1 P1]. destruct (IH t1 W1 (Hn _ eq_refl) H) as [W2 P2].
  split; [done|]. by eapply psame_trans.
Qed.
Theorem C17_inert t ops t' :
  WF t -> all_sec ops t -> runs ops t = Ret t' ->
  WF t' /\ nodes t' = nodes t /\ tr_root t' = tr_root t /\ tr_nterm t' = tr_nterm t /\
  (forall n, parent t' n = parent t n /\ children t' n = children t n /\ siblings t' n = siblings t n) /\
  is_projective t' = is_projective t /\
  (forall u, WF u -> tree_eqb t' u = tree_eqb t u /\ tree_eqb u t' = tree_eqb u t).
Proof.
  intros W Hs H. destruct (sec_steps ops t t' W Hs H) as [W' P]. pose proof P as [P1 P2 P3 P4 P5].
  split_and!; try done.
  - intros n. split_and!; [by apply psame_parent|by apply psame_children|by apply psame_siblings].
  - unfold is_projective. by rewrite P5.
  - intros u Wu. split; apply psame_tree_eqb; try apply psame_refl; try done; by apply wf_graph.
Qed.
Print Assumptions C17_inert.
Example C17_ex :
  let ops := [OAddSec 1 4 (Some (lit "a")); OAddSec 3 0 None; OReattach 5 6; ORemSec 7] in
  WF ex_proj /\ is_Some (match runs ops ex_proj with Ret t => Some t | _ => None end).
Proof. split; [apply ex_proj_WF|]. eexists. by vm_compute. Qed.
Theorem C17_remove t e :
  WF t ->
  (forall r, r ∈ edges t -> e_id r = e -> is_primary (e_w r) = true -> remove_secondary_edge t e = Ret (t, None)) /\
  (forall r, r ∈ edges t -> e_id r = e -> is_primary (e_w r) = false ->
     exists t', remove_secondary_edge t e = Ret (t', Some (e_w r)) /\ forall x, x ∈ edges t' <-> x ∈ edges t /\ x <> r) /\
  ((forall r, r ∈ edges t -> e_id r <> e) -> remove_secondary_edge t e = Panic).
Proof.
  intros W. split_and!.
  - intros r Hr <- P. by apply remove_secondary_edge_primary.
  - intros r Hr <- P. destruct (remove_secondary_edge_ok t r W Hr P) as (t' & H & _ & _ & HE). eauto.
  - intros H. by apply remove_secondary_edge_absent.
Qed.
Print Assumptions C17_remove.
(** The documentation promises [None] for an absent edge; the call panics. *)
Theorem C17_absent_none_refuted :
  exists t e, WF t /\ (forall r, r ∈ edges t -> e_id r <> e) /\ remove_secondary_edge t e <> Ret (t, None).
Proof.
  exists ex_proj, 17. split_and!; [apply ex_proj_WF| |].
  - intros r Hr. assert (H : Forall (fun r => e_id r <> 17) (edges ex_proj)); [|by eapply Forall_forall in H].
    vm_compute. repeat constructor; lia.
  - by vm_compute.
Qed.
Print Assumptions C17_absent_none_refuted.

(** ** C18: navigation *)
Theorem C18_navigation t :
  WF t ->
  (forall c p e, parent t c = Some (p, e) <-> (c, e) ∈ children t p) /\
  (forall c, is_Some (nodes t !! c) -> parent t c = None <-> c = tr_root t) /\
  (forall n m, (exists e, (m, e) ∈ siblings t n) <->
     m <> n /\ exists p, PE (edges t) p n /\ PE (edges t) p m) /\
  (forall n, NoDup (map fst (children t n))).
Proof.
  intros [G Sh Tm Nt Nd]. split_and!.
  - intros c p e. rewrite parent_Some, elem_of_children by done. naive_solver.
  - intros c Hc. by apply parent_None_root.
  - intros n m. setoid_rewrite elem_of_siblings; [|done]. setoid_rewrite children_PE. naive_solver.
  - intros n. by apply children_nodup.
Qed.
Print Assumptions C18_navigation.
(** [are_siblings] answers [true] only for a node and itself. *)
Theorem C18_are_siblings_exact t a b :
  WF t -> are_siblings t a b = true <-> a = b /\ exists p, PE (edges t) p a.
Proof.
  intros [G Sh Tm Nt Nd]. unfold are_siblings. split.
  - destruct (parent t a) as [[p e]|] eqn:Ea; [|done]. destruct (parent t b) as [[q f]|] eqn:Eb; [|done].
    intros H%bool_decide_eq_true. injection H as <- <-. split; [|exists p; apply parent_PE; eauto].
    apply parent_Some in Ea as (r1 & H1 & _ & _ & <- & E1); [|done].
    apply parent_Some in Eb as (r2 & H2 & _ & _ & <- & E2); [|done].
    f_equal. apply (eid_inj _ _ _ G H1 H2). congruence.
  - intros [<- [p Hp]]. apply parent_PE in Hp as [e ->]; [|done]. by apply bool_decide_eq_true.
Qed.
Print Assumptions C18_are_siblings_exact.
Theorem C18_are_siblings_refuted :
  exists t a b p, WF t /\ PE (edges t) p a /\ PE (edges t) p b /\ are_siblings t a b = false.
Proof.
  exists ex_proj, 0, 2, 1. split_and!; [apply ex_proj_WF|apply PE_of_children; by vm_compute..|by vm_compute].
Qed.
Print Assumptions C18_are_siblings_refuted.

(** ** C19: descendent_terminals *)
Theorem C19_descendent_terminals t n w :
  WF t -> nodes t !! n = Some w ->
  exists l, descendent_terminals t n = Ret l /\ NoDup l /\
    (forall m, m ∈ l <-> Dom (edges t) n m /\ exists tm, nodes t !! m = Some (T tm)) /\
    (forall i, (exists m, m ∈ l /\ term_pos (nodes t) m i) <-> i ∈ span_iter (node_span w)).
Proof.
  intros W Hn. destruct (descendent_terminals_spec t n W) as (l & H1 & H2 & H3); [eauto|].
  exists l. split_and!; try done. intros i. rewrite elem_of_span_iter.
  destruct (node_span_ok _ _ _ _ _ _ (wf_shape _ W) (wf_terms _ W) (wf_nts _ W) Hn) as [_ Hc]. rewrite Hc.
  unfold yields. split.
  - intros (m & Hm & Ht). apply H3 in Hm as [Hm _]. eauto.
  - intros (m & Hm & Ht). exists m. split; [|done]. apply H3. split; [done|]. destruct Ht as (tm & Ht & _). eauto.
Qed.
Print Assumptions C19_descendent_terminals.
Example C19_ex : WF ex_disc /\ (exists w, nodes ex_disc !! 1 = Some w) /\ descendent_terminals ex_disc 1 = Ret [0; 2].
Proof. split; [apply ex_disc_WF|]. split; [eexists; by vm_compute|by vm_compute]. Qed.
