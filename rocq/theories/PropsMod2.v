(** Properties C22 and C23: unary chains. *)
From Coq Require Import Lia.
From Verif Require Import ModModel TreeSpec BaseProofs SpanProofs ShapeProofs GraphProofs DfsProofs ResetProofs
  ShapeOps TreeOps SortProofs EditProofs UnaryProofs Api PropsTree CollapseProofs RestoreProofs.

(** ** C22: [collapse_unary_chains]

    [anchor t n]: [n] is a terminal or has several children.  [uchain (edges t) n l]: [l] are the
    nodes of the unary chain above [n], bottom-up; [labels_of t l ls]: their labels. *)

(** What is put under "unary_chain": the labels, after a value that was there before. *)
Definition recorded (delim : str) (w : node) (ls : list str) : node :=
  match ls with
  | [] => w
  | _ => node_set_feats w (Some (<[unary_chain := Some (Base.join delim
            (match default ∅ (node_feats w) !! unary_chain with Some (Some c) => c :: ls | _ => ls end))]>
            (default ∅ (node_feats w))))
  end.
Lemma push_all_recorded delim ls : forall w, push_all delim w ls = recorded delim w ls.
Proof.
  assert (Gn : forall ls w l, push_all delim w (l :: ls) = recorded delim w (l :: ls)); [|by intros w; destruct ls].
  clear ls. induction ls as [|x ls IH]; intros w l.
  - unfold push_all, recorded. simpl. unfold push_chain, feats_insert. cbn [fst].
    destruct (_ !! unary_chain) as [[c|]|]; reflexivity.
  - change (push_all delim w (l :: x :: ls)) with (push_all delim (push_chain w delim l) (x :: ls)).
    rewrite IH. unfold recorded, push_chain, feats_insert. cbn [fst].
    rewrite node_feats_set, node_set_set. cbn [default id]. rewrite lookup_insert, insert_insert.
    destruct (_ !! unary_chain) as [[c|]|]; try done.
    do 4 f_equal. simpl. by rewrite <- !app_assoc.
Qed.

Theorem C22_collapse t delim :
  WF t ->
  exists t', collapse_unary_chains t delim = Ret (t', Ok ()) /\ WF t' /\ tr_nterm t' = tr_nterm t /\
    (forall n nt, nodes t' !! n = Some (NT nt) -> exists c d, c <> d /\ PE (edges t') n c /\ PE (edges t') n d) /\
    (forall n, is_Some (nodes t' !! n) <-> anchor t n) /\
    (forall n w l ls, nodes t !! n = Some w -> anchor t n -> uchain (edges t) n l -> labels_of t l ls ->
       nodes t' !! n = Some (recorded delim w ls)) /\
    (forall a b, anchor t a -> anchor t b -> Dom (edges t') a b <-> Dom (edges t) a b).
Proof.
  intros W. destruct (collapse_ok delim t W) as (t' & H1 & W' & C & HA & HN). exists t'. split_and!; try done.
  - apply C.
  - intros n nt Hn. apply (anchor_branching t' n nt); [done|apply HA; eauto|done].
  - intros n. rewrite <- (desc_anchor delim t n W). split; intros [w Hw]; exists w; by apply HN.
  - intros n w l ls Hw Ha Hl Hls. apply HN. exists w, l, ls. split_and!; try done. by rewrite push_all_recorded.
  - apply C.
Qed.
Print Assumptions C22_collapse.
(** Chains and their labels exist and are unique; a node that is no anchor has exactly one child. *)
Theorem C22_chains t n :
  WF t -> is_Some (nodes t !! n) ->
  (exists l ls, uchain (edges t) n l /\ labels_of t l ls /\
     forall l' ls', uchain (edges t) n l' -> labels_of t l' ls' -> l' = l /\ ls' = ls) /\
  (anchor t n \/ exists c, PE (edges t) n c /\ forall c', PE (edges t) n c' -> c' = c) /\
  (anchor t n <-> (exists tm, nodes t !! n = Some (T tm)) \/
                  (exists c d, c <> d /\ PE (edges t) n c /\ PE (edges t) n d)).
Proof.
  intros W Hn. destruct (uchain_exists t n W Hn) as [l Hl]. destruct (labels_exist t n l W Hl) as [ls Hls].
  split_and!.
  - exists l, ls. split_and!; try done. intros l' ls' Hl' Hls'.
    assert (l' = l) as -> by (eapply (uchain_unique (wf_shape _ W)); done). split; [done|]. by eapply labels_unique.
  - destruct (anchor_dec t n W Hn) as [[c Hc]|Ha]; [right|by left]. by exists c.
  - split.
    + intros Ha. destruct Hn as [[nt|tm] Hn]; [right; by eapply anchor_branching|left; by exists tm].
    + intros [[tm Htm]|(c & d & Hne & Hc & Hd)]; [by eapply terminal_anchor|]. split; [done|].
      intros x [_ Hx]. apply Hne. by rewrite (Hx c), (Hx d).
Qed.
Print Assumptions C22_chains.

(** (X (Y (NP the dog)) (VP (V barks))): node indices the 0, NP 1, dog 2, Y 3, X 4, barks 5, V 6, VP 7. *)
Definition ex_chain : tree :=
  build (lit "the") (lit "D")
    [OAbove 0 (lit "NP"); OPush (lit "dog") (lit "N"); OAbove 1 (lit "Y"); OAbove 3 (lit "X");
     OPush (lit "barks") (lit "V"); OAbove 5 (lit "V"); OAbove 6 (lit "VP")].
Lemma ex_chain_WF : WF ex_chain.
Proof. apply build_WF. Qed.
Global Opaque ex_chain.
Example C22_ex :
  WF ex_chain /\
  map (fun n => map fst (children ex_chain n)) (seq 0 8) = [[]; [2; 0]; []; [1]; [7; 3]; []; [5]; [6]] /\
  exists t', collapse_unary_chains ex_chain (lit "_") = Ret (t', Ok ()) /\
    map (fun n => map fst (children t' n)) (seq 0 8) = [[]; [2; 0]; []; []; [5; 1]; []; []; []] /\
    (fun w => default ∅ (node_feats w) !! unary_chain) <$> (nodes t' !! 5) = Some (Some (Some (lit "V_VP"))).
Proof. split_and!; [apply ex_chain_WF|by vm_compute|]. eexists. vm_compute. split_and!; reflexivity. Qed.

(** ** C23: [restore_unary_chains] after [collapse_unary_chains] *)

(** Same kind, word, tag, lemma, label and span; features up to initialisation. *)
Definition same_node (w w' : node) : Prop :=
  match w, w' with
  | T a, T b => t_form a = t_form b /\ t_pos a = t_pos b /\ t_lemma a = t_lemma b /\
                t_span a = t_span b /\ default ∅ (t_feats a) = default ∅ (t_feats b)
  | NT a, NT b => nt_label a = nt_label b /\ nt_span a = nt_span b
  | _, _ => False
  end.
(** [same_tree t t']: a bijection between the nodes that preserves the parent relation and the
    contents. *)
Definition same_tree (t t' : tree) : Prop :=
  exists R : nat -> nat -> Prop,
    (forall x y, R x y -> exists w w', nodes t !! x = Some w /\ nodes t' !! y = Some w' /\ same_node w w') /\
    (forall x, is_Some (nodes t !! x) -> exists y, R x y) /\
    (forall y, is_Some (nodes t' !! y) -> exists x, R x y) /\
    (forall x y y', R x y -> R x y' -> y = y') /\ (forall x x' y, R x y -> R x' y -> x = x') /\
    (forall a b a' b', R a a' -> R b b' -> PE (edges t) a b <-> PE (edges t') a' b').

(** The delimiter starts with a character [d] that occurs in no label.  Missing for the full
    statement: delimiters that merely do not occur in the labels, for which it is false
    ([C23_overlap_refuted]). *)
Theorem C23_restore_collapse_partial t d ds :
  WF t ->
  (forall n w, nodes t !! n = Some w -> default ∅ (node_feats w) !! unary_chain = None) ->
  (forall n nt, nodes t !! n = Some (NT nt) -> d ∉ nt_label nt) ->
  exists t1 t2, collapse_unary_chains t (d :: ds) = Ret (t1, Ok ()) /\
    restore_unary_chains t1 (d :: ds) = Ret (t2, Ok ()) /\
    same_tree t t2 /\ (is_projective t = true -> WF t2).
Proof.
  intros W Hnc Hlab.
  destruct (collapse_restore d ds t W Hnc Hlab) as (t1 & t2 & R & H1 & W1 & H2 & _ & W2 & _ & I & HA & HC).
  exists t1, t2. split_and!; try done. exists R. destruct I as [I1 I2 I3 I4 I5 I6]. split_and!; try done.
  intros x y Hxy. destruct (I1 x y Hxy) as [[w Hw] _]. exists w.
  destruct (anchor_dec t x W) as [[c Hc]|Ha]; [eauto| |].
  - destruct (PE_src_nt (wf_shape _ W) x c (proj1 Hc)) as [nt Hnt]. rewrite Hw in Hnt. injection Hnt as ->.
    pose proof (HC x y nt c Hxy Hw Hc) as Hy. eexists. split_and!; [done|exact Hy|]. done.
  - destruct (HA x w Hw Ha) as [Hxx Hx2]. rewrite (I4 x y x Hxy Hxx). eexists. split_and!; [done|exact Hx2|].
    by destruct w.
Qed.
Print Assumptions C23_restore_collapse_partial.
Example C23_ex :
  WF ex_chain /\
  (forall n w, nodes ex_chain !! n = Some w -> default ∅ (node_feats w) !! unary_chain = None) /\
  (forall n nt, nodes ex_chain !! n = Some (NT nt) -> 95%N ∉ nt_label nt).
Proof.
  assert (Hb : forall n w, nodes ex_chain !! n = Some w -> n < 8).
  { intros n w Hn. pose proof (go_nbound _ (wf_graph _ ex_chain_WF) n ltac:(eauto)) as H.
    assert (g_ncap (tr_graph ex_chain) = 8) as Hc by (by vm_compute). rewrite Hc in H. exact H. }
  split_and!; [apply ex_chain_WF| |].
  - intros n w Hn. pose proof (Hb n w Hn) as Hlt.
    assert (HF : forallb (fun n => match nodes ex_chain !! n with
        | Some w => match default ∅ (node_feats w) !! unary_chain with None => true | _ => false end
        | None => true end) (seq 0 8) = true) by (vm_compute; reflexivity).
    rewrite forallb_forall in HF. specialize (HF n). rewrite Hn in HF.
    destruct (_ !! unary_chain); [|done]. exfalso. enough (false = true) by done. apply HF, in_seq. lia.
  - intros n nt Hn. pose proof (Hb n _ Hn) as Hlt.
    assert (HF : forallb (fun n => match nodes ex_chain !! n with
        | Some (NT nt) => negb (existsb (N.eqb 95) (nt_label nt))
        | _ => true end) (seq 0 8) = true) by (vm_compute; reflexivity).
    rewrite forallb_forall in HF. specialize (HF n). rewrite Hn in HF.
    intros Hin. apply elem_of_list_In in Hin.
    assert (negb (existsb (N.eqb 95) (nt_label nt)) = true) as Hx by (apply HF, in_seq; lia).
    apply negb_true_iff in Hx. enough (existsb (N.eqb 95) (nt_label nt) = true) by congruence.
    apply existsb_exists. exists 95%N. split; [done|apply N.eqb_refl].
Qed.

(** A delimiter that occurs in no label but overlaps with one. *)
Definition ex_overlap : tree :=
  build (lit "w") (lit "t") [OAbove 0 (lit "xa"); OAbove 1 (lit "y")].
Theorem C23_overlap_refuted :
  exists t delim t1 t2,
    WF t /\ delim <> [] /\
    (forall n nt, nodes t !! n = Some (NT nt) -> ~ exists a b, nt_label nt = a ++ delim ++ b) /\
    (forall n w, nodes t !! n = Some w -> default ∅ (node_feats w) !! unary_chain = None) /\
    collapse_unary_chains t delim = Ret (t1, Ok ()) /\ restore_unary_chains t1 delim = Ret (t2, Ok ()) /\
    ~ same_tree t t2.
Proof.
  exists ex_overlap, (lit "aa").
  assert (W : WF ex_overlap) by apply build_WF.
  assert (Hb : forall n w, nodes ex_overlap !! n = Some w -> n < 3).
  { intros n w Hn. pose proof (go_nbound _ (wf_graph _ W) n ltac:(eauto)) as H.
    assert (g_ncap (tr_graph ex_overlap) = 3) as Hc by (by vm_compute). rewrite Hc in H. exact H. }
  eexists. eexists. split_and!.
  - exact W.
  - intros H. discriminate H.
  - intros n nt Hn (a & b & E). pose proof (Hb _ _ Hn) as Hlt.
    destruct n as [|[|[|n]]]; [| | |lia]; vm_compute in Hn; try discriminate Hn; injection Hn as <-; cbn in E.
    + destruct a as [|? [|? [|? a]]]; discriminate E.
    + destruct a as [|? [|? [|? a]]]; discriminate E.
  - intros n w Hn. pose proof (Hb _ _ Hn) as Hlt.
    destruct n as [|[|[|n]]]; [| | |lia]; vm_compute in Hn; injection Hn as <-; reflexivity.
  - vm_compute. reflexivity.
  - vm_compute. reflexivity.
  - match goal with |- ~ same_tree _ ?t2 => set (T2 := t2) end.
    intros (R & H1 & H2 & _). destruct (H2 1) as [y Hy]; [vm_compute; eauto|].
    destruct (H1 1 y Hy) as (w & w' & Hw & Hw' & Hs). vm_compute in Hw. injection Hw as <-.
    assert (Hlab : forallb (fun kv : nat * node => negb (str_eqb (node_label kv.2) (lit "xa"))) (map_to_list (nodes T2)) = true)
      by (vm_compute; reflexivity).
    rewrite forallb_forall in Hlab. specialize (Hlab (y, w')).
    destruct w' as [nt'|]; [|exact Hs]. destruct Hs as [Hs _].
    enough (false = true) as Hf by discriminate Hf. rewrite <- Hlab.
    + cbn [snd node_label]. rewrite <- Hs. reflexivity.
    + apply elem_of_list_In, elem_of_map_to_list. exact Hw'.
Qed.
Print Assumptions C23_overlap_refuted.
