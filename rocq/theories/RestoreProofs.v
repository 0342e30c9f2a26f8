(** [restore_unary_chains], and its composition with [collapse_unary_chains]. *)
From Coq Require Import Lia.
From Verif Require Import ModModel TreeSpec BaseProofs SpanProofs ShapeProofs GraphProofs DfsProofs ResetProofs
  ShapeOps TreeOps SortProofs EditProofs UnaryProofs CollapseProofs.

(** ** Well-formedness up to the count of discontinuous nodes *)
Definition WFx (t : tree) : Prop := WF (set_ndisc t (ndisc_of (nodes t))).
Lemma WF_WFx t : WF t -> WFx t.
Proof. intros W. unfold WFx. rewrite <- (wf_ndisc _ W). by destruct t. Qed.
Lemma WFx_WF t : WFx t -> tr_ndisc t = ndisc_of (nodes t) -> WF t.
Proof. intros W E. unfold WFx in W. rewrite <- E in W. by destruct t. Qed.
Lemma insert_unary_above_ndisc t k c label :
  insert_unary_above (set_ndisc t k) c label =
  match insert_unary_above t c label with
  | Ret (t', i) => Ret (set_ndisc t' k, i)
  | Panic => Panic
  | Diverge => Diverge
  end.
Proof.
  unfold insert_unary_above. change (node_at (set_ndisc t k) c) with (node_at t c).
  destruct (node_at t c) as [w| |]; cbn [mbind outcome_bind]; try done.
  change (tr_graph (set_ndisc t k)) with (tr_graph t).
  destruct (add_node _ _) as [g ins].
  change (parent (set_graph (set_ndisc t k) g) c) with (parent (set_graph t g) c).
  destruct (parent (set_graph t g) c) as [[p e]|].
  - change (tr_graph (set_graph (set_ndisc t k) g)) with (tr_graph (set_graph t g)).
    destruct (remove_edge _ e) as [g' o]. destruct (unwrap o) as [old| |]; cbn [mbind outcome_bind]; try done.
    destruct (add_edge g' p ins (Primary None)) as [[g1 e1]| |]; cbn [mbind outcome_bind]; try done.
    destruct (add_edge g1 ins c old) as [[g2 e2]| |]; cbn [mbind outcome_bind]; done.
  - change (tr_graph (set_graph (set_ndisc t k) g)) with (tr_graph (set_graph t g)).
    destruct (add_edge _ ins c _) as [[g1 e1]| |]; cbn [mbind outcome_bind]; try done.
    simpl. by destruct (Nat.eqb c (tr_root t)).
Qed.
Lemma insert_unary_above_x t c w label :
  WFx t -> nodes t !! c = Some w ->
  exists t' ins, insert_unary_above t c label = Ret (t', ins) /\ WFx t' /\ tr_ndisc t' = tr_ndisc t /\
    nodes t !! ins = None /\
    nodes t' = <[ins := NT (nt_new label (node_span w))]> (nodes t) /\
    tr_nterm t' = tr_nterm t /\
    (forall a b, PE (edges t') a b <->
        (PE (edges t) a c /\ b = ins) \/ (a = ins /\ b = c) \/ (PE (edges t) a b /\ b <> c)).
Proof.
  intros W Hc. destruct (insert_unary_above_ok _ c w label W Hc) as (t1 & ins & H1 & W1 & D1 & F1 & N1 & K1 & _ & P1 & _).
  rewrite insert_unary_above_ndisc in H1.
  destruct (insert_unary_above t c label) as [[t' i]| |] eqn:E; [|discriminate H1..].
  injection H1 as <- <-. exists t', i. split_and!; try done.
  - unfold WFx. pose proof (wf_ndisc _ W1) as Hd. simpl in Hd. rewrite <- Hd. exact W1.
  - clear -E. unfold insert_unary_above in E. destruct (node_at t c) as [w| |]; cbn [mbind outcome_bind] in E; try done.
    destruct (add_node _ _) as [g ins]. destruct (parent (set_graph t g) c) as [[p e]|].
    + destruct (remove_edge _ e) as [g' o]. destruct (unwrap o) as [old| |]; cbn [mbind outcome_bind] in E; try done.
      destruct (add_edge g' p ins (Primary None)) as [[g1 e1]| |]; cbn [mbind outcome_bind] in E; try done.
      destruct (add_edge g1 ins c old) as [[g2 e2]| |]; cbn [mbind outcome_bind] in E; try done.
      by injection E as <- <-.
    + destruct (add_edge _ ins c _) as [[g1 e1]| |]; cbn [mbind outcome_bind] in E; try done.
      injection E as <- <-. by destruct (Nat.eqb _ _).
Qed.

(** ** Expanding nodes into chains *)
Fixpoint top (n : nat) (l : list nat) : nat := match l with [] => n | x :: l => top x l end.
Fixpoint adj (n : nat) (l : list nat) (a b : nat) : Prop :=
  match l with [] => False | x :: l => (b = n /\ a = x) \/ adj x l a b end.
Lemma top_snoc n l x : top n (l ++ [x]) = x.
Proof. revert n. by induction l; simpl. Qed.
Lemma adj_snoc n l x a b : adj n (l ++ [x]) a b <-> adj n l a b \/ (a = x /\ b = top n l).
Proof. revert n. induction l as [|y l IH]; intros n; simpl; [tauto|]. rewrite IH. tauto. Qed.
Lemma top_elem n l : top n l ∈ n :: l.
Proof. revert n. induction l as [|y l IH]; intros n; simpl; [set_solver|]. specialize (IH y). set_solver. Qed.
Lemma adj_elem n l a b : adj n l a b -> a ∈ l /\ b ∈ n :: l.
Proof. revert n. induction l as [|y l IH]; intros n; simpl; [done|]. intros [[-> ->]|H%IH]; set_solver. Qed.
Lemma adj_top n l a : NoDup (n :: l) -> ~ adj n l a (top n l).
Proof.
  revert n. induction l as [|y l IH]; intros n Hnd; simpl; [tauto|]. apply NoDup_cons in Hnd as [Hn Hnd].
  intros [[E _]|H]; [|by apply (IH y)]. apply Hn. rewrite <- E. apply top_elem.
Qed.
Lemma adj_lookup n l a b : adj n l a b <-> exists k, (n :: l) !! k = Some b /\ l !! k = Some a.
Proof.
  revert n. induction l as [|y l IH]; intros n; simpl.
  - split; [done|]. by intros (k & _ & ?).
  - rewrite IH. split.
    + intros [[-> ->]|(k & H1 & H2)]; [by exists 0|]. by exists (S k).
    + intros (k & H1 & H2). destruct k as [|k]; [left; naive_solver|right]. by exists k.
Qed.
Lemma top_lookup n l : (n :: l) !! length l = Some (top n l).
Proof. revert n. by induction l as [|y l IH]; intros n; simpl. Qed.

(** [expansion t1 E t]: [t] is [t1] with a chain of nodes [E n] (bottom-up) put above every node
    [n]. *)
Record expansion (t1 : tree) (E : nat -> list nat) (t : tree) : Prop := {
  ex_block : forall x, is_Some (nodes t !! x) <-> exists n, is_Some (nodes t1 !! n) /\ x ∈ n :: E n;
  ex_disj : forall n m x, is_Some (nodes t1 !! n) -> is_Some (nodes t1 !! m) ->
              x ∈ n :: E n -> x ∈ m :: E m -> n = m;
  ex_nodup : forall n, is_Some (nodes t1 !! n) -> NoDup (n :: E n);
  ex_PE : forall a b, PE (edges t) a b <->
            (exists n, is_Some (nodes t1 !! n) /\ adj n (E n) a b) \/
            (exists n, PE (edges t1) a n /\ b = top n (E n))
}.

Lemma expansion_refl t : (forall p c, PE (edges t) p c -> is_Some (nodes t !! c)) -> expansion t (fun _ => []) t.
Proof.
  intros Hl. constructor.
  - intros x. set_solver.
  - intros n m x _ _. set_solver.
  - intros n _. apply NoDup_singleton.
  - intros a b. simpl. split; [intros H; right; by exists b|]. intros [(n & _ & [])|(n & H & ->)]. done.
Qed.

Definition grow (E : nat -> list nat) (n : nat) (l : list nat) : nat -> list nat :=
  fun m => if decide (m = n) then E n ++ l else E m.
Lemma expansion_step t1 E t n t' ins :
  expansion t1 E t -> (forall p c, PE (edges t1) p c -> is_Some (nodes t1 !! c)) ->
  is_Some (nodes t1 !! n) -> nodes t !! ins = None ->
  (forall x, is_Some (nodes t' !! x) <-> x = ins \/ is_Some (nodes t !! x)) ->
  (forall a b, PE (edges t') a b <->
        (PE (edges t) a (top n (E n)) /\ b = ins) \/ (a = ins /\ b = top n (E n)) \/
        (PE (edges t) a b /\ b <> top n (E n))) ->
  expansion t1 (grow E n [ins]) t'.
Proof.
  intros [Xb Xd Xn Xp] Hlive Hn Hf HN HP.
  assert (Hfr : forall m, is_Some (nodes t1 !! m) -> ins ∉ m :: E m).
  { intros m Hm Hin. assert (is_Some (nodes t !! ins)) as [? ?] by (apply Xb; by exists m). congruence. }
  assert (Hg : forall m x, x ∈ m :: grow E n [ins] m <-> x ∈ m :: E m \/ (m = n /\ x = ins)).
  { intros m x. unfold grow. destruct (decide (m = n)) as [->|]; set_solver. }
  constructor.
  - intros x. rewrite HN, Xb. setoid_rewrite Hg. split.
    + intros [->|(m & Hm & Hx)]; [exists n; by auto|exists m; by auto].
    + intros (m & Hm & [Hx|[-> ->]]); [right; by exists m|by left].
  - intros m m' x Hm Hm' Hx Hx'. apply Hg in Hx as [Hx|[-> ->]], Hx' as [Hx'|[-> Ex]]; try done.
    + by eapply Xd.
    + subst x. by destruct (Hfr m).
    + by destruct (Hfr m').
  - intros m Hm. unfold grow. destruct (decide (m = n)) as [->|]; [|by apply Xn].
    change (n :: E n ++ [ins]) with ((n :: E n) ++ [ins]). apply NoDup_app. split_and!; [by apply Xn| |apply NoDup_singleton].
    intros x Hx ->%elem_of_list_singleton. by apply Hfr in Hx.
  - intros a b. rewrite HP. split.
    + intros [[H ->]|[[-> ->]|[H Hne]]].
      * right. apply Xp in H as [(m & Hm & Ha)|(m & Hm & Ht)].
        -- pose proof (adj_elem _ _ _ _ Ha) as [_ Hin].
           assert (m = n) as -> by (eapply Xd; [done|done|exact Hin|apply top_elem]).
           by apply adj_top in Ha; [|apply Xn].
        -- assert (m = n) as ->. { apply (Xd m n (top n (E n))); [by eapply Hlive|done|rewrite Ht; apply top_elem|apply top_elem]. }
           exists n. split; [done|]. unfold grow. by rewrite decide_True, top_snoc.
      * left. exists n. split; [done|]. unfold grow. rewrite decide_True by done. apply adj_snoc. by right.
      * apply Xp in H as [(m & Hm & Ha)|(m & Hm & ->)].
        -- left. exists m. split; [done|]. unfold grow. destruct (decide (m = n)) as [->|]; [|done]. apply adj_snoc. by left.
        -- right. exists m. split; [done|]. unfold grow. by destruct (decide (m = n)) as [->|].
    + intros [(m & Hm & Ha)|(m & Hm & ->)].
      * unfold grow in Ha. destruct (decide (m = n)) as [->|Hmn].
        -- apply adj_snoc in Ha as [Ha|Ha]; [|by right; left]. right; right. split.
           ++ apply Xp. left. by exists n.
           ++ intros ->. by apply adj_top in Ha; [|apply Xn].
        -- right; right. split; [apply Xp; left; by exists m|]. intros ->.
           pose proof (adj_elem _ _ _ _ Ha) as [_ Hin]. apply Hmn. eapply Xd; [done|done|exact Hin|apply top_elem].
      * unfold grow. destruct (decide (m = n)) as [->|Hmn].
        -- left. split; [|by rewrite top_snoc]. apply Xp. right. by exists n.
        -- right; right. split; [apply Xp; right; by exists m|]. intros Et. apply Hmn.
           eapply Xd; [by eapply Hlive|done|apply top_elem|rewrite Et; apply top_elem].
Qed.

Lemma expansion_ext t1 E E' t : (forall n, E n = E' n) -> expansion t1 E t -> expansion t1 E' t.
Proof.
  intros HE [Xb Xd Xn Xp]. constructor.
  - intros x. rewrite Xb. by setoid_rewrite HE.
  - intros n m x Hn Hm. rewrite <- !HE. by apply Xd.
  - intros n Hn. rewrite <- HE. by apply Xn.
  - intros a b. rewrite Xp. by setoid_rewrite HE.
Qed.
Lemma expansion_same t1 E t t' :
  (forall x, is_Some (nodes t' !! x) <-> is_Some (nodes t !! x)) -> edges t' = edges t ->
  expansion t1 E t -> expansion t1 E t'.
Proof.
  intros HN HE [Xb Xd Xn Xp]. constructor; try done.
  - intros x. by rewrite HN.
  - intros a b. by rewrite HE.
Qed.
Lemma put_node_WFx t n w w' : WFx t -> nodes t !! n = Some w -> skel w' = skel w -> WFx (put_node t n w').
Proof.
  intros W H Hs. pose proof (put_node_WF _ n w w' W H Hs) as W'. unfold WFx.
  pose proof (wf_ndisc _ W') as Hd. simpl in Hd. simpl. rewrite <- Hd. exact W'.
Qed.

Lemma insert_chain_spec t1 n s : forall labels E t,
  (forall p c, PE (edges t1) p c -> is_Some (nodes t1 !! c)) -> is_Some (nodes t1 !! n) ->
  expansion t1 E t -> WFx t ->
  (exists w, nodes t !! top n (E n) = Some w /\ node_span w = s) ->
  exists t' l, insert_chain t (top n (E n)) labels = Ret t' /\ WFx t' /\ tr_ndisc t' = tr_ndisc t /\
    tr_nterm t' = tr_nterm t /\ expansion t1 (grow E n l) t' /\
    (forall x w, nodes t !! x = Some w -> nodes t' !! x = Some w) /\
    Forall2 (fun x lab => nodes t' !! x = Some (NT (nt_new lab s))) l labels.
Proof.
  induction labels as [|lab labels IH]; intros E t Hlive Hn X W (w & Hw & Hs); cbn [insert_chain].
  - exists t, []. split_and!; try done. apply (expansion_ext _ E); [|done].
    intros m. unfold grow. destruct (decide (m = n)) as [->|]; [by rewrite app_nil_r|done].
  - destruct (insert_unary_above_x t _ w lab W Hw) as (t2 & ins & -> & W2 & D2 & F2 & N2 & K2 & P2).
    cbn [mbind outcome_bind]. rewrite Hs in N2.
    assert (X2 : expansion t1 (grow E n [ins]) t2).
    { apply (expansion_step t1 E t n t2 ins); try done.
      intros x. rewrite N2. destruct (decide (x = ins)) as [->|Hx].
      - rewrite lookup_insert. split; eauto.
      - rewrite lookup_insert_ne by done. naive_solver. }
    assert (Ht : top n (grow E n [ins] n) = ins).
    { unfold grow. by rewrite decide_True, top_snoc. }
    destruct (IH (grow E n [ins]) t2 Hlive Hn X2 W2) as (t' & l & H1 & W' & D' & K' & X' & N' & L').
    { exists (NT (nt_new lab s)). rewrite Ht, N2, lookup_insert. done. }
    rewrite Ht in H1. rewrite H1. exists t', (ins :: l). split_and!; try done; try congruence.
    + eapply expansion_ext; [|exact X']. intros m. unfold grow.
      destruct (decide (m = n)) as [->|]; [|done]. rewrite decide_True by done. by rewrite <- app_assoc.
    + intros x wx Hx. apply N'. rewrite N2, lookup_insert_ne; [done|]. intros <-. congruence.
    + constructor; [|done]. apply N'. by rewrite N2, lookup_insert.
Qed.

Definition chain_feat (w : node) : option (option str) := default ∅ (node_feats w) !! unary_chain.
Definition chain_labels (delim : str) (w : node) : list str :=
  match chain_feat w with Some (Some c) => split_str delim c | _ => [] end.
Definition unchain (w : node) : node := node_set_feats w (Some (delete unary_chain (default ∅ (node_feats w)))).
Lemma unchain_skel w : skel (unchain w) = skel w.
Proof. by destruct w. Qed.

Lemma restore_loop delim t1 : forall l E t,
  (forall p c, PE (edges t1) p c -> is_Some (nodes t1 !! c)) -> NoDup l ->
  (forall n w, nodes t1 !! n = Some w -> chain_feat w <> Some None) ->
  (forall n, n ∈ l -> is_Some (nodes t1 !! n) /\ nodes t !! n = nodes t1 !! n /\ E n = []) ->
  expansion t1 E t -> WFx t ->
  exists t' E', foldR (fun t n =>
           w ← node_at t n;
           let '(m, o) := feats_remove (default ∅ (node_feats w)) unary_chain in
           let t := put_node t n (node_set_feats w (Some m)) in
           match o with
           | None => Ret (t, Ok ())
           | Some None => Ret (t, Err)
           | Some (Some chain) => t ← insert_chain t n (split_str delim chain); Ret (t, Ok ())
           end) l t = Ret (t', Ok ()) /\ WFx t' /\ expansion t1 E' t' /\ tr_ndisc t' = tr_ndisc t /\
    tr_nterm t' = tr_nterm t /\
    (forall n, n ∉ l -> E' n = E n) /\
    (forall x w, nodes t !! x = Some w -> x ∉ l -> nodes t' !! x = Some w) /\
    (forall n w, n ∈ l -> nodes t1 !! n = Some w ->
       nodes t' !! n = Some (unchain w) /\
       Forall2 (fun x lab => nodes t' !! x = Some (NT (nt_new lab (node_span w)))) (E' n) (chain_labels delim w)).
Proof.
  induction l as [|n l IH]; intros E t Hlive Hnd Hok Hl X W; cbn [foldR].
  - exists t, E. split_and!; try done. set_solver.
  - apply NoDup_cons in Hnd as [Hnl Hnd]. destruct (Hl n) as ([w Hw] & Hn & HE); [set_solver|].
    rewrite Hw in Hn. rewrite (node_at_Some _ _ _ Hn). cbn [mbind outcome_bind]. unfold feats_remove.
    fold (chain_feat w). change (node_set_feats w (Some (delete unary_chain (default ∅ (node_feats w))))) with (unchain w).
    set (t2 := put_node t n (unchain w)).
    assert (W2 : WFx t2) by (eapply put_node_WFx; [done|exact Hn|apply unchain_skel]).
    assert (N2 : forall x, nodes t2 !! x = if decide (x = n) then Some (unchain w) else nodes t !! x).
    { intros x. subst t2. simpl. destruct (decide (x = n)) as [->|Hx]; [by rewrite lookup_insert|by rewrite lookup_insert_ne]. }
    assert (X2 : expansion t1 E t2).
    { apply (expansion_same t1 E t t2); [|done|exact X]. intros x. rewrite N2. destruct (decide (x = n)) as [->|]; [|done]. rewrite Hn. split; eauto. }
    assert (D2 : tr_ndisc t2 = tr_ndisc t) by done. assert (K2 : tr_nterm t2 = tr_nterm t) by done.
    clearbody t2.
    assert (Hstep : exists t3 lx, (match chain_feat w with
           | None => Ret (t2, Ok ())
           | Some None => Ret (t2, Err)
           | Some (Some chain) => t ← insert_chain t2 n (split_str delim chain); Ret (t, Ok ())
           end : outcome (tree * result ())) = Ret (t3, Ok ()) /\ WFx t3 /\ tr_ndisc t3 = tr_ndisc t2 /\
           tr_nterm t3 = tr_nterm t2 /\ expansion t1 (grow E n lx) t3 /\
           (forall x w, nodes t2 !! x = Some w -> nodes t3 !! x = Some w) /\
           Forall2 (fun x lab => nodes t3 !! x = Some (NT (nt_new lab (node_span w)))) lx (chain_labels delim w)).
    { unfold chain_labels. destruct (chain_feat w) as [[chain|]|] eqn:Ec.
      - destruct (insert_chain_spec t1 n (node_span w) (split_str delim chain) E t2) as (t3 & lx & H3 & H4); try done.
        { exists (unchain w). rewrite HE. simpl. rewrite N2, decide_True by done. split; [done|].
          pose proof (unchain_skel w) as Hs. by injection Hs. }
        rewrite HE in H3. simpl in H3. rewrite H3. cbn [mbind outcome_bind]. by exists t3, lx.
      - by destruct (Hok n w Hw).
      - exists t2, []. split_and!; try done. apply (expansion_ext _ E); [|done].
        intros m. unfold grow. destruct (decide (m = n)) as [->|]; [by rewrite app_nil_r|done]. }
    destruct Hstep as (t3 & lx & -> & W3 & D3 & K3 & X3 & N3 & L3). cbn [mbind outcome_bind].
    destruct (IH (grow E n lx) t3 Hlive Hnd Hok) as (t' & E' & H1 & W' & X' & D' & K' & HE' & N' & L'); try done.
    { intros m Hm. destruct (Hl m) as ([wm Hwm] & Hm' & HEm); [set_solver|]. split; [eauto|]. split.
      - rewrite Hwm in Hm' |- *. apply N3. rewrite N2, decide_False; [done|]. by intros ->.
      - unfold grow. rewrite decide_False; [done|]. by intros ->. }
    exists t', E'. split_and!; try done; try congruence.
    + intros m Hm. apply not_elem_of_cons in Hm as [Hm1 Hm2]. rewrite HE' by done. unfold grow. by rewrite decide_False.
    + intros x wx Hx Hxl. apply not_elem_of_cons in Hxl as [Hx1 Hx2]. apply N'; [|done]. apply N3. by rewrite N2, decide_False.
    + intros m wm [->|Hm]%elem_of_cons Hwm; [|by apply L'].
      rewrite Hw in Hwm. injection Hwm as <-. split.
      { apply N'; [|done]. apply N3. by rewrite N2, decide_True. }
      assert (HEn : E' n = lx). { rewrite HE' by done. unfold grow. rewrite decide_True by done. by rewrite HE. }
      rewrite HEn.
      apply Forall2_same_length_lookup. split; [by eapply Forall2_length|].
      intros k x lab Hk1 Hk2. apply N'; [by apply (Forall2_lookup_lr _ _ _ _ _ _ L3 Hk1 Hk2)|].
      intros Hxl. apply elem_of_list_lookup_2 in Hk1.
      assert (n = x) as <-. { apply (ex_disj _ _ _ X' n x x); [eauto|by destruct (Hl x) as [? _]; [set_solver|]|rewrite HEn; set_solver|set_solver]. }
      pose proof (ex_nodup _ _ _ X' n ltac:(eauto)) as Hnd'. rewrite HEn in Hnd'. apply NoDup_cons in Hnd' as [? _]. done.
Qed.

Lemma restore_ok delim t :
  WF t -> (forall n w, nodes t !! n = Some w -> chain_feat w <> Some None) ->
  exists t' E, restore_unary_chains t delim = Ret (t', Ok ()) /\ WFx t' /\ expansion t E t' /\
    tr_ndisc t' = tr_ndisc t /\ tr_nterm t' = tr_nterm t /\
    (forall n w, nodes t !! n = Some w ->
       nodes t' !! n = Some (unchain w) /\
       Forall2 (fun x lab => nodes t' !! x = Some (NT (nt_new lab (node_span w)))) (E n) (chain_labels delim w)).
Proof.
  intros W Hok. pose proof W as [G Sh Tm Nt Nd]. unfold restore_unary_chains.
  destruct (restore_loop delim t (node_indices (tr_graph t)) (fun _ => []) t) as (t' & E & H1 & W' & X' & D' & K' & _ & _ & L').
  - intros p c Hp. by apply (sh_live _ _ _ Sh p c).
  - apply node_indices_nodup.
  - done.
  - intros n Hn. split; [by apply elem_of_node_indices|done].
  - apply expansion_refl. intros p c Hp. by apply (sh_live _ _ _ Sh p c).
  - by apply WF_WFx.
  - exists t', E. split_and!; try done. intros n w Hn. apply L'; [|done]. apply elem_of_node_indices; [done|eauto].
Qed.

(** ** A collapsed tree expands to the original *)
Lemma finite_choice {A} (a0 : A) (X : gset nat) (P : nat -> A -> Prop) :
  (forall n, n ∈ X -> exists x, P n x) -> exists f, forall n, n ∈ X -> P n (f n).
Proof.
  induction X as [|n X Hn IH] using set_ind_L; intros H.
  - exists (fun _ => a0). set_solver.
  - destruct IH as [f Hf]; [intros m Hm; apply H; set_solver|].
    destruct (H n) as [x Hx]; [set_solver|].
    exists (fun m => if decide (m = n) then x else f m). intros m Hm.
    destruct (decide (m = n)) as [->|Hmn]; [done|]. apply Hf. set_solver.
Qed.

Section chains.
  Context (t : tree).
  Hypothesis (W : WF t).
  Let Sh : shape_ok (nodes t) (edges t) (tr_root t) := wf_shape t W.

  Lemma uchain_adj n l a b : uchain (edges t) n l -> adj n l a b -> only (edges t) a b.
  Proof. induction 1 as [|n p l Hp _ IH]; simpl; [done|]. intros [[-> ->]|H]; [done|by apply IH]. Qed.
  Lemma uchain_top n l p : uchain (edges t) n l -> ~ only (edges t) p (top n l).
  Proof. induction 1 as [n Hn|n q l Hq _ IH]; simpl; [apply Hn|done]. Qed.
  Lemma uchain_Dom n l x : uchain (edges t) n l -> x ∈ n :: l -> Dom (edges t) x n.
  Proof.
    intros H. revert x. induction H as [n Hn|n q l Hq _ IH]; intros x Hx.
    - apply elem_of_list_singleton in Hx as ->. constructor.
    - apply elem_of_cons in Hx as [->|Hx]; [constructor|]. eapply rtc_r; [by apply IH|apply Hq].
  Qed.
  Lemma uchain_next n l x p : uchain (edges t) n l -> x ∈ n :: l -> only (edges t) p x -> adj n l p x.
  Proof.
    intros H. induction H as [n Hn|n q l Hq _ IH]; intros Hx Hp.
    - apply elem_of_list_singleton in Hx as ->. by apply Hn in Hp.
    - simpl. apply elem_of_cons in Hx as [->|Hx]; [left|right; by apply IH].
      split; [done|]. by eapply (only_parent_unique Sh).
  Qed.
  Lemma uchain_anc n l q : uchain (edges t) n l ->
    Dom (edges t) q n -> q <> n -> anchor t q -> Dom (edges t) q (top n l) /\ q <> top n l.
  Proof.
    induction 1 as [n Hn|n p l Hp Hl IH]; intros Hq Hne Ha; simpl; [done|].
    apply rtc_inv_r in Hq as [->|(x & Hx & Hxn)]; [done|].
    assert (x = p) as -> by (eapply (PE_parent_unique Sh); [done|apply Hp]).
    apply IH; [done| |done]. intros ->. destruct Ha as [_ Ha]. by destruct (Ha n).
  Qed.
  (** Every node is on the chain of an anchor. *)
  Lemma chain_cover x : is_Some (nodes t !! x) ->
    exists n l, anchor t n /\ uchain (edges t) n l /\ x ∈ n :: l.
  Proof.
    revert x. apply (tree_ind_up Sh). intros x Hx IH. destruct (anchor_dec t x W Hx) as [[c Hc]|Ha].
    - destruct (IH c) as (n & l & H1 & H2 & H3); [apply Hc|]. exists n, l. split_and!; try done.
      pose proof (uchain_next _ _ _ _ H2 H3 Hc) as H4. apply adj_elem in H4 as [H4 _]. set_solver.
    - destruct (uchain_exists t x W Hx) as [l Hl]. exists x, l. split_and!; try done. set_solver.
  Qed.
  Lemma uchain_disj n m l l' x :
    anchor t n -> anchor t m -> uchain (edges t) n l -> uchain (edges t) m l' ->
    x ∈ n :: l -> x ∈ m :: l' -> n = m.
  Proof.
    intros [_ Hn] [_ Hm] Hl Hl'. revert m l' Hm Hl' x.
    assert (Gn : forall n l, uchain (edges t) n l -> forall x, x ∈ l -> exists c, only (edges t) x c /\ c ∈ n :: l).
    { clear. induction 1 as [|n p l Hp _ IH]; intros x Hx; [set_solver|].
      apply elem_of_cons in Hx as [->|Hx]; [exists n; set_solver|]. destruct (IH x Hx) as (c & H1 & H2). set_solver. }
    assert (Gd : forall x, is_Some (nodes t !! x) -> forall n m l l', (forall c, ~ only (edges t) n c) ->
       (forall c, ~ only (edges t) m c) -> uchain (edges t) n l -> uchain (edges t) m l' -> x ∈ n :: l -> x ∈ m :: l' -> n = m).
    { clear n l Hn Hl. apply (tree_ind_up Sh (fun x => forall n m l l', (forall c, ~ only (edges t) n c) ->
       (forall c, ~ only (edges t) m c) -> uchain (edges t) n l -> uchain (edges t) m l' -> x ∈ n :: l -> x ∈ m :: l' -> n = m)).
      intros x _ IH n m l l' Hn Hm Hl Hl' H1 H2.
      apply elem_of_cons in H1 as [->|H1], H2 as [E|H2]; [done| | |].
      - destruct (Gn _ _ Hl' _ H2) as (c & Hc & _). by destruct (Hn c).
      - subst x. destruct (Gn _ _ Hl _ H1) as (c & Hc & _). by destruct (Hm c).
      - destruct (Gn _ _ Hl _ H1) as (c & Hc & Hcl), (Gn _ _ Hl' _ H2) as (c' & Hc' & Hcl').
        assert (c' = c) as -> by (by apply Hc, Hc'). by apply (IH c (proj1 Hc) n m l l'). }
    intros m l' Hm Hl' x Hx Hx'. destruct (decide (x = n)) as [->|Hxn].
    - apply elem_of_cons in Hx' as [->|Hx']; [done|]. destruct (Gn _ _ Hl' _ Hx') as (c & Hc & _). by destruct (Hn c).
    - assert (x ∈ l) as Hxl by set_solver. destruct (Gn _ _ Hl _ Hxl) as (c & Hc & _).
      eapply Gd; [|done..]. apply (sh_live _ _ _ Sh x c), Hc.
  Qed.
  Lemma uchain_span n l x w wx :
    uchain (edges t) n l -> nodes t !! n = Some w -> x ∈ n :: l -> nodes t !! x = Some wx -> node_span wx = node_span w.
  Proof.
    intros H. revert w. induction H as [n Hn|n p l Hp _ IH]; intros w Hw Hx Hwx.
    - apply elem_of_list_singleton in Hx as ->. congruence.
    - apply elem_of_cons in Hx as [->|Hx]; [congruence|].
      destruct (sh_live _ _ _ Sh p n (proj1 Hp)) as [[wp Hwp] _]. rewrite (IH wp Hwp Hx Hwx).
      pose proof (proj2 (span_unary t p n wp w W (proj1 Hp) Hwp Hw) Hp) as HS.
      by apply bool_decide_eq_true in HS.
  Qed.
  Lemma uchain_nodup n l : is_Some (nodes t !! n) -> uchain (edges t) n l -> NoDup (n :: l).
  Proof.
    intros Hn H. induction H as [n Ho|n p l Hp Hl IH]; [apply NoDup_singleton|].
    apply NoDup_cons. split; [|apply IH; by apply (sh_live _ _ _ Sh p n), Hp].
    intros Hin. pose proof (uchain_Dom p l n Hl Hin) as HD.
    apply (Dom_PE_acyclic Sh n p HD). apply Hp.
  Qed.
End chains.

Lemma collapse_expansion delim t t' :
  WF t -> WF t' -> csim delim t t' -> (forall a, is_Some (nodes t' !! a) -> anchor t' a) ->
  exists E, expansion t' E t /\ forall n, anchor t n -> uchain (edges t) n (E n).
Proof.
  intros W W' C HA. pose proof W as [G Sh Tm Nt Nd]. pose proof (wf_shape _ W') as Sh'.
  pose proof (csim_anchor delim t t') as HAA.
  assert (HL : forall n, is_Some (nodes t' !! n) <-> anchor t n).
  { intros n. split.
    - intros Hn. by apply (HAA n W W' C), HA.
    - intros Hn. by apply (HAA n W W' C) in Hn as [Hn _]. }
  destruct (finite_choice [] (dom (nodes t')) (fun n l => uchain (edges t) n l)) as [E HE].
  { intros n Hn. apply elem_of_dom, HL in Hn. apply uchain_exists; [done|apply Hn]. }
  assert (HE' : forall n, anchor t n -> uchain (edges t) n (E n)).
  { intros n Hn. apply HE, elem_of_dom. by apply HL. }
  exists E. split; [|done]. clear HE. destruct C as (_ & _ & CD & _ & _). constructor.
  - intros x. setoid_rewrite HL. split.
    + intros Hx. destruct (chain_cover t W x Hx) as (n & l & Hn & Hl & Hin). exists n. split; [done|].
      by rewrite (uchain_unique Sh n (E n) l (HE' n Hn) Hl).
    + intros (n & Hn & Hx). pose proof (uchain_Dom t n (E n) x (HE' n Hn) Hx) as HD.
      by apply (Dom_live_l Sh x n (proj1 Hn)).
  - intros n m x Hn%HL Hm%HL. apply (uchain_disj t W); auto.
  - intros n Hn%HL. apply (uchain_nodup t W); [apply Hn|auto].
  - intros a b. split.
    + intros Hab. destruct (sh_live _ _ _ Sh a b Hab) as [Ha Hb].
      destruct (chain_cover t W b Hb) as (n & l & Hn & Hl & Hin).
      rewrite (uchain_unique Sh n l (E n) Hl (HE' n Hn)) in Hin. clear l Hl.
      destruct (anchor_dec t a W Ha) as [[c Hc]|Haa].
      * left. exists n. split; [by apply HL|]. assert (b = c) as -> by (by apply Hc).
        by apply (uchain_next t W n (E n) c a (HE' n Hn)).
      * right. exists n.
        assert (Hbt : b = top n (E n)).
        { destruct (decide (b = top n (E n))) as [|Hbt]; [done|exfalso].
          assert (exists p, adj n (E n) p b) as [p Hp].
          { clear -Hin Hbt. revert Hin Hbt. generalize (E n). intros l. revert n. induction l as [|y l IH]; intros n Hin Hbt; simpl in *.
            - by apply elem_of_list_singleton in Hin.
            - apply elem_of_cons in Hin as [->|Hin]; [exists y; by left|]. destruct (IH y Hin Hbt) as [p Hp]. exists p. by right. }
          pose proof (uchain_adj t n (E n) p b (HE' n Hn) Hp) as Hon.
          assert (p = a) as -> by (eapply (PE_parent_unique Sh); [apply Hon|done]).
          destruct Haa as [_ Haa]. by apply Haa in Hon. }
        split; [|done]. clear Hin.
        assert (HDbn : Dom (edges t) b n). { rewrite Hbt. apply (uchain_Dom t n (E n)); [auto|apply top_elem]. }
        assert (HDan : Dom (edges t) a n) by (by eapply rtc_l).
        assert (Han : a <> n). { intros ->. by apply (Dom_PE_acyclic Sh b n HDbn). }
        apply CD in HDan as HD'; [|done..].
        apply rtc_inv_r in HD' as [?|(q & Haq & Hqn)]; [done|].
        assert (Hq : anchor t q). { apply HL. by apply (sh_live _ _ _ Sh' q n). }
        assert (HDq : Dom (edges t) q n). { apply CD; [done..|]. by apply rtc_once. }
        assert (Hqne : q <> n). { intros ->. by apply (PE_irrefl Sh' n). }
        destruct (uchain_anc t W n (E n) q (HE' n Hn) HDq Hqne Hq) as [HDqt Hqt]. rewrite <- Hbt in HDqt, Hqt.
        apply rtc_inv_r in HDqt as [?|(a' & HDqa & Ha')]; [done|].
        assert (a' = a) as -> by (by eapply (PE_parent_unique Sh)).
        apply CD in Haq; [|done..]. by rewrite (Dom_antisym Sh a q Haq HDqa).
    + intros [(n & Hn%HL & Hadj)|(n & Hp & ->)].
      * apply (uchain_adj t n (E n) a b); auto.
      * destruct (sh_live _ _ _ Sh' a n Hp) as [Ha%HL Hn%HL].
        assert (HD : Dom (edges t) a n). { apply CD; [done..|]. by apply rtc_once. }
        assert (Hne : a <> n). { intros ->. by apply (PE_irrefl Sh' n). }
        destruct (uchain_anc t W n (E n) a (HE' n Hn) HD Hne Ha) as [HDt Hat].
        apply rtc_inv_r in HDt as [?|(q & HDq & Hq)]; [done|].
        assert (Hqa : anchor t q).
        { destruct (anchor_dec t q W) as [[c Hc]|?]; [by apply (sh_live _ _ _ Sh q _ Hq)| |done].
          exfalso. assert (top n (E n) = c) as Ec by (by apply Hc). rewrite <- Ec in Hc.
          by apply (uchain_top t n (E n) q (HE' n Hn)) in Hc. }
        assert (HDtn : Dom (edges t) (top n (E n)) n) by (apply (uchain_Dom t n (E n)); [auto|apply top_elem]).
        assert (HDqn : Dom (edges t) q n) by (by eapply rtc_l).
        assert (Hqn : q <> n). { intros ->. by apply (Dom_PE_acyclic Sh _ _ HDtn). }
        assert (HDq' : Dom (edges t') q n) by (by apply CD).
        apply rtc_inv_r in HDq' as [?|(x & HDx & Hx)]; [done|].
        assert (x = a) as -> by (by eapply (PE_parent_unique Sh')).
        apply CD in HDx; [|done..]. by rewrite (Dom_antisym Sh a q HDq HDx).
Qed.

(** ** Isomorphic trees *)
Record iso (t t' : tree) (R : nat -> nat -> Prop) : Prop := {
  iso_live : forall x y, R x y -> is_Some (nodes t !! x) /\ is_Some (nodes t' !! y);
  iso_total : forall x, is_Some (nodes t !! x) -> exists y, R x y;
  iso_onto : forall y, is_Some (nodes t' !! y) -> exists x, R x y;
  iso_fun : forall x y y', R x y -> R x y' -> y = y';
  iso_inj : forall x x' y, R x y -> R x' y -> x = x';
  iso_PE : forall a b a' b', R a a' -> R b b' -> PE (edges t) a b <-> PE (edges t') a' b'
}.
Definition blocks (t1 : tree) (E E' : nat -> list nat) (x y : nat) : Prop :=
  exists n k, is_Some (nodes t1 !! n) /\ (n :: E n) !! k = Some x /\ (n :: E' n) !! k = Some y.

Section blocks.
  Context (t1 t t' : tree) (E E' : nat -> list nat).
  Hypothesis (Hlive : forall p c, PE (edges t1) p c -> is_Some (nodes t1 !! p) /\ is_Some (nodes t1 !! c)).
  Hypothesis (X : expansion t1 E t) (X' : expansion t1 E' t').
  Hypothesis (Hlen : forall n, is_Some (nodes t1 !! n) -> length (E n) = length (E' n)).

  Lemma blocks_pos x n k m j :
    is_Some (nodes t1 !! n) -> is_Some (nodes t1 !! m) ->
    (n :: E n) !! k = Some x -> (m :: E m) !! j = Some x -> n = m /\ k = j.
  Proof.
    intros Hn Hm H1 H2. assert (n = m) as <-.
    { eapply (ex_disj _ _ _ X); [done|done|by eapply elem_of_list_lookup_2|by eapply elem_of_list_lookup_2]. }
    split; [done|]. eapply NoDup_lookup; [by apply (ex_nodup _ _ _ X)|done..].
  Qed.
  Lemma blocks_PE a b a' b' :
    blocks t1 E E' a a' -> blocks t1 E E' b b' -> PE (edges t) a b -> PE (edges t') a' b'.
  Proof.
    intros (na & ka & Hna & Ha & Ha') (nb & kb & Hnb & Hb & Hb') Hab. apply (ex_PE _ _ _ X').
    apply (ex_PE _ _ _ X) in Hab as [(n & Hn & (k & H1 & H2)%adj_lookup)|(n & H1 & ->)].
    - left. exists n. split; [done|]. apply adj_lookup. exists k.
      destruct (blocks_pos _ _ _ _ _ Hn Hnb H1 Hb) as [<- <-].
      destruct (blocks_pos a n (S k) _ _ Hn Hna H2 Ha) as [<- <-]. by split.
    - right. exists n. destruct (Hlive _ _ H1) as [Hla Hln].
      destruct (blocks_pos a a 0 _ _ Hla Hna eq_refl Ha) as [<- <-]. simpl in Ha'. injection Ha' as <-.
      split; [done|]. destruct (blocks_pos _ _ _ _ _ Hln Hnb (top_lookup _ _) Hb) as [<- <-].
      rewrite (Hlen n Hln), top_lookup in Hb'. by injection Hb'.
  Qed.
End blocks.

Lemma blocks_sym t1 E E' x y : blocks t1 E E' x y -> blocks t1 E' E y x.
Proof. intros (n & k & H1 & H2 & H3). by exists n, k. Qed.
Lemma expansion_iso t1 t t' E E' :
  (forall p c, PE (edges t1) p c -> is_Some (nodes t1 !! p) /\ is_Some (nodes t1 !! c)) ->
  expansion t1 E t -> expansion t1 E' t' ->
  (forall n, is_Some (nodes t1 !! n) -> length (E n) = length (E' n)) ->
  iso t t' (blocks t1 E E').
Proof.
  intros Hlive X X' Hlen. 
  assert (Hlk : forall n k x, is_Some (nodes t1 !! n) -> (n :: E n) !! k = Some x -> is_Some ((n :: E' n) !! k)).
  { intros n k x Hn H. apply lookup_lt_is_Some. apply lookup_lt_Some in H. simpl in *. rewrite <- Hlen by done. done. }
  assert (Hlk' : forall n k x, is_Some (nodes t1 !! n) -> (n :: E' n) !! k = Some x -> is_Some ((n :: E n) !! k)).
  { intros n k x Hn H. apply lookup_lt_is_Some. apply lookup_lt_Some in H. simpl in *. rewrite Hlen by done. done. }
  constructor.
  - intros x y (n & k & Hn & H1 & H2). split.
    + apply (ex_block _ _ _ X). exists n. split; [done|]. by eapply elem_of_list_lookup_2.
    + apply (ex_block _ _ _ X'). exists n. split; [done|]. by eapply elem_of_list_lookup_2.
  - intros x (n & Hn & [k Hk]%elem_of_list_lookup)%(ex_block _ _ _ X).
    destruct (Hlk n k x Hn Hk) as [y Hy]. by exists y, n, k.
  - intros x (n & Hn & [k Hk]%elem_of_list_lookup)%(ex_block _ _ _ X').
    destruct (Hlk' n k x Hn Hk) as [y Hy]. by exists y, n, k.
  - intros x y y' (n & k & Hn & H1 & H2) (m & j & Hm & H3 & H4).
    destruct (blocks_pos t1 t E X x n k m j Hn Hm H1 H3) as [<- <-]. congruence.
  - intros x y y' (n & k & Hn & H1 & H2) (m & j & Hm & H3 & H4).
    destruct (blocks_pos t1 t' E' X' _ n k m j Hn Hm H2 H4) as [<- <-]. congruence.
  - intros a b a' b' Ha Hb. split.
    + by apply (blocks_PE t1 t t' E E').
    + apply (blocks_PE t1 t' t E' E Hlive X' X); [|by apply blocks_sym..]. intros n Hn. by rewrite Hlen.
Qed.

(** ** The round trip *)
Definition no_chain (w : node) : Prop := chain_feat w = None.

Lemma push_chain_feat w delim l :
  chain_feat (push_chain w delim l) =
  Some (Some (match chain_feat w with Some (Some c) => c ++ delim ++ l | _ => l end)).
Proof. unfold chain_feat, push_chain. destruct w; simpl; by rewrite lookup_insert. Qed.
Lemma push_all_feat delim w l ls :
  no_chain w -> chain_feat (push_all delim w (l :: ls)) = Some (Some (Base.join delim (l :: ls))).
Proof.
  intros Hw. unfold push_all. cbn [foldl].
  assert (Gn : forall ls l w0, chain_feat w0 = Some (Some l) ->
     chain_feat (foldl (fun w l => push_chain w delim l) w0 ls) = Some (Some (Base.join delim (l :: ls)))).
  { clear. induction ls as [|x ls IH]; intros l w0 H; [done|]. cbn [foldl].
    rewrite (IH (l ++ delim ++ x)) by (by rewrite push_chain_feat, H).
    destruct ls as [|y ls]; [done|]. simpl. by rewrite <- !app_assoc. }
  apply Gn. rewrite push_chain_feat. by rewrite Hw.
Qed.
Lemma node_feats_set w f : node_feats (node_set_feats w f) = f.
Proof. by destruct w. Qed.
Lemma node_set_set w f g : node_set_feats (node_set_feats w f) g = node_set_feats w g.
Proof. by destruct w. Qed.
Lemma unchain_push w delim l : unchain (push_chain w delim l) = unchain w.
Proof.
  unfold unchain, push_chain, feats_insert. cbn [fst]. rewrite node_feats_set, node_set_set. cbn [default].
  f_equal. f_equal. apply delete_insert_delete.
Qed.
Lemma unchain_push_all w delim ls : unchain (push_all delim w ls) = unchain w.
Proof.
  revert w. induction ls as [|l ls IH]; intros w; [done|]. unfold push_all in *. cbn [foldl].
  by rewrite IH, unchain_push.
Qed.
(** The features initialised to the empty map. *)
Definition init_feats (w : node) : node := node_set_feats w (Some (default ∅ (node_feats w))).
Lemma unchain_no_chain w : no_chain w -> unchain w = init_feats w.
Proof. intros H. unfold unchain, init_feats. by rewrite delete_notin. Qed.

Lemma collapse_restore d ds t :
  WF t -> (forall n w, nodes t !! n = Some w -> no_chain w) ->
  (forall n nt, nodes t !! n = Some (NT nt) -> d ∉ nt_label nt) ->
  exists t1 t2 R, collapse_unary_chains t (d :: ds) = Ret (t1, Ok ()) /\ WF t1 /\
    restore_unary_chains t1 (d :: ds) = Ret (t2, Ok ()) /\ WFx t2 /\
    (is_projective t = true -> WF t2) /\
    tr_nterm t2 = tr_nterm t /\ iso t t2 R /\
    (forall x w, nodes t !! x = Some w -> anchor t x -> R x x /\ nodes t2 !! x = Some (init_feats w)) /\
    (forall x y nt c, R x y -> nodes t !! x = Some (NT nt) -> only (edges t) x c ->
       nodes t2 !! y = Some (NT (nt_new (nt_label nt) (nt_span nt)))).
Proof.
  intros W Hnc Hlab. set (delim := d :: ds).
  destruct (collapse_ok delim t W) as (t1 & H1 & W1 & C & HA & HN).
  destruct (collapse_expansion delim t t1 W W1 C HA) as (E & X & HE).
  assert (HL : forall n w, nodes t1 !! n = Some w -> exists w0 ls, nodes t !! n = Some w0 /\ anchor t n /\
             labels_of t (E n) ls /\ w = push_all delim w0 ls /\ chain_labels delim w = ls /\ chain_feat w <> Some None).
  { intros n w (w0 & l & ls & Hw0 & Hn & Hl & Hls & ->)%HN.
    rewrite (uchain_unique (wf_shape _ W) n l (E n) Hl (HE n Hn)) in Hls.
    exists w0, ls. split_and!; try done; pose proof (Hnc _ _ Hw0) as Hc.
    - unfold chain_labels. destruct ls as [|s ls].
      + unfold push_all. simpl. by rewrite Hc.
      + rewrite push_all_feat by done. apply split_str_join; [done|]. intros p Hp.
        apply elem_of_list_lookup in Hp as [i Hi]. destruct (Forall2_lookup_r _ _ _ _ _ Hls Hi) as (a & _ & nt & Ha & <-).
        by eapply Hlab.
    - destruct ls as [|s ls]; [unfold push_all; simpl; by rewrite Hc|by rewrite push_all_feat]. }
  destruct (restore_ok delim t1 W1) as (t2 & E2 & H2 & W2 & X2 & D2 & K2 & L2).
  { intros n w Hn. by destruct (HL n w Hn) as (? & ? & ? & ? & ? & ? & ? & ?). }
  exists t1, t2, (blocks t1 E E2).
  assert (Hlen : forall n, is_Some (nodes t1 !! n) -> length (E n) = length (E2 n)).
  { intros n [w Hw]. destruct (L2 n w Hw) as [_ HF]. destruct (HL n w Hw) as (w0 & ls & _ & _ & Hls & _ & Hcl & _).
    rewrite Hcl in HF. rewrite (Forall2_length _ _ _ Hls). by rewrite (Forall2_length _ _ _ HF). }
  assert (Hsp : forall n w w0, nodes t1 !! n = Some w -> nodes t !! n = Some w0 -> node_span w = node_span w0).
  { intros n w w0 Hw Hw0. destruct (HL n w Hw) as (w' & ls & Hw' & _ & _ & -> & _). rewrite Hw0 in Hw'. injection Hw' as <-.
    pose proof (push_all_skel delim w0 ls) as Hs. by injection Hs. }
  assert (Hlk : forall n, anchor t n <-> is_Some (nodes t1 !! n)).
  { intros n. split; [|intros [w Hw]; by destruct (HL n w Hw) as (? & ? & ? & ? & _)].
    intros Hn. apply (csim_anchor delim t t1 n W W1 C) in Hn. apply Hn. }
  split_and!; try done.
  - intros Hp. apply WFx_WF; [done|]. rewrite D2.
    assert (Hng : forall n w, nodes t !! n = Some w -> ~ gappy w).
    { unfold is_projective in Hp. apply Nat.eqb_eq in Hp. rewrite (wf_ndisc _ W) in Hp.
      intros n w Hw. by apply (proj1 (ndisc_of_zero _) Hp n w). }
    assert (Hng1 : forall n w, nodes t1 !! n = Some w -> ~ gappy w).
    { intros n w Hw. destruct (HL n w Hw) as (w0 & ? & Hw0 & _). unfold gappy. rewrite (Hsp n w w0 Hw Hw0). by apply (Hng n). }
    rewrite (wf_ndisc _ W1), (proj2 (ndisc_of_zero _) Hng1). symmetry. apply ndisc_of_zero. intros y wy Hy.
    destruct (proj1 (ex_block _ _ _ X2 y)) as (n & [w Hw] & Hin); [eauto|].
    destruct (L2 n w Hw) as [Hn HF]. apply elem_of_cons in Hin as [->|Hin].
    + rewrite Hn in Hy. injection Hy as <-. unfold gappy. destruct (unchain_skel w). 
      replace (node_span (unchain w)) with (node_span w) by (by destruct w). by apply (Hng1 n).
    + apply elem_of_list_lookup in Hin as [k Hk]. destruct (Forall2_lookup_l _ _ _ _ _ HF Hk) as (lab & _ & Hy').
      rewrite Hy in Hy'. injection Hy' as ->. apply (Hng1 n w Hw).
  - rewrite K2. apply C.
  - apply expansion_iso; try done. intros p c Hp. apply (sh_live _ _ _ (wf_shape _ W1) p c Hp).
  - intros x w Hx Ha. pose proof Ha as [w1 Hw1]%Hlk. split; [exists x, 0; split_and!; [eauto|done|done]|].
    destruct (L2 x w1 Hw1) as [-> _]. destruct (HL x w1 Hw1) as (w0 & ls & Hw0 & _ & _ & -> & _).
    rewrite Hx in Hw0. injection Hw0 as <-. rewrite unchain_push_all, unchain_no_chain; [done|by eapply Hnc].
  - intros x y nt c (n & k & [w1 Hw1] & Hx & Hy) Hnt Hc.
    destruct (L2 n w1 Hw1) as [_ HF]. destruct (HL n w1 Hw1) as (w0 & ls & Hw0 & Hn & Hls & Ew & Hcl & _).
    rewrite Hcl in HF. destruct k as [|k].
    { simpl in Hx. injection Hx as ->. destruct Hn as [_ Hn]. by apply Hn in Hc. }
    simpl in Hx, Hy. destruct (Forall2_lookup_l _ _ _ _ _ Hls Hx) as (lab & Hlk1 & nt' & Hnt' & <-).
    rewrite Hnt in Hnt'. injection Hnt' as <-.
    rewrite (Forall2_lookup_lr _ _ _ _ _ _ HF Hy Hlk1). f_equal. f_equal. unfold nt_new. f_equal.
    rewrite (Hsp n w1 w0 Hw1 Hw0). symmetry. change (nt_span nt) with (node_span (NT nt)).
    eapply (uchain_span t W n (E n) x); [auto|done| |done]. apply elem_of_list_lookup_2 in Hx. set_solver.
Qed.
