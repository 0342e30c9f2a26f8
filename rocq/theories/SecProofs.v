(** Secondary edges under the editing functions: proofs. *)
From Coq Require Import Lia.
From Verif Require Import ModModel EncModel TreeSpec BaseProofs GraphProofs SortProofs Ordered.

Definition sec (r : erec) : Prop := is_primary (e_w r) = false.
Definition live (g : graph) (n : nat) : Prop := is_Some (g_nodes g !! n).

(** Node set unchanged, grown or shrunk; secondary edges follow the nodes. *)
Record flat (g g' : graph) : Prop := {
  fl_ok : graph_ok g'; fl_dom : forall n, live g' n <-> live g n;
  fl_sec : forall r, sec r -> r ∈ g_edges g' <-> r ∈ g_edges g }.
Record grow (g g' : graph) : Prop := {
  gr_ok : graph_ok g'; gr_dom : forall n, live g n -> live g' n;
  gr_sec : forall r, sec r -> r ∈ g_edges g' <-> r ∈ g_edges g }.
Record shrink (g g' : graph) : Prop := {
  sk_ok : graph_ok g'; sk_dom : forall n, live g' n -> live g n;
  sk_sec : forall r, sec r -> r ∈ g_edges g' <-> r ∈ g_edges g /\ live g' (e_src r) /\ live g' (e_tgt r) }.

Lemma flat_refl g : graph_ok g -> flat g g.
Proof. by split. Qed.
Lemma flat_trans g1 g2 g3 : flat g1 g2 -> flat g2 g3 -> flat g1 g3.
Proof. intros [A1 A2 A3] [B1 B2 B3]. split; [done| |]; intros; [by rewrite B2, A2|by rewrite B3, A3]. Qed.
Lemma flat_grow g g' : flat g g' -> grow g g'.
Proof. intros [A1 A2 A3]. split; [done| |done]. intros n. apply A2. Qed.
Lemma flat_shrink g g' : flat g g' -> shrink g g'.
Proof.
  intros [A1 A2 A3]. split; [done|intros n; apply A2|]. intros r S. rewrite A3 by done. split; [|tauto]. intros H. split; [done|].
  apply A3 in H; [|done]. by apply (go_ends _ A1).
Qed.
Lemma grow_refl g : graph_ok g -> grow g g.
Proof. intros. by apply flat_grow, flat_refl. Qed.
Lemma shrink_refl g : graph_ok g -> shrink g g.
Proof. intros. by apply flat_shrink, flat_refl. Qed.
Lemma grow_trans g1 g2 g3 : grow g1 g2 -> grow g2 g3 -> grow g1 g3.
Proof. intros [A1 A2 A3] [B1 B2 B3]. split; [done|auto|]. intros. by rewrite B3, A3. Qed.
Lemma shrink_trans g1 g2 g3 : shrink g1 g2 -> shrink g2 g3 -> shrink g1 g3.
Proof. intros [A1 A2 A3] [B1 B2 B3]. split; [done|auto|]. intros r S. rewrite B3, A3 by done. naive_solver. Qed.

(** An edge number that is no secondary edge. *)
Definition prim (g : graph) (e : nat) : Prop := forall r, r ∈ g_edges g -> e_id r = e -> is_primary (e_w r) = true.
Lemma prim_sub g g' e : (forall r, sec r -> r ∈ g_edges g' -> r ∈ g_edges g) -> prim g e -> prim g' e.
Proof.
  intros H P r Hr He. destruct (is_primary (e_w r)) eqn:E; [done|]. rewrite <- E. by apply P, He; apply H.
Qed.
Lemma prim_flat g g' e : flat g g' -> prim g e -> prim g' e.
Proof. intros [_ _ H]. apply prim_sub. naive_solver. Qed.
Lemma prim_grow g g' e : grow g g' -> prim g e -> prim g' e.
Proof. intros [_ _ H]. apply prim_sub. naive_solver. Qed.
Lemma parent_prim t n p e : graph_ok (tr_graph t) -> parent t n = Some (p, e) -> prim (tr_graph t) e.
Proof.
  intros G H. unfold parent, in_edges in H. apply fmap_Some in H as (r & Hr & [= -> ->]).
  apply head_Some_elem_of in Hr. rewrite !elem_of_list_filter in Hr. intros r' H1 H2. rewrite (eid_inj _ r' r G) by tauto. tauto.
Qed.
Lemma children_prim t n c e : graph_ok (tr_graph t) -> (c, e) ∈ children t n -> prim (tr_graph t) e.
Proof.
  intros G (r & H1 & H2 & _ & _ & H3)%elem_of_children r' H4 H5. rewrite (eid_inj _ r' r G) by congruence. done.
Qed.

(** ** Graph operations *)
Lemma set_node_flat g n w : graph_ok g -> live g n -> flat g (set_node g n w).
Proof.
  intros G L. split; [by apply set_node_ok| |done]. intros m. unfold live. simpl. destruct (decide (n = m)) as [<-|]; [|by rewrite lookup_insert_ne].
  rewrite lookup_insert. split; eauto.
Qed.
Lemma add_node_grow g w g' n : graph_ok g -> add_node g w = (g', n) -> grow g g' /\ live g' n.
Proof.
  intros G H. destruct (add_node_spec _ _ _ _ G H) as (G' & Hn & HN & HE). split.
  - split; [done| |by rewrite HE]. intros m [x Hx]. unfold live. rewrite HN, lookup_insert_ne; [eauto|]. intros ->. congruence.
  - unfold live. rewrite HN, lookup_insert. eauto.
Qed.
Lemma add_edge_flat g a b w g' e : graph_ok g -> is_primary w = true -> add_edge g a b w = Ret (g', e) -> flat g g' /\ prim g' e.
Proof.
  intros G P H. destruct (add_edge_inv _ _ _ _ _ _ G H) as [Ha Hb].
  destruct (add_edge_spec g a b w G Ha Hb) as (g2 & e2 & H2 & G2 & HN & HE & He). rewrite H in H2. injection H2 as <- <-.
  assert (HF : flat g g').
  { split; [done|by intros n; unfold live; rewrite HN|]. intros r S. rewrite HE, elem_of_cons. split; [|by right]. intros [->|]; [|done].
    unfold sec in S. simpl in S. congruence. }
  split; [done|]. intros r Hr Hid. rewrite HE, elem_of_cons in Hr. destruct Hr as [->|Hr]; [done|]. destruct He. rewrite <- Hid. by apply elem_of_list_fmap_1.
Qed.
Lemma remove_edge_flat g e g' o : graph_ok g -> prim g e -> remove_edge g e = (g', o) ->
  flat g g' /\ forall w, o = Some w -> is_primary w = true.
Proof.
  intros G P H. destruct (find_edge g e) as [r|] eqn:Hf.
  - apply find_edge_Some in Hf as [Hr <-]; [|done]. destruct (remove_edge_spec g r G Hr) as (g2 & H2 & G2 & HN & _ & HE).
    rewrite H in H2. injection H2 as <- ->. split.
    + split; [done|by intros n; unfold live; rewrite HN|]. intros x S. rewrite HE. split; [tauto|]. intros Hx. split; [done|]. intros ->.
      unfold sec in S. by rewrite (P r) in S.
    + intros w [= <-]. by apply P.
  - unfold remove_edge in H. rewrite Hf in H. injection H as <- <-. split; [by apply flat_refl|done].
Qed.
Lemma remove_node_shrink g n g' o : graph_ok g -> remove_node_g g n = (g', o) -> shrink g g'.
Proof.
  intros G H. destruct (g_nodes g !! n) as [w|] eqn:Hn.
  - destruct (remove_node_g_spec g n w G Hn) as (g2 & H2 & G2 & HN & HE). rewrite H in H2. injection H2 as <- ->.
    split; [done| |].
    + intros m. unfold live. rewrite HN. destruct (decide (n = m)) as [->|]; [rewrite lookup_delete; by intros []|by rewrite lookup_delete_ne].
    + intros r S. rewrite HE, elem_of_list_filter. split.
      * intros [[H1 H3] Hr]. split; [done|]. unfold live. rewrite HN, !lookup_delete_ne by congruence. by apply (go_ends _ G).
      * intros (Hr & L1 & L2). split; [|done]. unfold live in *. rewrite HN in *. split; intros E; rewrite E, lookup_delete in *; [by destruct L1|by destruct L2].
  - unfold remove_node_g in H. rewrite Hn in H. injection H as <- <-. by apply shrink_refl.
Qed.
Lemma set_weight_flat g e w : graph_ok g -> prim g e -> is_primary w = true -> flat g (set_edge_weight g e w).
Proof.
  intros G P Hw. split; [by apply set_edge_weight_ok|done|]. intros r S. simpl. rewrite elem_of_list_fmap. split.
  - intros (x & Ex & Hx). destruct (Nat.eqb_spec (e_id x) e) as [He|]; [|by subst].
    subst r. unfold sec in S. simpl in S. congruence.
  - intros Hr. exists r. split; [|done]. destruct (Nat.eqb_spec (e_id r) e) as [He|]; [|done].
    apply P in He; [|done]. unfold sec in S. congruence.
Qed.

(** ** Folds *)
Section folds.
  Context {S : Type} (gr : S -> graph) (R : graph -> graph -> Prop).
  Hypothesis Rr : forall g, graph_ok g -> R g g.
  Hypothesis Rt : forall g1 g2 g3, R g1 g2 -> R g2 g3 -> R g1 g3.
  Hypothesis Rok : forall g g', R g g' -> graph_ok g'.
  Lemma foldM_R {A} (f : S -> A -> outcome S) l : (forall s x s', graph_ok (gr s) -> f s x = Ret s' -> R (gr s) (gr s')) ->
    forall s s', graph_ok (gr s) -> foldM f l s = Ret s' -> R (gr s) (gr s').
  Proof.
    induction l as [|x l IH]; intros Hf s s' G H; simpl in H; [injection H as <-; auto|].
    apply bind_inv in H as (s1 & H1 & H2). pose proof (Hf s x s1 G H1) as HR. eapply Rt; [done|].
    apply IH; [done|by eapply Rok|done].
  Qed.
  Lemma foldR_R {A} (f : S -> A -> outcome (S * result ())) l : (forall s x s' r, graph_ok (gr s) -> f s x = Ret (s', r) -> R (gr s) (gr s')) ->
    forall s s' r, graph_ok (gr s) -> foldR f l s = Ret (s', r) -> R (gr s) (gr s').
  Proof.
    induction l as [|x l IH]; intros Hf s s' r G H; simpl in H; [injection H as <- <-; auto|].
    apply bind_inv in H as ([s1 r1] & H1 & H2). pose proof (Hf s x s1 r1 G H1) as HR.
    destruct r1 as [[]|]; [|injection H2 as <- <-; done]. eapply Rt; [done|].
    eapply IH; [done|by eapply Rok|done].
  Qed.
End folds.
Definition foldM_flat {S A} gr f l := @foldM_R S gr flat flat_refl flat_trans fl_ok A f l.
Definition foldM_shrink {S A} gr f l := @foldM_R S gr shrink shrink_refl shrink_trans sk_ok A f l.
Definition foldM_grow {S A} gr f l := @foldM_R S gr grow grow_refl grow_trans gr_ok A f l.
Definition foldR_flat {S A} gr f l := @foldR_R S gr flat flat_refl flat_trans fl_ok A f l.
Definition foldR_shrink {S A} gr f l := @foldR_R S gr shrink shrink_refl shrink_trans sk_ok A f l.
Definition foldR_grow {S A} gr f l := @foldR_R S gr grow grow_refl grow_trans gr_ok A f l.

(** ** Trees: changes of nodes *)
Notation gok t := (graph_ok (tr_graph t)).
Lemma node_at_live t n w : node_at t n = Ret w -> live (tr_graph t) n.
Proof. unfold node_at, live. destruct (_ !! n); [eauto|done]. Qed.
Lemma put_flat t n w0 w : gok t -> node_at t n = Ret w0 -> flat (tr_graph t) (tr_graph (put_node t n w)).
Proof. intros G H. apply set_node_flat; [done|]. by eapply node_at_live. Qed.
Lemma projectivity_graph t b a t' : projectivity_change t b a = Ret t' -> tr_graph t' = tr_graph t.
Proof. unfold projectivity_change. destruct b, a; intros H; try (injection H as <-; done). by apply bind_inv in H as (k & _ & [= <-]). Qed.
Lemma reset_nt_span_flat t n t' : gok t -> reset_nt_span t n = Ret t' -> flat (tr_graph t) (tr_graph t').
Proof.
  intros G H. unfold reset_nt_span in H. apply bind_inv in H as (w & Hw & H). destruct w as [nt|tm]; [|injection H as <-; by apply flat_refl].
  apply bind_inv in H as (spans & _ & H). apply bind_inv in H as (r & _ & H). apply bind_inv in H as (s & _ & H). injection H as <-.
  simpl. destruct (sp_skips s); simpl; (apply set_node_flat; [done|by eapply node_at_live]).
Qed.
Lemma reset_loop_flat fuel : forall t d t', gok t -> reset_loop fuel t d = Ret t' -> flat (tr_graph t) (tr_graph t').
Proof.
  induction fuel as [|fuel IH]; intros t d t' G H; [done|]. cbn [reset_loop] in H. apply bind_inv in H as (o & _ & H).
  destruct o as [[n d']|]; [|injection H as <-; by apply flat_refl]. apply bind_inv in H as (t1 & H1 & H2).
  pose proof (reset_nt_span_flat _ _ _ G H1) as F. eapply flat_trans; [exact F|]. eapply IH; [apply F|exact H2].
Qed.
Lemma reset_flat t t' : gok t -> reset_nt_spans t = Ret t' -> flat (tr_graph t) (tr_graph t').
Proof. intros G H. unfold reset_nt_spans in H. apply reset_loop_flat in H; done. Qed.
Lemma set_spans_flat l : forall t i t' r, gok t -> set_spans_from t i l = Ret (t', r) -> flat (tr_graph t) (tr_graph t').
Proof.
  induction l as [|n l IH]; intros t i t' r G H; cbn [set_spans_from] in H; [injection H as <- <-; by apply flat_refl|].
  apply bind_inv in H as (w & Hw & H). destruct (node_set_span w _) as [w'|]; [|injection H as <- <-; by apply flat_refl].
  pose proof (put_flat t n w w' G Hw) as F. eapply flat_trans; [exact F|]. eapply IH; [apply F|exact H].
Qed.
Lemma compact_flat t t' r : gok t -> compact_terminal_spans t = Ret (t', r) -> flat (tr_graph t) (tr_graph t').
Proof. apply set_spans_flat. Qed.
Lemma shift_flat f t n t' : gok t -> shift_terminal f t n = Ret t' -> flat (tr_graph t) (tr_graph t').
Proof.
  intros G H. unfold shift_terminal in H. apply bind_inv in H as (w & Hw & H). apply bind_inv in H as (tm & _ & H). apply bind_inv in H as (o & _ & H).
  destruct o; injection H as <-; [by eapply put_flat|by apply flat_refl].
Qed.

(** ** Editing functions *)
Lemma move_flat t n i t' : gok t -> move_terminal t n i = Ret t' -> flat (tr_graph t) (tr_graph t').
Proof.
  intros G H. unfold move_terminal in H. apply bind_inv in H as (w & Hw & H). destruct (Nat.eqb _ _); [injection H as <-; by apply flat_refl|].
  apply bind_inv in H as (? & _ & H). apply bind_inv in H as (? & _ & H). apply bind_inv in H as (t1 & H1 & H).
  assert (F : flat (tr_graph t) (tr_graph t1)).
  { revert H1. apply (foldM_flat tr_graph); [|done]. intros s y s'. apply shift_flat. }
  apply bind_inv in H as (w1 & Hw1 & H). apply bind_inv in H as (w2 & _ & H).
  eapply flat_trans; [exact F|]. pose proof (put_flat t1 n w1 w2 (fl_ok _ _ F) Hw1) as F2.
  eapply flat_trans; [exact F2|]. eapply reset_flat; [apply F2|done].
Qed.
Lemma push_grow t f p t' r : gok t -> push_terminal t f p = Ret (t', r) -> grow (tr_graph t) (tr_graph t').
Proof.
  intros G H. unfold push_terminal in H. apply bind_inv in H as (w & Hw & H). destruct (is_terminal w); [injection H as <- <-; by apply grow_refl|].
  cbn [tr_graph set_nterm] in H. destruct (add_node _ _) as [g n] eqn:Ha. apply add_node_grow in Ha as [Ha Hl]; [|done].
  apply bind_inv in H as ([g2 e] & He & H). apply add_edge_flat in He as [He _]; [|apply Ha|done].
  apply bind_inv in H as (w1 & Hw1 & H). apply bind_inv in H as (w2 & _ & H). injection H as <- <-.
  eapply grow_trans; [exact Ha|]. eapply grow_trans; [apply flat_grow, He|]. apply flat_grow.
  eapply (put_flat (set_graph (set_nterm t (tr_nterm t + 1)) g2)); [apply He|exact Hw1].
Qed.
Lemma insert_grow t p tm t' r : gok t -> insert_terminal t p tm = Ret (t', r) -> grow (tr_graph t) (tr_graph t').
Proof.
  intros G H. unfold insert_terminal in H. apply bind_inv in H as (w & Hw & H).
  apply bind_inv in H as (? & _ & H). apply bind_inv in H as (? & _ & H). apply bind_inv in H as (t1 & H1 & H).
  assert (F : flat (tr_graph t) (tr_graph t1)).
  { revert H1. apply (foldM_flat tr_graph); [|done]. intros s y s'. apply shift_flat. }
  destruct (add_node _ _) as [g n] eqn:Ha. apply add_node_grow in Ha as [Ha Hl]; [|apply F].
  apply bind_inv in H as ([g2 e] & He & H). apply add_edge_flat in He as [He _]; [|apply Ha|done].
  apply bind_inv in H as (t2 & H2 & H). injection H as <- <-. simpl.
  apply reset_flat in H2; [|apply He]. simpl in H2.
  eapply grow_trans; [apply flat_grow, F|]. eapply grow_trans; [exact Ha|]. apply flat_grow. by eapply flat_trans.
Qed.
Lemma above_grow t c l t' n : gok t -> insert_unary_above t c l = Ret (t', n) -> grow (tr_graph t) (tr_graph t').
Proof.
  intros G H. unfold insert_unary_above in H. apply bind_inv in H as (w & Hw & H).
  destruct (add_node _ _) as [g ins] eqn:Ha. apply add_node_grow in Ha as [Ha Hl]; [|done]. cbn [tr_graph set_graph] in H.
  eapply grow_trans; [exact Ha|]. apply flat_grow.
  destruct (parent (set_graph t g) c) as [[p e]|] eqn:Hp.
  - apply parent_prim in Hp; [|apply Ha]. simpl in Hp. destruct (remove_edge g e) as [g2 o] eqn:Hr.
    apply remove_edge_flat in Hr as [F1 P1]; [|apply Ha|done]. apply bind_inv in H as (old & Ho & H). destruct o as [w1|]; [|done]. injection Ho as ->.
    apply bind_inv in H as ([g3 e3] & He3 & H). apply add_edge_flat in He3 as [F2 _]; [|apply F1|done].
    apply bind_inv in H as ([g4 e4] & He4 & H). apply add_edge_flat in He4 as [F3 _]; [|apply F2|by apply P1].
    injection H as <- <-. simpl. eapply flat_trans; [exact F1|]. by eapply flat_trans.
  - apply bind_inv in H as ([g3 e3] & He3 & H). apply add_edge_flat in He3 as [F2 _]; [|apply Ha|done]. injection H as <- <-.
    simpl. by destruct (Nat.eqb _ _).
Qed.
Lemma below_grow t c l t' r : gok t -> insert_unary_below t c l = Ret (t', r) -> grow (tr_graph t) (tr_graph t').
Proof.
  intros G H. unfold insert_unary_below in H. apply bind_inv in H as (w & Hw & H).
  destruct (is_terminal w); [injection H as <- <-; by apply grow_refl|].
  destruct (add_node _ _) as [g ins] eqn:Ha. apply add_node_grow in Ha as [Ha Hl]; [|done].
  apply bind_inv in H as ([g2 e2] & He & H). apply add_edge_flat in He as [F1 _]; [|apply Ha|done].
  apply bind_inv in H as (g3 & H3 & H). injection H as <- <-. simpl.
  eapply grow_trans; [exact Ha|]. apply flat_grow. eapply flat_trans; [exact F1|].
  assert (HP : Forall (fun ce => prim g2 ce.2) (children t c)).
  { apply Forall_forall. intros [x e] Hx. apply children_prim in Hx; [|done]. simpl. eapply prim_flat; [exact F1|]. by eapply prim_grow. }
  revert H3 HP. generalize (children t c). pose proof (fl_ok _ _ F1) as G2. clear -G2. revert g2 G2.
  intros g2 G2 chs. revert g2 G2. induction chs as [|[x e] chs IH]; intros g2 G2 H HP; simpl in H; [injection H as <-; by apply flat_refl|].
  apply Forall_cons in HP as [HP1 HP]. simpl in HP1. destruct (remove_edge g2 e) as [g4 o] eqn:Hr.
  apply remove_edge_flat in Hr as [F1 _]; [|done|done].
  apply bind_inv in H as (g6 & H6 & H). apply bind_inv in H6 as (old & _ & H6). apply bind_inv in H6 as ([g5 e5] & He & H6). injection H6 as <-.
  apply add_edge_flat in He as [F2 _]; [|apply F1|done].
  pose proof (flat_trans _ _ _ F1 F2) as F. eapply flat_trans; [exact F|]. apply IH; [apply F|done|].
  eapply Forall_impl; [exact HP|]. intros y. by apply prim_flat.
Qed.
Lemma remove_shrink t n t' r : gok t -> remove_node t n = Ret (t', r) -> shrink (tr_graph t) (tr_graph t').
Proof.
  intros G H. unfold remove_node in H. apply bind_inv in H as (w & Hw & H). destruct (is_terminal w).
  - unfold remove_terminal in H. apply bind_inv in H as (w' & _ & H). apply bind_inv in H as (? & _ & H).
    destruct (siblings t n); [injection H as <- <-; by apply shrink_refl|].
    apply bind_inv in H as ([t1 r1] & H1 & H). apply compact_flat in H1; [|done].
    destruct r1; [|injection H as <- <-; by apply flat_shrink].
    apply bind_inv in H as (t2 & H2 & H). apply reset_flat in H2; [|apply H1]. apply bind_inv in H as (k & _ & H).
    cbn [tr_graph set_nterm] in H. destruct (remove_node_g _ _) as [g o] eqn:Hr. apply bind_inv in H as (w2 & _ & H). injection H as <- <-.
    apply remove_node_shrink in Hr; [|apply H2]. simpl. eapply shrink_trans; [apply flat_shrink, H1|]. eapply shrink_trans; [apply flat_shrink, H2|done].
  - unfold remove_nonterminal in H. apply bind_inv in H as (w' & _ & H). apply bind_inv in H as (? & _ & H).
    assert (HF : forall t1 t2 r2, gok t1 -> (let '(g, o) := remove_node_g (tr_graph t1) n in
       w ← unwrap o; let t := set_graph t1 g in
       match sp_skips (node_span w) with
       | Some _ => k ← sub_chk (tr_ndisc t) 1; Ret (set_ndisc t k, Ok w)
       | None => Ret (t, Ok w) end) = Ret (t2, r2) -> shrink (tr_graph t1) (tr_graph t2)).
    { intros t1 t2 r2 G1 H1. destruct (remove_node_g _ _) as [g o] eqn:Hr. apply remove_node_shrink in Hr; [|done].
      apply bind_inv in H1 as (w1 & _ & H1). destruct (sp_skips _); [apply bind_inv in H1 as (k & _ & H1)|]; injection H1 as <- <-; done. }
    destruct (parent t n) as [[p e]|].
    + apply bind_inv in H as (g & Hg & H).
      assert (F : flat (tr_graph t) g).
      { revert Hg. apply (foldM_flat (fun g => g)); [|done]. intros s y s' Gs Hs. apply bind_inv in Hs as ([g2 e2] & He & Hs). injection Hs as <-.
        by apply add_edge_flat in He as [He _]. }
      eapply shrink_trans; [apply flat_shrink, F|]. apply (HF (set_graph t g) t' r); [apply F|done].
    + destruct (children t (tr_root t)) as [|[c e] [|]]; [injection H as <- <-; by apply shrink_refl| |injection H as <- <-; by apply shrink_refl].
      by apply (HF (set_root t c) t' r).
Qed.
Lemma coverage_flat cov t n t' : gok t -> remove_coverage cov t n = Ret t' -> flat (tr_graph t) (tr_graph t').
Proof.
  intros G H. unfold remove_coverage in H. apply bind_inv in H as (w & Hw & H). apply bind_inv in H as (nt & _ & H).
  apply bind_inv in H as ([s a] & _ & H). apply projectivity_graph in H as ->. by eapply put_flat.
Qed.
Lemma climb_flat fuel : forall t np c cl path t', gok t -> reattach_climb fuel t np c cl path = Ret t' -> flat (tr_graph t) (tr_graph t').
Proof.
  induction fuel as [|fuel IH]; intros t np c cl path t' G H; cbn [reattach_climb] in H;
    destruct (climber_next cl t) as [[[n e] cl']|]; try done; try (injection H as <-; by apply flat_refl).
  destruct (Nat.eqb _ _); [|by eapply IH]. apply bind_inv in H as (w & _ & H). revert H. apply (foldM_flat tr_graph); [|done].
  intros s x s'. apply coverage_flat.
Qed.
Lemma merge_flat fuel : forall t cs cl t', gok t -> reattach_merge fuel t cs cl = Ret t' -> flat (tr_graph t) (tr_graph t').
Proof.
  induction fuel as [|fuel IH]; intros t cs cl t' G H; cbn [reattach_merge] in H;
    destruct (climber_next cl t) as [[[n e] cl']|]; try done; try (injection H as <-; by apply flat_refl).
  apply bind_inv in H as (w & Hw & H). destruct (span_covers _ _); [injection H as <-; by apply flat_refl|].
  apply bind_inv in H as (nt & _ & H). apply bind_inv in H as (s & _ & H). apply bind_inv in H as (t1 & H1 & H).
  apply projectivity_graph in H1. pose proof (put_flat t n w (NT (nt_set_span nt s)) G Hw) as F. rewrite <- H1 in F.
  eapply flat_trans; [exact F|]. eapply IH; [apply F|done].
Qed.
(** Moving a node along a primary edge; the new edge and the returned edge are primary. *)
Lemma reattach_flat t p e t' r : gok t -> prim (tr_graph t) e -> reattach_node t p e = Ret (t', r) ->
  flat (tr_graph t) (tr_graph t') /\ forall e' w, r = Ok (e', w) -> prim (tr_graph t') e' /\ is_primary w = true.
Proof.
  intros G P H. unfold reattach_node in H. apply bind_inv in H as (u0 & _ & H). apply bind_inv in H as (x & Hx & H).
  destruct (find_edge _ _) as [y|] eqn:Hf; [|done]. injection Hx as ->. apply find_edge_Some in Hf as [Hx He]; [|done].
  destruct (Nat.eqb _ _); [injection H as <- <-; split; [by apply flat_refl|done]|].
  pose proof (P x Hx He) as HP. destruct (e_w x); [|done]. clear HP. unfold reattach_primary in H.
  apply bind_inv in H as (z & _ & H). apply bind_inv in H as (w & _ & H). destruct (is_terminal w); [injection H as <- <-; split; [by apply flat_refl|done]|].
  destruct (_ && _)%bool; [injection H as <- <-; split; [by apply flat_refl|done]|].
  apply bind_inv in H as (t1 & H1 & H). apply climb_flat in H1; [|done].
  destruct (remove_edge _ _) as [g2 o] eqn:Hr. apply remove_edge_flat in Hr as [F2 P2]; [|apply H1|by eapply prim_flat].
  apply bind_inv in H as (old & Ho & H). destruct o as [w1|]; [|done]. injection Ho as ->.
  apply bind_inv in H as ([g3 e3] & He3 & H). apply add_edge_flat in He3 as [F3 P3]; [|apply F2|done].
  apply bind_inv in H as (w2 & _ & H). apply bind_inv in H as (t4 & H4 & H). apply merge_flat in H4; [|apply F3]. simpl in H4. injection H as <- <-.
  split; [eapply flat_trans; [exact H1|]; eapply flat_trans; [exact F2|]; by eapply flat_trans|].
  intros e' w' [= <- <-]. split; [by eapply prim_flat|by apply P2].
Qed.

(** ** Transformations *)
Lemma foldR_put_flat {A} (f : tree -> A -> outcome (tree * result ())) l t t' r :
  (forall t x t' r, gok t -> f t x = Ret (t', r) -> flat (tr_graph t) (tr_graph t')) ->
  gok t -> foldR f l t = Ret (t', r) -> flat (tr_graph t) (tr_graph t').
Proof. intros Hf. apply (foldR_flat tr_graph). intros s x s' r'. apply Hf. Qed.
Lemma annotate_pos_flat tags : forall t l t' r, gok t -> annotate_pos_loop t l tags = Ret (t', r) -> flat (tr_graph t) (tr_graph t').
Proof.
  intros t l. revert t tags. induction l as [|n l IH]; intros t tags t' r G H; cbn [annotate_pos_loop] in H.
  - destruct tags; injection H as <- <-; by apply flat_refl.
  - destruct tags as [|x tags]; [injection H as <- <-; by apply flat_refl|]. apply bind_inv in H as (t1 & H1 & H).
    unfold set_term_label in H1. apply bind_inv in H1 as (w & Hw & H1). apply bind_inv in H1 as (tm & _ & H1). injection H1 as <-.
    pose proof (put_flat t n w (T (mk_term (t_form tm) x (t_lemma tm) (t_feats tm) (t_span tm))) G Hw) as F.
    eapply flat_trans; [exact F|]. eapply IH; [apply F|exact H].
Qed.
Lemma annotate_parent_flat t k t' r : gok t -> annotate_parent_tag t k = Ret (t', r) -> flat (tr_graph t) (tr_graph t').
Proof.
  apply foldR_put_flat. clear. intros t n t' r G H. destruct (parent t n) as [[p e]|]; [|injection H as <- <-; by apply flat_refl].
  apply bind_inv in H as (wp & _ & H). apply bind_inv in H as (wn & Hn & H). injection H as <- <-. by eapply put_flat.
Qed.
Lemma filter_shrink t f t' r : gok t -> filter_nonterminals t f = Ret (t', r) -> shrink (tr_graph t) (tr_graph t').
Proof.
  apply (foldR_shrink tr_graph). clear. intros t n t' r G H. destruct (negb _); [|injection H as <- <-; by apply shrink_refl].
  apply bind_inv in H as ([t1 r1] & H1 & H). apply remove_shrink in H1; [|done]. destruct r1; injection H as <- <-; done.
Qed.
Lemma dummies_shrink t t' r : gok t -> remove_dummy_nodes t = Ret (t', r) -> shrink (tr_graph t) (tr_graph t').
Proof.
  intros G H. unfold remove_dummy_nodes in H. apply bind_inv in H as ([t1 r1] & H1 & H). apply filter_shrink in H1; [|done].
  destruct r1; [|injection H as <- <-; done]. apply bind_inv in H as (w & _ & H). destruct (_ && _)%bool; [|injection H as <- <-; done].
  apply bind_inv in H as ([t2 r2] & H2 & H). apply remove_shrink in H2; [|apply H1]. eapply shrink_trans; [exact H1|].
  destruct r2; injection H as <- <-; done.
Qed.
Lemma dissolve_shrink fuel : forall t a n c t', gok t -> dissolve_chain fuel t a n c = Ret t' -> shrink (tr_graph t) (tr_graph t').
Proof.
  induction fuel as [|fuel IH]; intros t a n c t' G H; cbn [dissolve_chain] in H; destruct (Nat.eqb _ _); try done; try (injection H as <-; by apply shrink_refl).
  destruct (climber_next c t) as [[[p e] c']|]; [|by eapply IH]. destruct (_ && _)%bool; [|by eapply IH].
  apply bind_inv in H as ([t1 r1] & H1 & H). apply remove_shrink in H1; [|done]. apply bind_inv in H as (w & _ & H).
  eapply shrink_trans; [exact H1|]. eapply IH; [apply H1|exact H].
Qed.
Lemma reattach_terminals_shrink t a f t' : gok t -> reattach_terminals t a f = Ret t' -> shrink (tr_graph t) (tr_graph t').
Proof.
  intros G H. unfold reattach_terminals in H. apply bind_inv in H as (t1 & H1 & H).
  assert (F : shrink (tr_graph t) (tr_graph t1)).
  { revert H1. apply (foldM_shrink tr_graph); [|done]. clear. intros t n t' G H. unfold reattach_terminals_step in H.
    destruct (f t n); [|injection H as <-; by apply shrink_refl]. apply bind_inv in H as (t1 & H1 & H). apply dissolve_shrink in H1; [|done].
    apply bind_inv in H as ([p e] & Hp & H). destruct (parent t1 n) as [[p' e']|] eqn:Hpar; [|done]. injection Hp as -> ->.
    apply bind_inv in H as ([t2 r2] & H2 & H). apply reattach_flat in H2 as [F2 _]; [|apply H1|eapply parent_prim; [apply H1|exact Hpar]].
    apply bind_inv in H as (? & _ & H). injection H as <-. eapply shrink_trans; [exact H1|]. by apply flat_shrink. }
  apply reset_flat in H; [|apply F]. eapply shrink_trans; [exact F|]. by apply flat_shrink.
Qed.
Lemma collapse_climb_shrink fuel : forall t d cur c t', gok t -> collapse_climb fuel t d cur c = Ret t' -> shrink (tr_graph t) (tr_graph t').
Proof.
  induction fuel as [|fuel IH]; intros t d cur c t' G H; cbn [collapse_climb] in H; destruct (climber_next c t) as [[[n e] c']|]; try done; try (injection H as <-; by apply shrink_refl).
  apply bind_inv in H as (wn & _ & H). apply bind_inv in H as (wc & _ & H). destruct (span_eqb _ _); [|by eapply IH].
  apply bind_inv in H as ([t1 r1] & H1 & H). apply remove_shrink in H1; [|done]. apply bind_inv in H as (w & _ & H). apply bind_inv in H as (wc' & Hc & H).
  pose proof (put_flat t1 cur wc' (push_chain wc' d (node_label w)) (sk_ok _ _ H1) Hc) as F.
  eapply shrink_trans; [exact H1|]. eapply shrink_trans; [apply flat_shrink, F|]. eapply IH; [apply F|exact H].
Qed.
Lemma collapse_shrink t d t' r : gok t -> collapse_unary_chains t d = Ret (t', r) -> shrink (tr_graph t) (tr_graph t').
Proof.
  intros G H. unfold collapse_unary_chains in H. apply bind_inv in H as (t1 & H1 & H). injection H as <- <-.
  revert H1. apply (foldM_shrink tr_graph); [|done]. clear. intros t n t'. apply collapse_climb_shrink.
Qed.
Lemma insert_chain_grow ls : forall t cur t', gok t -> insert_chain t cur ls = Ret t' -> grow (tr_graph t) (tr_graph t').
Proof.
  induction ls as [|l ls IH]; intros t cur t' G H; simpl in H; [injection H as <-; by apply grow_refl|].
  apply bind_inv in H as ([t1 c1] & H1 & H). apply above_grow in H1; [|done]. eapply grow_trans; [exact H1|]. eapply IH; [apply H1|exact H].
Qed.
Lemma restore_grow t d t' r : gok t -> restore_unary_chains t d = Ret (t', r) -> grow (tr_graph t) (tr_graph t').
Proof.
  apply (foldR_grow tr_graph). clear. intros t n t' r G H. apply bind_inv in H as (w & Hw & H).
  destruct (feats_remove _ _) as [m o]. pose proof (put_flat t n w (node_set_feats w (Some m)) G Hw) as F.
  destruct o as [[chain|]|].
  - apply bind_inv in H as (t1 & H1 & H). injection H as <- <-. apply insert_chain_grow in H1; [|apply F].
    eapply grow_trans; [apply flat_grow, F|exact H1].
  - injection H as <- <-. by apply flat_grow.
  - injection H as <- <-. by apply flat_grow.
Qed.
Lemma insert_runs_grow chs : forall t vis l ins prev t' v r, gok t -> Forall (fun ce => prim (tr_graph t) ce.2) chs ->
  insert_runs t vis l ins prev chs = Ret (t', v, r) -> grow (tr_graph t) (tr_graph t').
Proof.
  induction chs as [|[c e] chs IH]; intros t vis l ins prev t' v r G HP H; cbn [insert_runs] in H; [injection H as <- <- <-; by apply grow_refl|].
  apply Forall_cons in HP as [P1 HP]. simpl in P1. apply bind_inv in H as (w & _ & H). destruct (Nat.eqb _ _).
  - apply bind_inv in H as ([t1 r1] & H1 & H). apply reattach_flat in H1 as [F _]; [|done|done].
    destruct r1; [|injection H as <- <- <-; by apply flat_grow]. eapply grow_trans; [apply flat_grow, F|]. eapply IH; [apply F| |exact H].
    eapply Forall_impl; [exact HP|]. intros y. by apply prim_flat.
  - apply bind_inv in H as ([t1 i1] & H1 & H). apply above_grow in H1; [|done]. eapply grow_trans; [exact H1|]. eapply IH; [apply H1| |exact H].
    eapply Forall_impl; [exact HP|]. intros y. by apply prim_grow.
Qed.
Lemma insert_intermediate_grow t f t' r : gok t -> insert_intermediate t f = Ret (t', r) -> grow (tr_graph t) (tr_graph t').
Proof.
  intros G H. unfold insert_intermediate in H. apply bind_inv in H as ([tv r1] & H1 & H). injection H as <- <-.
  change (tr_graph t) with ((fun tv : tree * gset nat => tr_graph tv.1) (t, ∅)). revert H1.
  apply (foldR_grow (fun tv : tree * gset nat => tr_graph tv.1)); [|done]. clear. intros [t vis] n [t' v'] r G H. simpl in *.
  destruct (bool_decide _); [injection H as <- <- <-; by apply grow_refl|].
  destruct (parent t n) as [[p e]|]; [|injection H as <- <- <-; by apply grow_refl].
  destruct (f t p) as [l|]; [|injection H as <- <- <-; by apply grow_refl].
  destruct (sort_by _ _) as [|[c e1] rest] eqn:Hs; [done|].
  apply bind_inv in H as ([t1 i1] & H1 & H). apply above_grow in H1; [|done]. apply bind_inv in H as (w & _ & H).
  eapply grow_trans; [exact H1|]. eapply insert_runs_grow; [apply H1| |exact H].
  apply Forall_forall. intros [x y] Hx. simpl. eapply prim_grow; [exact H1|].
  assert (Hin : (x, y) ∈ (c, e1) :: rest) by (by right). rewrite <- Hs in Hin. apply elem_of_sort_by, elem_of_list_filter in Hin as [_ Hin].
  by eapply children_prim.
Qed.
Lemma find_handle_prim fuel : forall t s prev c h e q, gok t -> c = parent t prev ->
  find_handle fuel t s prev c = Ret (Some (h, e, q)) -> prim (tr_graph t) e.
Proof.
  induction fuel as [|fuel IH]; intros t s prev c h e q G -> H; cbn [find_handle climber_next] in H.
  - destruct (parent t prev) as [[a b]|]; done.
  - destruct (parent t prev) as [[a b]|] eqn:Hp; [|done]. cbn [climber_next] in H. apply bind_inv in H as (w & _ & H).
    destruct (span_covers _ _); [injection H as <- <- <-; by eapply parent_prim|]. eapply (IH t s a); [done|reflexivity|exact H].
Qed.
Lemma fill_gaps_flat fuel : forall choose terms a t v k t' v' k', gok t -> fill_gaps fuel choose terms a t v k = Ret (t', v', k') -> flat (tr_graph t) (tr_graph t').
Proof.
  induction fuel as [|fuel IH]; intros choose terms a t v k t' v' k' G H; cbn [fill_gaps] in H; apply bind_inv in H as (w & _ & H);
    destruct (sp_skips _) as [s|]; try (injection H as <- <- <-; by apply flat_refl);
    destruct (Nat.eqb _ _); try (injection H as <- <- <-; by apply flat_refl); [done|].
  apply bind_inv in H as (sk & _ & H). apply bind_inv in H as (o & Ho & H). destruct o as [[[h e] q]|]; [|by eapply IH].
  apply find_handle_prim in Ho; [|done|done].
  apply bind_inv in H as ([t1 r1] & H1 & H). apply reattach_flat in H1 as [F HP]; [|done|done].
  apply bind_inv in H as ([ne ed] & Hr & H). destruct r1 as [[ne' ed']|]; [|done]. injection Hr as -> ->.
  destruct (HP _ _ eq_refl) as [P1 P2]. apply bind_inv in H as (we & _ & H).
  pose proof (set_weight_flat _ ne ed (fl_ok _ _ F) P1 P2) as F2. pose proof (flat_trans _ _ _ F F2) as F3.
  eapply flat_trans; [exact F3|]. eapply (IH _ _ _ (put_edge t1 ne ed)); [apply F3|exact H].
Qed.
Lemma projectivize_flat choose t t' v : gok t -> projectivize choose t = Ret (t', v) -> flat (tr_graph t) (tr_graph t').
Proof.
  intros G H. unfold projectivize in H. destruct (negb _); [|injection H as <- <-; by apply flat_refl].
  apply bind_inv in H as ([t1 v1] & H1 & H). injection H as <- <-. revert H1. generalize (dfs_post_new (tr_root t)) (@nil report) 0 (sort_indices t (terminals t)).
  generalize (S (node_count (tr_graph t))). intros fuel. revert t G. induction fuel as [|fuel IH]; intros t G d vs k terms H; [done|].
  cbn [proj_loop] in H. apply bind_inv in H as (o & _ & H). destruct o as [[a d']|]; [|injection H as <- <-; by apply flat_refl].
  apply bind_inv in H as ([[t2 v2] k2] & H2 & H). apply fill_gaps_flat in H2; [|done].
  destruct (is_projective t2); [injection H as <- <-; done|]. eapply flat_trans; [exact H2|]. eapply IH; [apply H2|exact H].
Qed.
Lemma climb_map_flat {S} fuel (f : tree * S -> nat -> nat -> outcome (tree * S * bool)) :
  (forall ts p n ts' b, gok ts.1 -> f ts p n = Ret (ts', b) -> flat (tr_graph ts.1) (tr_graph ts'.1)) ->
  forall ts n c ts', gok ts.1 -> climb_map fuel f ts n c = Ret ts' -> flat (tr_graph ts.1) (tr_graph ts'.1).
Proof.
  intros Hf. induction fuel as [|fuel IH]; intros ts n c ts' G H; cbn [climb_map] in H; destruct (climber_next c ts.1) as [[[p e] c']|]; try done;
    try (injection H as <-; by apply flat_refl).
  apply bind_inv in H as ([ts1 b] & H1 & H). apply Hf in H1; [|done]. destruct b; [injection H as <-; done|].
  eapply flat_trans; [exact H1|]. eapply IH; [apply H1|exact H].
Qed.
Lemma map_climber_flat {S} (f : tree * S -> nat -> nat -> outcome (tree * S * bool)) :
  (forall ts p n ts' b, gok ts.1 -> f ts p n = Ret (ts', b) -> flat (tr_graph ts.1) (tr_graph ts'.1)) ->
  forall ts ts', gok ts.1 -> map_climber_path f ts = Ret ts' -> flat (tr_graph ts.1) (tr_graph ts'.1).
Proof.
  intros Hf ts ts'. apply (foldM_flat (fun ts : tree * S => tr_graph ts.1)). intros s n s'. by apply climb_map_flat.
Qed.
Lemma project_tag_flat t k f t' : gok t -> project_tag_set t k f = Ret t' -> flat (tr_graph t) (tr_graph t').
Proof.
  intros G H. unfold project_tag_set in H. destruct (map_climber_path _ _) as [[t1 u]| |] eqn:E; try done. simpl in H. injection H as <-.
  apply (map_climber_flat _) in E; [done| |done]. clear. intros [t []] p n [t' []] b G H. simpl in *. destruct (f t p); [|injection H as <- <-; by apply flat_refl].
  apply bind_inv in H as (wp & _ & H). apply bind_inv in H as (wn & Hn & H). injection H as <- <-. by eapply put_flat.
Qed.
Lemma project_ids_flat t k f t' : gok t -> project_ids t k f = Ret t' -> flat (tr_graph t) (tr_graph t').
Proof.
  intros G H. unfold project_ids in H. destruct (map_climber_path _ _) as [[t1 u]| |] eqn:E; try done. simpl in H. injection H as <-.
  apply (map_climber_flat _) in E; [done| |done]. clear. intros [t m] p n [t' m'] b G H. simpl in *. destruct (f t p); [|injection H as <- <- <-; by apply flat_refl].
  destruct (match m !! p with Some i => (i, m) | None => _ end) as [id m1]. apply bind_inv in H as (wn & Hn & H). injection H as <- <- <-. by eapply put_flat.
Qed.
Lemma annotate_abs_flat t t' r : gok t -> annotate_absolute t = Ret (t', r) -> flat (tr_graph t) (tr_graph t').
Proof.
  intros G H. unfold annotate_absolute in H. destruct (negb _); [injection H as <- <-; by apply flat_refl|].
  revert t G H. intros t. generalize (sort_indices t (terminals t)). intros l. revert t. induction l as [|n l IH]; intros t G H; cbn [annotate_abs_loop] in H.
  - injection H as <- <-. by apply flat_refl.
  - apply bind_inv in H as (o & _ & H). destruct o as [o|]; [|injection H as <- <-; by apply flat_refl]. apply bind_inv in H as (w & Hw & H).
    match type of H with annotate_abs_loop (put_node _ _ ?w') _ = _ => pose proof (put_flat t n w w' G Hw) as F end.
    eapply flat_trans; [exact F|]. apply IH; [apply F|exact H].
Qed.
Lemma annotate_rel_flat t t' r : gok t -> annotate_relative t = Ret (t', r) -> flat (tr_graph t) (tr_graph t').
Proof.
  intros G H. unfold annotate_relative in H. destruct (negb _); [injection H as <- <-; by apply flat_refl|].
  revert t G H. intros t. generalize (sort_indices t (terminals t)) 0%Z. intros l. revert t. induction l as [|n l IH]; intros t z G H; cbn [annotate_rel_loop] in H.
  - injection H as <- <-. by apply flat_refl.
  - apply bind_inv in H as (o & _ & H). destruct o as [o|]; [|injection H as <- <-; by apply flat_refl]. apply bind_inv in H as ([a z'] & _ & H). apply bind_inv in H as (w & Hw & H).
    match type of H with annotate_rel_loop (put_node _ _ ?w') _ _ = _ => pose proof (put_flat t n w w' G Hw) as F end.
    eapply flat_trans; [exact F|]. eapply IH; [apply F|exact H].
Qed.
