(** Secondary edges: which of them survive an edit, a transformation, a run of the conversion tool. *)
From Coq Require Import Lia.
From Verif Require Import ModModel EncModel Api ConvModel TreeSpec BaseProofs GraphProofs SortProofs Ordered PropsTree PropsMod PropsPtb SecProofs.
Local Arguments lit : simpl never.

(** *** Specification *)

(** [r] is a secondary edge of [t]: identity, ends and label. *)
Definition sec_edge (t : tree) (r : erec) : Prop := r ∈ edges t /\ is_primary (e_w r) = false.
(** No secondary edge is added, lost or changed. *)
Definition secs_same (t t' : tree) : Prop := forall r, sec_edge t' r <-> sec_edge t r.
(** Exactly the secondary edges of a removed node are lost. *)
Definition secs_follow (t t' : tree) : Prop :=
  (forall n, is_Some (nodes t' !! n) -> is_Some (nodes t !! n)) /\
  forall r, sec_edge t' r <-> sec_edge t r /\ is_Some (nodes t' !! e_src r) /\ is_Some (nodes t' !! e_tgt r).
(** The call does not name a secondary edge. *)
Definition about_primary (t : tree) (o : op) : Prop :=
  match o with
  | OReattach _ e | OEditEdge e _ => forall r, sec_edge t r -> e_id r <> e
  | OAddSec _ _ _ | ORemSec _ => False
  | _ => True
  end.
Definition is_remove (o : op) : bool := match o with ORemove _ => true | _ => false end.

(** *** Proofs *)
Lemma grow_same t t' : grow (tr_graph t) (tr_graph t') -> secs_same t t'.
Proof. intros [_ _ H] r. unfold sec_edge. split; intros [H1 H2]; (split; [|done]); by apply (H r H2). Qed.
Lemma flat_same t t' : flat (tr_graph t) (tr_graph t') -> secs_same t t'.
Proof. intros H. by apply grow_same, flat_grow. Qed.
Lemma shrink_follow t t' : shrink (tr_graph t) (tr_graph t') -> secs_follow t t'.
Proof.
  intros [_ H1 H2]. split; [exact H1|]. intros r. unfold sec_edge. split.
  - intros [H S]. apply (H2 r S) in H as (A & B & C). done.
  - intros ([H S] & B & C). split; [|done]. by apply (H2 r S).
Qed.
Lemma prim_of t e : (forall r, sec_edge t r -> e_id r <> e) -> prim (tr_graph t) e.
Proof. intros H r Hr He. destruct (is_primary (e_w r)) eqn:P; [done|]. by destruct (H r (conj Hr P)). Qed.

Lemma run_sec o t t' : gok t -> about_primary t o -> run o t = Ret t' ->
  shrink (tr_graph t) (tr_graph t') /\ is_remove o = true \/ grow (tr_graph t) (tr_graph t') /\ is_remove o = false.
Proof.
  intros G A H. destruct o as [f p|p f ps i|n i|c l|n l|n|np e|p c l|e|n lb fe|n fo ps le fe|e l]; simpl in H, A; try done.
  - apply bind_inv in H as ([t1 r] & H & [= <-]). right. split; [by eapply push_grow|done].
  - apply bind_inv in H as ([t1 r] & H & [= <-]). right. split; [by eapply insert_grow|done].
  - right. split; [by eapply flat_grow, move_flat|done].
  - apply bind_inv in H as ([t1 r] & H & [= <-]). right. split; [by eapply above_grow|done].
  - apply bind_inv in H as ([t1 r] & H & [= <-]). right. split; [by eapply below_grow|done].
  - apply bind_inv in H as ([t1 r] & H & [= <-]). left. split; [by eapply remove_shrink|done].
  - apply bind_inv in H as ([t1 r] & H & [= <-]). right. split; [|done]. apply flat_grow.
    by eapply reattach_flat; [|apply prim_of|].
  - apply bind_inv in H as (w & Hw & H). apply bind_inv in H as (nt & _ & [= <-]). right. split; [by eapply flat_grow, put_flat|done].
  - apply bind_inv in H as (w & Hw & H). apply bind_inv in H as (nt & _ & [= <-]). right. split; [by eapply flat_grow, put_flat|done].
  - apply bind_inv in H as (w & Hw & [= <-]). right. split; [|done]. apply prim_of in A. apply flat_grow, set_weight_flat; [done|done|].
    unfold edge_at in Hw. destruct (find_edge (tr_graph t) e) as [r|] eqn:E; [|done]. injection Hw as <-.
    apply find_edge_Some in E as [E1 E2]; [|done]. specialize (A r E1 E2). by destruct (e_w r).
Qed.

(** C60: an edit that does not name a secondary edge. *)
Theorem C60_edit o t t' : graph_ok (tr_graph t) -> about_primary t o -> run o t = Ret t' ->
  (is_remove o = false -> secs_same t t') /\ (is_remove o = true -> secs_follow t t').
Proof.
  intros G A H. destruct (run_sec o t t' G A H) as [[S ->]|[S ->]]; (split; [|]); intros; try done.
  - by apply shrink_follow.
  - by apply grow_same.
Qed.
Print Assumptions C60_edit.

(** C60: histories of such edits. *)
Inductive history : list op -> tree -> tree -> Prop :=
| history_nil t : history [] t t
| history_cons o ops t t1 t2 : about_primary t o -> run o t = Ret t1 -> history ops t1 t2 -> history (o :: ops) t t2.
Theorem C60_history ops t t' : graph_ok (tr_graph t) -> history ops t t' ->
  (forall r, sec_edge t' r -> sec_edge t r) /\ (Forall (fun o => is_remove o = false) ops -> secs_same t t').
Proof.
  intros G H. induction H as [t|o ops t t1 t2 A H _ IH]; [done|].
  destruct (run_sec o t t1 G A H) as [[S E]|[S E]]; (destruct IH as [I1 I2]; [apply S|]); split.
  - intros r Hr%I1. by apply (shrink_follow _ _ S).
  - intros F. apply Forall_cons in F as [F _]. congruence.
  - intros r Hr%I1. by apply (grow_same _ _ S).
  - intros F. apply Forall_cons in F as [_ F]. intros r. rewrite (I2 F r). apply (grow_same _ _ S).
Qed.
Print Assumptions C60_history.

(** C60: transformations that remove no node keep every secondary edge, whether or not the call
    returns an error. *)
Theorem C60_same t t' : graph_ok (tr_graph t) ->
  (exists choose v, projectivize choose t = Ret (t', v)) \/
  (exists tags r, annotate_pos t tags = Ret (t', r)) \/
  (exists k r, annotate_parent_tag t k = Ret (t', r)) \/
  (exists k f, project_tag_set t k f = Ret t') \/
  (exists k f, project_ids t k f = Ret t') \/
  (exists f r, insert_intermediate t f = Ret (t', r)) \/
  (exists d r, restore_unary_chains t d = Ret (t', r)) \/
  (exists r, annotate_absolute t = Ret (t', r)) \/
  (exists r, annotate_relative t = Ret (t', r)) ->
  secs_same t t'.
Proof.
  intros G [(c & v & H)|[(c & v & H)|[(c & v & H)|[(c & v & H)|[(c & v & H)|[(c & v & H)|[(c & v & H)|[(v & H)|(v & H)]]]]]]]].
  - by eapply flat_same, projectivize_flat.
  - by eapply flat_same, annotate_pos_flat.
  - by eapply flat_same, annotate_parent_flat.
  - by eapply flat_same, project_tag_flat.
  - by eapply flat_same, project_ids_flat.
  - by eapply grow_same, insert_intermediate_grow.
  - by eapply grow_same, restore_grow.
  - by eapply flat_same, annotate_abs_flat.
  - by eapply flat_same, annotate_rel_flat.
Qed.
Print Assumptions C60_same.

(** C60: transformations that remove nodes. *)
Theorem C60_follow t t' : graph_ok (tr_graph t) ->
  (exists f r, filter_nonterminals t f = Ret (t', r)) \/
  (exists r, remove_dummy_nodes t = Ret (t', r)) \/
  (exists a f, reattach_terminals t a f = Ret t') \/
  (exists d r, collapse_unary_chains t d = Ret (t', r)) ->
  secs_follow t t'.
Proof.
  intros G [(f & r & H)|[(r & H)|[(a & f & H)|(d & r & H)]]].
  - by eapply shrink_follow, filter_shrink.
  - by eapply shrink_follow, dummies_shrink.
  - by eapply shrink_follow, reattach_terminals_shrink.
  - by eapply shrink_follow, collapse_shrink.
Qed.
Print Assumptions C60_follow.

(** *** The conversion tool *)
Definition subsec (g g' : graph) : Prop := graph_ok g' /\ forall r, sec r -> r ∈ g_edges g' -> r ∈ g_edges g.
Definition samesec (g g' : graph) : Prop := graph_ok g' /\ forall r, sec r -> r ∈ g_edges g' <-> r ∈ g_edges g.
Lemma shrink_sub g g' : shrink g g' -> subsec g g'.
Proof. intros [H1 _ H2]. split; [done|]. intros r S H. by apply (H2 r S). Qed.
Lemma grow_samesec g g' : grow g g' -> samesec g g'.
Proof. intros [H1 _ H2]. by split. Qed.
Lemma samesec_sub g g' : samesec g g' -> subsec g g'.
Proof. intros [H1 H2]. split; [done|]. intros r S H. by apply (H2 r S). Qed.
Lemma subsec_trans g1 g2 g3 : subsec g1 g2 -> subsec g2 g3 -> subsec g1 g3.
Proof. intros [_ H1] [G H2]. split; [done|auto]. Qed.
Lemma samesec_trans g1 g2 g3 : samesec g1 g2 -> samesec g2 g3 -> samesec g1 g3.
Proof. intros [_ H1] [G H2]. split; [done|]. intros. by rewrite H2, H1. Qed.
Lemma samesec_refl g : graph_ok g -> samesec g g.
Proof. by split. Qed.
Lemma or_exit_inv m t' : or_exit m = Ret (Ok t') -> exists r, m = Ret (t', r).
Proof. unfold or_exit. intros H. apply bind_inv in H as ([t r] & -> & H). destruct r as [[]|]; [|done]. injection H as <-. by eexists. Qed.
Lemma next_inv {A B} (m : outcome (result A)) (k : A -> outcome (result B)) b :
  next m k = Ret (Ok b) -> exists a, m = Ret (Ok a) /\ k a = Ret (Ok b).
Proof. unfold next. intros H. apply bind_inv in H as ([a|] & -> & H); [eauto|done]. Qed.

Lemma dummies_sub o t t' : gok t -> step_dummies o t = Ret (Ok t') ->
  subsec (tr_graph t) (tr_graph t') /\ (o_dummies o = false -> samesec (tr_graph t) (tr_graph t')).
Proof.
  unfold step_dummies. intros G H. destruct (o_dummies o).
  - apply or_exit_inv in H as (r & H). split; [by eapply shrink_sub, dummies_shrink|done].
  - injection H as <-. split; [by apply samesec_sub, samesec_refl|by intros; apply samesec_refl].
Qed.
(** An edge that [--sec_edges] adds. *)
Definition np_edge (r : erec) : Prop := exists l, e_w r = Secondary (Some (lit "np" ++ l)).
Lemma proj_sub choose o t t' : gok t -> step_proj choose o t = Ret (Ok t') ->
  graph_ok (tr_graph t') /\ (forall r, sec r -> r ∈ edges t -> r ∈ edges t') /\
  (forall r, sec r -> r ∈ edges t' -> r ∈ edges t \/ (o_proj o = true /\ o_sec o = true /\ np_edge r)).
Proof.
  unfold step_proj. intros G H. destruct (o_proj o); [|injection H as <-; naive_solver].
  apply bind_inv in H as ([u v] & Hu & H). apply projectivize_flat in Hu; [|done]. destruct Hu as [GU _ HU].
  destruct v as [v|]; [|injection H as <-; naive_solver]. destruct (o_sec o); [|injection H as <-; naive_solver].
  apply bind_inv in H as (u2 & H2 & [= <-]).
  assert (HH : forall v u t', gok u -> foldM (fun t (r : report) =>
      let '(p, w, c) := r in '(t, _) ← add_secondary_edge t p c (Some (np_label w)); Ret t) v u = Ret t' ->
      graph_ok (tr_graph t') /\ (forall r, sec r -> r ∈ edges u -> r ∈ edges t') /\
      (forall r, sec r -> r ∈ edges t' -> r ∈ edges u \/ np_edge r)).
  { clear. induction v as [|[[p w] c] v IH]; intros u t' G H; simpl in H; [injection H as <-; naive_solver|].
    apply bind_inv in H as (u1 & H1 & H). apply bind_inv in H1 as ([u' e] & H1 & [= <-]).
    unfold add_secondary_edge in H1. apply bind_inv in H1 as ([g e'] & H1 & [= <- <-]).
    destruct (add_edge_inv _ _ _ _ _ _ G H1) as [Ha Hb].
    destruct (add_edge_spec _ p c (Secondary (Some (np_label w))) G Ha Hb) as (g2 & e2 & H2 & G2 & _ & HE & _).
    rewrite H1 in H2. injection H2 as <- <-. destruct (IH (set_graph u g) t' G2 H) as (I1 & I2 & I3). split; [done|]. simpl in *. split.
    - intros r S Hr. apply I2; [done|]. rewrite HE. by right.
    - intros r S Hr. destruct (I3 r S Hr) as [Hr'|Hr']; [|by right]. clear Hr. rename Hr' into Hr. rewrite HE in Hr.
      apply elem_of_cons in Hr as [->|Hr]; [right|by left]. unfold np_edge, np_label. simpl. destruct (edge_label w) as [l|].
      + by exists (lit "_" ++ l).
      + by exists []. }
  apply HH in H2 as (G2 & H2 & H3); [|done]. split; [done|]. split.
  - intros r S Hr. apply H2; [done|]. by apply (HU r S).
  - intros r S Hr. destruct (H3 r S Hr) as [Hr'|Hr']; [|by right]. left. by apply (HU r S).
Qed.
Lemma pos_same pos t t' p : gok t -> step_pos pos t = Ret (Ok (t', p)) -> samesec (tr_graph t) (tr_graph t').
Proof.
  unfold step_pos. intros G H. destruct pos as [[|[s|] rest]|]; try done; [|injection H as <- <-; by apply samesec_refl].
  destruct (mapM k_pos s); [|done]. apply next_inv in H as (t1 & H1 & [= <- <-]). apply or_exit_inv in H1 as (r & H1).
  by eapply grow_samesec, flat_grow, annotate_pos_flat.
Qed.
(** Options that may remove nodes after [--projectivize]. *)
Definition cuts (o : options) : bool :=
  (bool_decide (is_Some (o_reattach o)) || bool_decide (is_Some (o_filter o)) ||
   match o_out o with OAbsolute | ORelative => true | _ => false end)%bool.
Lemma rest_sub o t t' : gok t ->
  next (step_reattach o t) (fun t => next (step_ids o t) (fun t => next (step_filter o t) (fun t =>
    next (step_insert o t) (fun t => next (step_parent o t) (fun t => step_encode o t))))) = Ret (Ok t') ->
  subsec (tr_graph t) (tr_graph t') /\ (cuts o = false -> samesec (tr_graph t) (tr_graph t')).
Proof.
  intros G H. unfold cuts.
  apply next_inv in H as (t1 & H1 & H). apply next_inv in H as (t2 & H2 & H). apply next_inv in H as (t3 & H3 & H).
  apply next_inv in H as (t4 & H4 & H). apply next_inv in H as (t5 & H5 & H6).
  assert (S1 : subsec (tr_graph t) (tr_graph t1) /\ (o_reattach o = None -> samesec (tr_graph t) (tr_graph t1))).
  { unfold step_reattach in H1. destruct (o_reattach o) as [l|].
    - apply bind_inv in H1 as (u & H1 & [= <-]). split; [by eapply shrink_sub, reattach_terminals_shrink|done].
    - injection H1 as <-. split; [by apply samesec_sub, samesec_refl|by intros; apply samesec_refl]. }
  assert (S2 : samesec (tr_graph t1) (tr_graph t2)).
  { unfold step_ids in H2. destruct (o_ids o) as [l|].
    - apply bind_inv in H2 as (u & H2 & [= <-]). apply project_ids_flat in H2; [|apply (proj1 S1)]. by apply grow_samesec, flat_grow.
    - injection H2 as <-. apply samesec_refl, (proj1 S1). }
  assert (S3 : subsec (tr_graph t2) (tr_graph t3) /\ (o_filter o = None -> samesec (tr_graph t2) (tr_graph t3))).
  { unfold step_filter in H3. destruct (o_filter o) as [l|].
    - apply or_exit_inv in H3 as (r & H3). apply filter_shrink in H3; [|apply S2]. split; [by apply shrink_sub|done].
    - injection H3 as <-. split; [apply samesec_sub, samesec_refl, S2|intros; apply samesec_refl, S2]. }
  assert (S4 : samesec (tr_graph t3) (tr_graph t4)).
  { unfold step_insert in H4. destruct (o_insert o) as [l|].
    - apply or_exit_inv in H4 as (r & H4). apply insert_intermediate_grow in H4; [|apply (proj1 S3)]. by apply grow_samesec.
    - injection H4 as <-. apply samesec_refl, (proj1 S3). }
  assert (S5 : samesec (tr_graph t4) (tr_graph t5)).
  { unfold step_parent in H5. destruct (o_parent o) as [l|].
    - apply or_exit_inv in H5 as (r & H5). apply annotate_parent_flat in H5; [|apply S4]. by apply grow_samesec, flat_grow.
    - injection H5 as <-. apply samesec_refl, S4. }
  assert (S6 : subsec (tr_graph t5) (tr_graph t') /\
     (match o_out o with OAbsolute | ORelative => true | _ => false end = false -> samesec (tr_graph t5) (tr_graph t'))).
  { unfold step_encode in H6. destruct (o_out o);
      try (injection H6 as <-; split; [apply samesec_sub, samesec_refl, S5|intros; apply samesec_refl, S5]);
      apply next_inv in H6 as (u & H6 & H7); apply or_exit_inv in H6 as (r & H6); apply or_exit_inv in H7 as (r7 & H7);
      (apply collapse_shrink in H6; [|apply S5]); (apply annotate_abs_flat in H7 || apply annotate_rel_flat in H7);
      try (apply H6); (split; [|done]); (eapply subsec_trans; [by apply shrink_sub|]); by apply samesec_sub, grow_samesec, flat_grow. }
  split.
  - eapply subsec_trans; [exact (proj1 S1)|]. eapply subsec_trans; [apply samesec_sub, S2|]. eapply subsec_trans; [exact (proj1 S3)|].
    eapply subsec_trans; [apply samesec_sub, S4|]. eapply subsec_trans; [apply samesec_sub, S5|]. exact (proj1 S6).
  - intros [[C1 C2]%orb_false_iff C3]%orb_false_iff. apply bool_decide_eq_false, eq_None_not_Some in C1. apply bool_decide_eq_false, eq_None_not_Some in C2.
    eapply samesec_trans; [by apply S1|]. eapply samesec_trans; [apply S2|]. eapply samesec_trans; [by apply S3|].
    eapply samesec_trans; [apply S4|]. eapply samesec_trans; [apply S5|]. by apply S6.
Qed.

(** C60: what the conversion tool does to the secondary edges of a tree. *)
Theorem C60_convert choose o pos t t' pos' : graph_ok (tr_graph t) ->
  convert_tree choose o pos t = Ret (Ok (t', pos')) ->
  (forall r, sec_edge t' r -> sec_edge t r \/ (o_proj o = true /\ o_sec o = true /\ np_edge r)) /\
  (o_dummies o = false -> cuts o = false -> forall r, sec_edge t r -> sec_edge t' r).
Proof.
  intros G H. unfold convert_tree in H. apply next_inv in H as (t1 & H1 & H). apply next_inv in H as (t2 & H2 & H).
  apply next_inv in H as ([t3 p3] & H3 & H). apply next_inv in H as (t4 & H4 & [= <- <-]).
  apply dummies_sub in H1 as [A1 B1]; [|done]. apply proj_sub in H2 as (G2 & A2 & B2); [|exact (proj1 A1)].
  apply pos_same in H3 as [G3 A3]; [|done]. apply rest_sub in H4 as [[G4 A4] B4]; [|done]. split.
  - intros r [Hr S]. apply (A4 r S), (A3 r S), (B2 r S) in Hr as [Hr|Hr]; [|by right]. left. split; [|done]. by apply A1.
  - intros D C r [Hr S]. split; [|done]. apply (B4 C); [done|]. apply (A3 r S), (A2 r S). by apply (B1 D).
Qed.
Print Assumptions C60_convert.

(** *** Cases *)

(** [ex_tueba] has the secondary edge 5 from node 1 (NP) to node 4 (a word below the VP, node 5). *)
Definition ex_edge : erec := mk_e 5 1 4 (Secondary None).
Definition ex_secs (t : tree) : list erec := filter (fun r => is_primary (e_w r) = false) (edges t).
Lemma ex_secs_spec t r : r ∈ ex_secs t <-> sec_edge t r.
Proof. unfold ex_secs, sec_edge. rewrite elem_of_list_filter. tauto. Qed.
Lemma ex_tueba_secs : ex_secs ex_tueba = [ex_edge].
Proof. by vm_compute. Qed.
Definition ex_secs_of (m : outcome tree) : option (list erec) := match m with Ret t => Some (ex_secs t) | _ => None end.
Example C60_edit_ex :
  graph_ok (tr_graph ex_tueba) /\ sec_edge ex_tueba ex_edge /\
  about_primary ex_tueba (OReattach 3 1) /\ ex_secs_of (run (OReattach 3 1) ex_tueba) = Some [ex_edge] /\
  ex_secs_of (run (ORemove 5) ex_tueba) = Some [ex_edge] /\ ex_secs_of (run (ORemove 1) ex_tueba) = Some [].
Proof.
  split; [apply ex_tueba_WF|]. split; [rewrite <- ex_secs_spec, ex_tueba_secs; set_solver|]. split; [|by vm_compute].
  intros r. rewrite <- ex_secs_spec, ex_tueba_secs, elem_of_list_singleton. by intros ->.
Qed.
Example C60_history_ex :
  exists t', history [OReattach 3 1; OBelow 3 (lit "X"); OEditEdge 0 None] ex_tueba t' /\ ex_secs t' = [ex_edge].
Proof.
  assert (HA : forall t e, ex_secs t = [ex_edge] -> e <> 5 -> forall r, sec_edge t r -> e_id r <> e).
  { intros t e E He r. rewrite <- ex_secs_spec, E, elem_of_list_singleton. intros ->. simpl. congruence. }
  eexists. split.
  - eapply history_cons; [refine (HA _ 1 _ _); [by vm_compute|done]|by vm_compute|].
    eapply history_cons; [exact I|by vm_compute|].
    eapply history_cons; [refine (HA _ 0 _ _); [by vm_compute|done]|by vm_compute|constructor].
  - by vm_compute.
Qed.
Example C60_same_ex :
  graph_ok (tr_graph ex_tueba) /\
  ex_secs_of ('(t, _) ← insert_intermediate ex_tueba (fun _ _ => Some (lit "X")); Ret t) = Some [ex_edge].
Proof. split; [apply ex_tueba_WF|by vm_compute]. Qed.
Example C60_follow_ex :
  ex_secs_of ('(t, _) ← filter_nonterminals ex_tueba (fun _ n => Nat.eqb n 5); Ret t) = Some [] /\
  ex_secs_of ('(t, _) ← filter_nonterminals ex_tueba (fun _ n => Nat.eqb n 1); Ret t) = Some [ex_edge] /\
  ex_secs_of ('(t, _) ← collapse_unary_chains ex_tueba (lit "_"); Ret t) = Some [ex_edge].
Proof. by vm_compute. Qed.
(** A discontinuous tree with a secondary edge: one more edge per reattachment, the old one stays. *)
Definition ex_disc_sec : tree := match run (OAddSec 1 6 None) ex_disc with Ret t => t | _ => ex_disc end.
Lemma ex_disc_sec_ok : graph_ok (tr_graph ex_disc_sec).
Proof.
  destruct (run (OAddSec 1 6 None) ex_disc) as [t| |] eqn:E; unfold ex_disc_sec; rewrite E; try apply ex_disc_WF.
  simpl in E. apply bind_inv in E as ([t1 r] & E & [= <-]). unfold add_secondary_edge in E. apply bind_inv in E as ([g e] & E & [= <- <-]).
  pose proof (wf_graph _ ex_disc_WF) as G. destruct (add_edge_inv _ _ _ _ _ _ G E) as [Ha Hb].
  destruct (add_edge_spec _ 1 6 (Secondary None) G Ha Hb) as (g2 & e2 & E2 & G2 & _). rewrite E in E2. injection E2 as <- <-. done.
Qed.
Example C60_convert_ex :
  graph_ok (tr_graph ex_disc_sec) /\ cuts (mk_opts (OBracket Simple) false true true None None [] None None [] None) = false /\
  map (fun r => (e_src r, e_tgt r, e_w r)) (ex_secs ex_disc_sec) = [(1, 6, Secondary None)] /\
  match convert_tree ex_choose (mk_opts (OBracket Simple) false true true None None [] None None [] None) None ex_disc_sec with
  | Ret (Ok (t', _)) => map (fun r => (e_src r, e_tgt r, e_w r)) (ex_secs t') = [(3, 6, Secondary (Some (lit "np"))); (1, 6, Secondary None)]
  | _ => False
  end.
Proof. split; [apply ex_disc_sec_ok|by vm_compute]. Qed.
