(** Annotating terminals: tags, parent labels, projections onto terminals. *)
From Coq Require Import Lia.
From Verif Require Import ModModel TreeSpec BaseProofs ShapeProofs GraphProofs DfsProofs ResetProofs
  ShapeOps TreeOps SortProofs EditProofs.

(** A tree with other node contents. *)
Definition set_N (t : tree) (N : gmap nat node) : tree := set_graph t (set_nodes (tr_graph t) N).
Lemma set_N_id t : set_N t (nodes t) = t.
Proof. by destruct t as [[]]. Qed.
Lemma put_set_N t N n w : put_node (set_N t N) n w = set_N t (<[n := w]> N).
Proof. done. Qed.
Lemma node_at_set_N t N n w : N !! n = Some w -> node_at (set_N t N) n = Ret w.
Proof. apply (node_at_Some (set_N t N)). Qed.
Lemma set_N_WF t N : WF t -> eq_skel N (nodes t) -> WF (set_N t N).
Proof.
  intros W E. apply (WF_relabel t); try done. apply set_nodes_ok; [by destruct W|]. by apply (fmap_eq_dom skel).
Qed.

(** ** [annotate_pos] *)
Definition retag (tm : terminal) (pos : str) : terminal :=
  mk_term (t_form tm) pos (t_lemma tm) (t_feats tm) (t_span tm).
Lemma retag_id tm : retag tm (t_pos tm) = tm.
Proof. by destruct tm. Qed.

Lemma annotate_pos_loop_spec t l : forall N tags,
  NoDup l -> (forall n, n ∈ l -> exists tm, N !! n = Some (T tm)) ->
  exists N' r, annotate_pos_loop (set_N t N) l tags = Ret (set_N t N', r) /\
    (r = Ok () <-> length tags = length l) /\
    (forall n, n ∉ l -> N' !! n = N !! n) /\
    (forall i n tm, l !! i = Some n -> N !! n = Some (T tm) ->
       N' !! n = Some (T (retag tm (default (t_pos tm) (tags !! i))))).
Proof.
  induction l as [|n l IH]; intros N tags Hnd Hl.
  - exists N. simpl. destruct tags as [|x tags]; [exists (Ok ())|exists Err]; split_and!; try done.
  - destruct tags as [|tag tags].
    { exists N, Err. simpl. split_and!; try done. intros i m tm Hi Hm.
      by rewrite retag_id. }
    apply NoDup_cons in Hnd as [Hn Hnd]. destruct (Hl n) as [tm Htm]; [set_solver|].
    cbn [annotate_pos_loop]. unfold set_term_label. rewrite (node_at_set_N _ _ _ _ Htm).
    cbn [mbind outcome_bind unwrap node_terminal]. rewrite put_set_N. fold (retag tm tag).
    destruct (IH (<[n := T (retag tm tag)]> N) tags Hnd) as (N' & r & H1 & H2 & H3 & H4).
    { intros m Hm. rewrite lookup_insert_ne by set_solver. apply Hl. set_solver. }
    exists N', r. split_and!.
    + done.
    + rewrite H2. simpl. lia.
    + intros m Hm. rewrite H3 by set_solver. by rewrite lookup_insert_ne by set_solver.
    + intros [|i] m tm' Hi Hm; simpl in Hi.
      * injection Hi as ->. rewrite H3 by done. rewrite lookup_insert. simpl. congruence.
      * simpl. apply H4; [done|]. rewrite lookup_insert_ne; [done|].
        intros ->. apply Hn. by eapply elem_of_list_lookup_2.
Qed.

Lemma annotate_pos_spec t tags :
  graph_ok (tr_graph t) ->
  exists N' r, annotate_pos t tags = Ret (set_N t N', r) /\
    (r = Ok () <-> length tags = length (terminals t)) /\ eq_skel N' (nodes t) /\
    (forall n nt, nodes t !! n = Some (NT nt) -> N' !! n = Some (NT nt)) /\
    (forall i n tm, terminals t !! i = Some n -> nodes t !! n = Some (T tm) ->
       N' !! n = Some (T (retag tm (default (t_pos tm) (tags !! i))))).
Proof.
  intros G. unfold annotate_pos.
  destruct (annotate_pos_loop_spec t (terminals t) (nodes t) tags) as (N' & r & H1 & H2 & H3 & H4).
  { apply terminals_nodup. }
  { intros n Hn. by apply elem_of_terminals. }
  rewrite set_N_id in H1. exists N', r. split_and!; try done.
  - apply map_eq. intros n. rewrite !lookup_fmap. destruct (decide (n ∈ terminals t)) as [Hn|Hn].
    + pose proof Hn as [tm Htm]%elem_of_terminals; [|done]. apply elem_of_list_lookup in Hn as [i Hi].
      by rewrite (H4 i n tm Hi Htm), Htm.
    + by rewrite H3.
  - intros n nt Hn. rewrite H3; [done|]. rewrite elem_of_terminals by done. intros [tm Htm]. congruence.
Qed.

Lemma terminals_live t : graph_ok (tr_graph t) -> forall n, n ∈ terminals t -> is_Some (nodes t !! n).
Proof. intros G n Hn. apply elem_of_terminals in Hn as [tm Htm]; eauto. Qed.

(** ** Updating the terminals one after the other *)
Definition ins_all (F : nat -> terminal) (l : list nat) (N : gmap nat node) : gmap nat node :=
  foldl (fun N n => <[n := T (F n)]> N) N l.
Lemma ins_all_lookup F l N n :
  ins_all F l N !! n = if decide (n ∈ l) then Some (T (F n)) else N !! n.
Proof.
  revert N. induction l as [|m l IH]; intros N; simpl.
  - done.
  - rewrite IH. destruct (decide (n ∈ l)) as [H|H].
    + rewrite decide_True by set_solver. done.
    + destruct (decide (n = m)) as [->|Hne].
      * rewrite decide_True by set_solver. by rewrite lookup_insert.
      * rewrite decide_False by set_solver. by rewrite lookup_insert_ne.
Qed.
(** The nodes outside [l] are as in [N0], those in [l] are terminals. *)
Definition outside (l : list nat) (N0 N : gmap nat node) : Prop :=
  (forall n, n ∉ l -> N !! n = N0 !! n) /\ (forall n, n ∈ l -> exists tm, N !! n = Some (T tm)).
Lemma outside_insert l N0 N n tm : n ∈ l -> outside l N0 N -> outside l N0 (<[n := T tm]> N).
Proof.
  intros Hn [H1 H2]. split.
  - intros m Hm. rewrite lookup_insert_ne by set_solver. by apply H1.
  - intros m Hm. destruct (decide (m = n)) as [->|Hne]; [rewrite lookup_insert; eauto|].
    rewrite lookup_insert_ne by done. by apply H2.
Qed.

Lemma foldR_terms {t} (F : nat -> terminal) (body : tree -> nat -> outcome (tree * result ())) l : forall N,
  NoDup l -> (forall n, n ∈ l -> exists tm, N !! n = Some (T tm)) ->
  (forall n N', n ∈ l -> N' !! n = N !! n -> outside l N N' ->
     body (set_N t N') n = Ret (set_N t (<[n := T (F n)]> N'), Ok ())) ->
  foldR body l (set_N t N) = Ret (set_N t (ins_all F l N), Ok ()).
Proof.
  assert (G : forall l' N N', NoDup l' ->
    (forall n N', n ∈ l' -> N' !! n = N !! n -> outside l N N' ->
       body (set_N t N') n = Ret (set_N t (<[n := T (F n)]> N'), Ok ())) ->
    (forall n, n ∈ l' -> n ∈ l) ->
    (forall n, n ∈ l' -> N' !! n = N !! n) -> outside l N N' ->
    foldR body l' (set_N t N') = Ret (set_N t (ins_all F l' N'), Ok ())).
  { induction l' as [|n l' IH]; intros N N' Hnd Hb Hsub Hag Hout; [done|].
    apply NoDup_cons in Hnd as [Hn Hnd]. cbn [foldR].
    rewrite (Hb n N') by (try done; try apply Hag; set_solver). cbn [mbind outcome_bind].
    apply (IH N); try done.
    - intros m M Hm. apply Hb. set_solver.
    - set_solver.
    - intros m Hm. rewrite lookup_insert_ne by set_solver. apply Hag. set_solver.
    - apply outside_insert; [set_solver|done]. }
  intros N Hnd Hlv Hb. by apply (G l N N).
Qed.
Lemma foldM_terms {t} (F : nat -> terminal) (upd : nat -> bool) (body : tree -> nat -> outcome tree) l : forall N,
  NoDup l -> (forall n, n ∈ l -> exists tm, N !! n = Some (T tm)) ->
  (forall n N', n ∈ l -> N' !! n = N !! n -> outside l N N' ->
     body (set_N t N') n = Ret (set_N t (if upd n then <[n := T (F n)]> N' else N'))) ->
  foldM body l (set_N t N) = Ret (set_N t (ins_all F (filter (fun n => upd n = true) l) N)).
Proof.
  assert (G : forall l' N N', NoDup l' ->
    (forall n N', n ∈ l' -> N' !! n = N !! n -> outside l N N' ->
       body (set_N t N') n = Ret (set_N t (if upd n then <[n := T (F n)]> N' else N'))) ->
    (forall n, n ∈ l' -> n ∈ l) ->
    (forall n, n ∈ l' -> N' !! n = N !! n) -> outside l N N' ->
    foldM body l' (set_N t N') = Ret (set_N t (ins_all F (filter (fun n => upd n = true) l') N'))).
  { induction l' as [|n l' IH]; intros N N' Hnd Hb Hsub Hag Hout; [done|].
    apply NoDup_cons in Hnd as [Hn Hnd]. cbn [foldM].
    rewrite (Hb n N') by (try done; try apply Hag; set_solver). cbn [mbind outcome_bind].
    rewrite filter_cons. destruct (upd n) eqn:E; simpl.
    - apply (IH N); try done.
      + intros m M Hm. apply Hb. set_solver.
      + set_solver.
      + intros m Hm. rewrite lookup_insert_ne by set_solver. apply Hag. set_solver.
      + apply outside_insert; [set_solver|done].
    - apply (IH N); try done; set_solver. }
  intros N Hnd Hlv Hb. by apply (G l N N).
Qed.

(** ** [annotate_parent_tag] *)
Definition featured (tm : terminal) (k v : str) : terminal :=
  mk_term (t_form tm) (t_pos tm) (t_lemma tm) (Some (<[k := Some v]> (default ∅ (t_feats tm)))) (t_span tm).
Lemma node_insert_feat_T tm k v : node_insert_feat (T tm) k (Some v) = T (featured tm k v).
Proof. done. Qed.

Definition parent_label (t : tree) (n : nat) : str :=
  match parent t n with
  | Some (p, _) => match nodes t !! p with Some w => node_label w | None => [] end
  | None => []
  end.
Lemma annotate_parent_tag_ok t k :
  WF t -> (forall n tm, nodes t !! n = Some (T tm) -> n <> tr_root t) ->
  exists N', annotate_parent_tag t k = Ret (set_N t N', Ok ()) /\
    (forall n nt, nodes t !! n = Some (NT nt) -> N' !! n = Some (NT nt)) /\
    (forall n, nodes t !! n = None -> N' !! n = None) /\
    (forall n tm, nodes t !! n = Some (T tm) -> N' !! n = Some (T (featured tm k (parent_label t n)))).
Proof.
  intros W Hnr. pose proof W as [G Sh Tm Nt Nd]. unfold annotate_parent_tag.
  set (F := fun n => match nodes t !! n with Some (T tm) => featured tm k (parent_label t n) | _ => term_new [] [] 0 end).
  match goal with |- context [foldR ?b _ _] =>
    pose proof (foldR_terms (t:=t) F b (terminals t) (nodes t) (terminals_nodup t) (fun n => proj1 (elem_of_terminals t n G))) as HF end.
  rewrite set_N_id in HF. rewrite HF; clear HF.
  - eexists. split; [reflexivity|]. split_and!; intros n; rewrite ins_all_lookup.
    + intros nt Hn. rewrite decide_False; [done|]. rewrite elem_of_terminals by done. intros [tm Htm]. congruence.
    + intros Hn. rewrite decide_False; [done|]. rewrite elem_of_terminals by done. intros [tm Htm]. congruence.
    + intros tm Htm. rewrite decide_True by (rewrite elem_of_terminals by done; eauto). unfold F. by rewrite Htm.
  - intros n N' Hn Hag Hout. apply elem_of_terminals in Hn as [tm Htm]; [|done].
    destruct (live_parent Sh n ltac:(eauto) (Hnr n tm Htm)) as [p Hp].
    destruct (proj1 (parent_PE t n p Sh) Hp) as [e He].
    change (parent (set_N t N') n) with (parent t n). rewrite He.
    destruct (PE_src_nt Sh p n Hp) as [nt Hnt].
    assert (HN' : N' !! p = Some (NT nt)).
    { rewrite (proj1 Hout); [done|]. rewrite elem_of_terminals by done. intros [tm' Htm']. congruence. }
    rewrite (node_at_set_N _ _ _ _ HN'). rewrite Htm in Hag.
    cbn [mbind outcome_bind]. rewrite (node_at_set_N _ _ _ _ Hag). cbn [mbind outcome_bind].
    rewrite put_set_N. unfold F. rewrite Htm, node_insert_feat_T. unfold parent_label. rewrite He, Hnt. done.
Qed.

(** A parentless terminal is the only node. *)
Lemma terminal_root t n tm :
  WF t -> nodes t !! n = Some (T tm) -> n = tr_root t -> forall m, is_Some (nodes t !! m) <-> m = n.
Proof.
  intros W Hn E m. pose proof W as [G Sh Tm Nt Nd]. split; [|intros ->; eauto].
  intros Hm. apply (sh_reach _ _ _ Sh) in Hm. rewrite <- E in Hm. by apply (term_Dom Sh n tm).
Qed.
Lemma singleton_terminals t n tm :
  WF t -> nodes t !! n = Some (T tm) -> n = tr_root t -> terminals t = [n].
Proof.
  intros W Hn E. pose proof W as [G Sh Tm Nt Nd].
  pose proof (terminals_nodup t) as Hnd.
  assert (H : forall m, m ∈ terminals t <-> m = n).
  { intros m. rewrite elem_of_terminals by done. split.
    - intros [tm' H]. apply (terminal_root t n tm W Hn E). eauto.
    - intros ->. eauto. }
  destruct (terminals t) as [|x [|y l]].
  - exfalso. specialize (H n). set_solver.
  - f_equal. apply H. set_solver.
  - exfalso. assert (x = n) by (apply H; set_solver). assert (y = n) by (apply H; set_solver).
    subst. apply NoDup_cons in Hnd as [Hnd _]. set_solver.
Qed.
Lemma annotate_parent_tag_err t k n tm :
  WF t -> nodes t !! n = Some (T tm) -> n = tr_root t -> annotate_parent_tag t k = Ret (t, Err).
Proof.
  intros W Hn E. pose proof W as [G Sh Tm Nt Nd]. unfold annotate_parent_tag.
  rewrite (singleton_terminals t n tm W Hn E). cbn [foldR].
  by rewrite (proj2 (parent_None_root t n Sh ltac:(eauto)) E).
Qed.

(** ** Closest matching ancestor *)
Definition closest (t : tree) (P : nat -> Prop) (n p : nat) : Prop :=
  tc (PE (edges t)) p n /\ P p /\ forall q, tc (PE (edges t)) q n -> P q -> Dom (edges t) q p.
Definition no_match (t : tree) (P : nat -> Prop) (n : nat) : Prop :=
  forall q, tc (PE (edges t)) q n -> ~ P q.

Lemma tc_step_r {A} (R : A -> A -> Prop) a b c : rtc R a b -> R b c -> tc R a c.
Proof. intros H1 H2. eapply tc_rtc_l; [done|]. by apply tc_once. Qed.
Lemma tc_inv_r {A} (R : A -> A -> Prop) a c : tc R a c -> exists b, rtc R a b /\ R b c.
Proof.
  induction 1 as [x y H|x y z H _ (b & Hb & Hbz)]; [by exists x|]. exists b. split; [by eapply rtc_l|done].
Qed.

(** The climb with a fixed predicate. *)
Lemma climb_find_spec fuel t f n l :
  shape_ok (nodes t) (edges t) (tr_root t) -> upath (edges t) n l -> length l <= fuel ->
  exists o, climb_find fuel t f (parent t n) = Ret o /\
    match o with
    | Some p => closest t (fun p => f t p = true) n p
    | None => no_match t (fun p => f t p = true) n
    end.
Proof.
  intros Sh Hl. revert fuel. induction Hl as [n Hn|n p l Hp Hl IH]; intros fuel Hf.
  - rewrite (proj2 (parent_None t n Sh) Hn). exists None. split; [by destruct fuel|].
    intros q (b & _ & Hb)%tc_inv_r. by apply Hn in Hb.
  - destruct (proj1 (parent_PE t n p Sh) Hp) as [e ->]. destruct fuel as [|fuel]; [simpl in Hf; lia|].
    cbn [climb_find climber_next]. destruct (f t p) eqn:E.
    + exists (Some p). split; [done|]. split_and!; [by apply tc_once|done|].
      intros q (b & Hb & Hbn)%tc_inv_r _. by rewrite (PE_parent_unique Sh b p n Hbn Hp) in Hb.
    + destruct (IH fuel) as (o & -> & H); [simpl in Hf; lia|]. exists o. split; [done|]. destruct o as [p'|].
      * destruct H as (H1 & H2 & H3). split_and!; [by eapply tc_r|done|].
        intros q (b & Hb & Hbn)%tc_inv_r Hq. rewrite (PE_parent_unique Sh b p n Hbn Hp) in Hb.
        apply rtc_tc in Hb as [->|Hb]; [congruence|]. by apply H3.
      * intros q (b & Hb & Hbn)%tc_inv_r Hq. rewrite (PE_parent_unique Sh b p n Hbn Hp) in Hb.
        apply rtc_tc in Hb as [->|Hb]; [congruence|]. by apply (H q).
Qed.
Lemma closest_unique t P n p q :
  shape_ok (nodes t) (edges t) (tr_root t) -> closest t P n p -> closest t P n q -> p = q.
Proof. intros Sh (H1 & H2 & H3) (G1 & G2 & G3). apply (Dom_antisym Sh); auto. Qed.

Lemma climb_fuel_ok t n l :
  shape_ok (nodes t) (edges t) (tr_root t) -> is_Some (nodes t !! n) -> upath (edges t) n l -> length l <= climb_fuel t.
Proof. intros Sh Hn Hl. pose proof (upath_length Sh n l Hn Hl). unfold climb_fuel, node_count. lia. Qed.

(** The answer as a function. *)
Lemma closest_dec t f n :
  WF t -> is_Some (nodes t !! n) ->
  (exists p, closest t (fun p => f t p = true) n p) \/ no_match t (fun p => f t p = true) n.
Proof.
  intros W Hn. pose proof W as [G Sh Tm Nt Nd]. destruct (upath_exists Sh n Hn) as [l Hl].
  destruct (climb_find_spec (climb_fuel t) t f n l Sh Hl (climb_fuel_ok t n l Sh Hn Hl)) as ([p|] & _ & H); eauto.
Qed.

(** ** [project_nt_indices] *)
Lemma project_nt_indices_spec t f :
  WF t ->
  exists ind, project_nt_indices t f = Ret ind /\ length ind = tr_nterm t /\
    forall n i, term_pos (nodes t) n i ->
      (forall p, closest t (fun p => f t p = true) n p -> ind !! i = Some p) /\
      (no_match t (fun p => f t p = true) n -> ind !! i = Some (tr_root t)).
Proof.
  intros W. pose proof W as [G Sh Tm Nt Nd]. unfold project_nt_indices.
  destruct (sentence_sorted t G Tm) as [HL HS]. set (sent := sort_indices t (terminals t)) in *. clearbody sent.
  assert (Hsent : forall n, n ∈ sent <-> exists i, term_pos (nodes t) n i).
  { intros n. rewrite elem_of_list_lookup. split; intros [i Hi]; exists i; by apply HS. }
  assert (Hnd : NoDup sent).
  { apply NoDup_alt. intros i j n Hi Hj. apply HS in Hi, Hj. by apply (term_pos_inj (nodes t) n). }
  set (body := fun (ind : list nat) n => _).
  assert (Gn : forall l ind, (forall n, n ∈ l -> n ∈ sent) -> NoDup l -> length ind = tr_nterm t ->
    exists ind', foldM body l ind = Ret ind' /\ length ind' = tr_nterm t /\
      forall n i, term_pos (nodes t) n i ->
        (n ∉ l -> ind' !! i = ind !! i) /\
        (n ∈ l -> (forall p, closest t (fun p => f t p = true) n p -> ind' !! i = Some p) /\
        (no_match t (fun p => f t p = true) n -> ind' !! i = ind !! i))).
  { induction l as [|n l IH]; intros ind Hsub Hn Hlen.
    - exists ind. split_and!; [done..|]. intros n i _. split; set_solver.
    - apply NoDup_cons in Hn as [Hn Hnd']. cbn [foldM].
      destruct (proj1 (Hsent n) ltac:(apply Hsub; set_solver)) as [i Hpos].
      pose proof Hpos as (tm & Htm & Hts).
      destruct (upath_exists Sh n ltac:(eauto)) as [up Hup].
      destruct (climb_find_spec (climb_fuel t) t f n up Sh Hup (climb_fuel_ok t n up Sh ltac:(eauto) Hup)) as (o & Hc & Ho).
      assert (Hi : i < tr_nterm t) by (destruct (to_pos _ _ Tm n tm Htm) as (i' & E & ?); rewrite Hts in E; injection E as ->; done).
      assert (Hbody : body ind n = Ret (match o with None => ind | Some p => <[i := p]> ind end)).
      { unfold body, climber_new. rewrite Hc. cbn [mbind outcome_bind]. destruct o as [p|]; [|done].
        rewrite (node_at_Some _ _ _ Htm). cbn [mbind outcome_bind node_span]. rewrite Hts. cbn [sp_start span_of].
        rewrite Hlen. destruct (Nat.ltb_spec i (tr_nterm t)); [done|lia]. }
      rewrite Hbody. cbn [mbind outcome_bind].
      destruct (IH (match o with None => ind | Some p => <[i := p]> ind end)) as (ind' & H1 & H2 & H3).
      + set_solver.
      + done.
      + destruct o; [by rewrite insert_length|done].
      + exists ind'. split_and!; [done..|]. intros m j Hj. destruct (H3 m j Hj) as [G1 G2]. split.
        * intros Hm. rewrite G1 by set_solver. destruct o as [p|]; [|done].
          rewrite list_lookup_insert_ne; [done|]. intros ->. apply Hm.
          rewrite (to_inj _ _ Tm m n j Hj Hpos). set_solver.
        * intros [->|Hm]%elem_of_cons.
          -- rewrite (term_pos_inj _ _ _ _ Hj Hpos) in *. rewrite G1 by done. destruct o as [p|].
             ++ rewrite list_lookup_insert by lia. split.
                ** intros p' Hp'. f_equal. by eapply closest_unique.
                ** intros Hno. exfalso. destruct Ho as (T1 & T2 & _). by apply (Hno p).
             ++ split; [|done]. intros p (T1 & T2 & _). exfalso. by apply (Ho p).
          -- destruct (G2 Hm) as [K1 K2]. split; [done|]. intros Hno. rewrite (K2 Hno).
             destruct o as [p|]; [|done]. rewrite list_lookup_insert_ne; [done|]. intros ->. apply Hn.
             by rewrite (to_inj _ _ Tm n m j Hpos Hj). }
  destruct (Gn sent (replicate (tr_nterm t) (tr_root t))) as (ind & H1 & H2 & H3); try done.
  { apply replicate_length. }
  exists ind. split_and!; [done..|]. intros n i Hi.
  destruct (H3 n i Hi) as [_ H4]. destruct (H4 (proj2 (Hsent n) (ex_intro _ i Hi))) as [K1 K2]. split; [done|].
  intros Hno. rewrite (K2 Hno). apply lookup_replicate. split; [done|].
  destruct Hi as (tm & Htm & Hts). destruct (to_pos _ _ Tm n tm Htm) as (i' & E & ?). rewrite Hts in E. injection E as ->. done.
Qed.

(** ** [map_climber_path] with a closure that mutates only when it stops *)
Lemma climb_map_find {S} fuel (P : tree -> nat -> bool)
    (g : tree * S -> nat -> nat -> outcome (tree * S * bool))
    (act : tree * S -> nat -> nat -> outcome (tree * S)) ts n c :
  (forall p, g ts p n = if P ts.1 p then x ← act ts p n; Ret (x, true) else Ret (ts, false)) ->
  climb_map fuel g ts n c =
    (o ← climb_find fuel ts.1 P c;
     match o with Some p => act ts p n | None => Ret ts end).
Proof.
  intros Hg. revert c. induction fuel as [|fuel IH]; intros c; destruct c as [[p e]|]; try done.
  cbn [climb_map climb_find climber_next]. rewrite Hg.
  destruct (P ts.1 p); cbn [mbind outcome_bind].
  - by destruct (act ts p n).
  - apply IH.
Qed.

(** Closures whose answer for a nonterminal depends on nonterminals and edges only. *)
Definition nt_based (t : tree) (f : tree -> nat -> bool) : Prop :=
  forall t' p nt, edges t' = edges t -> tr_root t' = tr_root t ->
    (forall n nt, nodes t' !! n = Some (NT nt) <-> nodes t !! n = Some (NT nt)) ->
    nodes t !! p = Some (NT nt) -> f t' p = f t p.

Lemma outside_terminals t N :
  WF t -> outside (terminals t) (nodes t) N ->
  (forall n nt, N !! n = Some (NT nt) <-> nodes t !! n = Some (NT nt)) /\ dom N = dom (nodes t).
Proof.
  intros W [H1 H3]. pose proof W as [G Sh Tm Nt Nd]. split.
  - intros n nt. destruct (decide (n ∈ terminals t)) as [Hn|Hn]; [|by rewrite H1].
    destruct (H3 n Hn) as [tm Htm]. apply elem_of_terminals in Hn as [tm' Htm']; [|done].
    split; intros; congruence.
  - apply set_eq. intros n. rewrite !elem_of_dom. destruct (decide (n ∈ terminals t)) as [Hn|Hn]; [|by rewrite H1].
    split; intros _; [by apply terminals_live|]. destruct (H3 n Hn) as [tm ->]. eauto.
Qed.

(** The chosen ancestor. *)
Definition pick (t : tree) (f : tree -> nat -> bool) (n : nat) : option nat :=
  match climb_find (climb_fuel t) t f (parent t n) with Ret o => o | _ => None end.
Lemma pick_spec t f n :
  WF t -> is_Some (nodes t !! n) ->
  climb_find (climb_fuel t) t f (parent t n) = Ret (pick t f n) /\
  match pick t f n with
  | Some p => closest t (fun p => f t p = true) n p
  | None => no_match t (fun p => f t p = true) n
  end.
Proof.
  intros W Hn. pose proof W as [G Sh Tm Nt Nd]. destruct (upath_exists Sh n Hn) as [l Hl].
  destruct (climb_find_spec (climb_fuel t) t f n l Sh Hl (climb_fuel_ok t n l Sh Hn Hl)) as (o & H1 & H2).
  unfold pick. rewrite H1. done.
Qed.
Lemma climb_find_ext fuel t t' f n :
  shape_ok (nodes t) (edges t) (tr_root t) -> edges t' = edges t ->
  (forall p nt, nodes t !! p = Some (NT nt) -> f t' p = f t p) ->
  climb_find fuel t' f (parent t n) = climb_find fuel t f (parent t n).
Proof.
  intros Sh He Hf. revert n. induction fuel as [|fuel IH]; intros n; destruct (parent t n) as [[p e]|] eqn:E; try done.
  assert (Hp : PE (edges t) p n) by (apply parent_PE; [done|]; eauto).
  destruct (sh_live _ _ _ Sh _ _ Hp) as [[[nt|tm] Hw] _]; [|by destruct (sh_leaf _ _ _ Sh _ _ n Hw)].
  cbn [climb_find climber_next]. rewrite (Hf _ _ Hw).
  replace (parent t' p) with (parent t p) by (unfold parent, in_edges; by rewrite He). by rewrite IH.
Qed.
Lemma pick_ext t N f n :
  WF t -> nt_based t f -> outside (terminals t) (nodes t) N -> is_Some (nodes t !! n) ->
  climb_find (climb_fuel (set_N t N)) (set_N t N) f (parent t n) = Ret (pick t f n).
Proof.
  intros W Hf Ho Hn. destruct (outside_terminals t N W Ho) as [H1 H2].
  rewrite (climb_find_ext _ t); [|by destruct W|done|intros p nt Hp; by eapply Hf].
  replace (climb_fuel (set_N t N)) with (climb_fuel t); [by apply pick_spec|].
  unfold climb_fuel, node_count. simpl. by rewrite <- !size_dom, H2.
Qed.

Definition label_of (t : tree) (n : nat) : str :=
  match nodes t !! n with Some w => node_label w | None => [] end.

Definition is_some {A} (o : option A) : bool := match o with Some _ => true | None => false end.

Lemma project_tag_set_spec t k f :
  WF t -> nt_based t f ->
  exists N', project_tag_set t k f = Ret (set_N t N') /\
    (forall n nt, nodes t !! n = Some (NT nt) -> N' !! n = Some (NT nt)) /\
    (forall n, nodes t !! n = None -> N' !! n = None) /\
    (forall n tm, nodes t !! n = Some (T tm) ->
       N' !! n = Some (T (match pick t f n with Some p => featured tm k (label_of t p) | None => tm end))).
Proof.
  intros W Hf. pose proof W as [G Sh Tm Nt Nd]. unfold project_tag_set, map_climber_path.
  set (F := fun n => match nodes t !! n, pick t f n with
                     | Some (T tm), Some p => featured tm k (label_of t p)
                     | _, _ => term_new [] [] 0
                     end).
  set (g := fun (ts : tree * ()) p n => _).
  (* drop the trivial state *)
  assert (Hdrop : forall l t0,
    fst <$> foldM (fun ts n => climb_map (climb_fuel ts.1) g ts n (climber_new n ts.1)) l (t0, tt)
    = foldM (fun t n => fst <$> climb_map (climb_fuel t) g (t, tt) n (climber_new n t)) l t0).
  { induction l as [|n l IH]; intros t0; [done|]. cbn [foldM]. cbn [fst].
    destruct (climb_map (climb_fuel t0) g (t0, ()) n (climber_new n t0)) as [[t1 []]| |]; try done. apply IH. }
  cbn [fst]. rewrite Hdrop. clear Hdrop.
  match goal with |- context [foldM ?b _ _] =>
    pose proof (foldM_terms (t:=t) F (fun n => is_some (pick t f n)) b (terminals t) (nodes t)
                  (terminals_nodup t) (fun n => proj1 (elem_of_terminals t n G))) as HF end.
  rewrite set_N_id in HF. rewrite HF; clear HF.
  - eexists. split; [reflexivity|]. split_and!; intros n; rewrite ins_all_lookup.
    + intros nt Hn. rewrite decide_False; [done|]. rewrite elem_of_list_filter, elem_of_terminals by done. intros [_ [tm Htm]]. congruence.
    + intros Hn. rewrite decide_False; [done|]. rewrite elem_of_list_filter, elem_of_terminals by done. intros [_ [tm Htm]]. congruence.
    + intros tm Htm. destruct (pick t f n) as [p|] eqn:E.
      * rewrite decide_True by (rewrite elem_of_list_filter, E, elem_of_terminals by done; eauto).
        unfold F. by rewrite Htm, E.
      * rewrite decide_False; [done|]. rewrite elem_of_list_filter, E. intros [? _]. done.
  - intros n N' Hn Hag Hout. pose proof Hn as [tm Htm]%elem_of_terminals; [|done].
    unfold climber_new. change (parent (set_N t N') n) with (parent t n).
    rewrite (climb_map_find _ f g (fun ts p n =>
       wp ← node_at ts.1 p; wn ← node_at ts.1 n;
       Ret (put_node ts.1 n (node_insert_feat wn k (Some (node_label wp))), tt))).
    2:{ intros p. unfold g. cbn [fst]. destruct (f (set_N t N') p); [|done].
        destruct (node_at (set_N t N') p); [|done..]. cbn [mbind outcome_bind].
        by destruct (node_at (set_N t N') n). }
    cbn [fst]. rewrite (pick_ext t N' f n W Hf Hout ltac:(eauto)). cbn [mbind outcome_bind].
    destruct (pick_spec t f n W ltac:(eauto)) as [_ Hp].
    destruct (pick t f n) as [p|] eqn:E; [|done].
    destruct Hp as (Hp & _ & _). destruct (outside_terminals t N' W Hout) as [HNT _].
    assert (Hnt : exists nt, nodes t !! p = Some (NT nt)).
    { inversion Hp as [? ? Hc|? ? ? Hc]; subst; by apply (PE_src_nt Sh p _ Hc). }
    destruct Hnt as [nt Hnt]. rewrite (node_at_set_N _ _ _ _ (proj2 (HNT p nt) Hnt)). cbn [mbind outcome_bind].
    rewrite Htm in Hag. rewrite (node_at_set_N _ _ _ _ Hag). cbn [mbind outcome_bind].
    rewrite put_set_N, node_insert_feat_T. unfold F, label_of. rewrite Htm, E, Hnt. done.
Qed.

(** ** [project_ids] *)
Definition ids_ok (m : gmap nat nat) : Prop :=
  (forall p i, m !! p = Some i -> i < size m) /\
  (forall p q i, m !! p = Some i -> m !! q = Some i -> p = q).
Definition next_id (m : gmap nat nat) (p : nat) : nat * gmap nat nat :=
  match m !! p with Some i => (i, m) | None => (size m, <[p := size m]> m) end.
Lemma next_id_spec m p :
  ids_ok m -> ids_ok (next_id m p).2 /\ (next_id m p).2 !! p = Some (next_id m p).1 /\ m ⊆ (next_id m p).2.
Proof.
  intros [H1 H2]. unfold next_id. destruct (m !! p) as [i|] eqn:E; simpl; [done|]. split_and!.
  - split.
    + intros q i. rewrite map_size_insert_None by done. destruct (decide (q = p)) as [->|Hne].
      * rewrite lookup_insert. intros [= <-]. lia.
      * rewrite lookup_insert_ne by done. intros H%H1. lia.
    + intros q r i. destruct (decide (q = p)) as [->|Hq], (decide (r = p)) as [->|Hr];
        rewrite ?lookup_insert, ?lookup_insert_ne by done; try done.
      * intros [= <-] H%H1. lia.
      * intros H%H1 [= <-]. lia.
      * apply H2.
  - apply lookup_insert.
  - by apply insert_subseteq.
Qed.

Lemma project_ids_spec t k f :
  WF t -> nt_based t f ->
  exists N' m, project_ids t k f = Ret (set_N t N') /\ ids_ok m /\
    (forall n nt, nodes t !! n = Some (NT nt) -> N' !! n = Some (NT nt)) /\
    (forall n, nodes t !! n = None -> N' !! n = None) /\
    (forall n tm, nodes t !! n = Some (T tm) ->
       match pick t f n with
       | None => N' !! n = Some (T tm)
       | Some p => exists i, m !! p = Some i /\ N' !! n = Some (T (featured tm k (print_nat i)))
       end).
Proof.
  intros W Hf. pose proof W as [G Sh Tm Nt Nd]. unfold project_ids, map_climber_path.
  set (g := fun (ts : tree * gmap nat nat) p n => _).
  set (body := fun ts n => _). cbn [fst].
  assert (Gn : forall l N m, NoDup l -> (forall n, n ∈ l -> n ∈ terminals t) ->
    (forall n, n ∈ l -> N !! n = nodes t !! n) -> outside (terminals t) (nodes t) N -> ids_ok m ->
    exists N' m', foldM body l (set_N t N, m) = Ret (set_N t N', m') /\ ids_ok m' /\ m ⊆ m' /\
      (forall n, n ∉ l -> N' !! n = N !! n) /\
      (forall n tm, n ∈ l -> nodes t !! n = Some (T tm) ->
         match pick t f n with
         | None => N' !! n = Some (T tm)
         | Some p => exists i, m' !! p = Some i /\ N' !! n = Some (T (featured tm k (print_nat i)))
         end)).
  { induction l as [|n l IH]; intros N m Hnd Hsub Hag Hout Hm.
    - exists N, m. split_and!; try done. intros n tm Hn. set_solver.
    - apply NoDup_cons in Hnd as [Hn Hnd]. cbn [foldM].
      assert (Hnt : n ∈ terminals t) by (apply Hsub; set_solver).
      pose proof Hnt as [tm Htm]%elem_of_terminals; [|done].
      pose proof (Hag n ltac:(set_solver)) as HNn. rewrite Htm in HNn.
      assert (Hb : body (set_N t N, m) n =
        Ret (match pick t f n with
             | None => (set_N t N, m)
             | Some p => (set_N t (<[n := T (featured tm k (print_nat (next_id m p).1))]> N), (next_id m p).2)
             end)).
      { unfold body, climber_new. cbn [fst]. change (parent (set_N t N) n) with (parent t n).
        rewrite (climb_map_find _ f g (fun ts p n =>
          let '(i, m) := next_id ts.2 p in
          wn ← node_at ts.1 n;
          Ret (put_node ts.1 n (node_insert_feat wn k (Some (print_nat i))), m))).
        2:{ intros p. unfold g. cbn [fst snd]. destruct (f (set_N t N) p); [|done].
            unfold next_id. destruct (m !! p); by destruct (node_at (set_N t N) n). }
        cbn [fst snd]. rewrite (pick_ext t N f n W Hf Hout ltac:(eauto)). cbn [mbind outcome_bind].
        destruct (pick t f n) as [p|]; [|done]. destruct (next_id m p) as [i m1].
        by rewrite (node_at_set_N _ _ _ _ HNn). }
      rewrite Hb. clear Hb. cbn [mbind outcome_bind]. destruct (pick t f n) as [p|] eqn:E.
      + destruct (next_id_spec m p Hm) as (I1 & I2 & I3). destruct (next_id m p) as [i m1]. simpl in *.
        destruct (IH (<[n := T (featured tm k (print_nat i))]> N) m1) as (N' & m' & H1 & H2 & H3 & H4 & H5); try done.
        * set_solver.
        * intros x Hx. rewrite lookup_insert_ne by set_solver. apply Hag. set_solver.
        * by apply outside_insert.
        * exists N', m'. split_and!; try done.
          -- by etrans.
          -- intros x Hx. rewrite H4 by set_solver. by rewrite lookup_insert_ne by set_solver.
          -- intros x tx [->|Hx]%elem_of_cons Htx; [|by apply H5].
             rewrite E. exists i. split; [by apply (lookup_weaken m1)|].
             rewrite H4 by done. rewrite lookup_insert. congruence.
      + destruct (IH N m) as (N' & m' & H1 & H2 & H3 & H4 & H5); try done.
        * set_solver.
        * intros x Hx. apply Hag. set_solver.
        * exists N', m'. split_and!; try done.
          -- intros x Hx. apply H4. set_solver.
          -- intros x tx [->|Hx]%elem_of_cons Htx; [|by apply H5].
             rewrite E. rewrite H4 by done. congruence. }
  destruct (Gn (terminals t) (nodes t) ∅) as (N' & m & H1 & H2 & _ & H4 & H5); try done.
  { apply terminals_nodup. }
  { split; [done|]. intros n Hn. by apply elem_of_terminals. }
  rewrite set_N_id in H1. rewrite H1. exists N', m. split_and!; try done.
  - intros n nt Hn. rewrite H4; [done|]. rewrite elem_of_terminals by done. intros [tm Htm]. congruence.
  - intros n Hn. rewrite H4; [done|]. rewrite elem_of_terminals by done. intros [tm Htm]. congruence.
  - intros n tm Htm. apply H5; [|done]. rewrite elem_of_terminals by done. eauto.
Qed.
