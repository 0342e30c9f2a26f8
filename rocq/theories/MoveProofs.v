(** Renumbering terminals: [insert_terminal] and [move_terminal]. *)
From Coq Require Import Lia.
From Verif Require Import TreeSpec BaseProofs ShapeProofs GraphProofs DfsProofs ResetProofs ShapeOps TreeOps.

(** All terminals moved from position [i] to [f i]. *)
Definition repos_node (f : nat -> nat) (w : node) : node :=
  match w with T tm => T (t_set_span tm (span_of (f (t_idx tm)))) | NT nt => NT nt end.
Definition repos (f : nat -> nat) (N : gmap nat node) : gmap nat node := repos_node f <$> N.

Lemma repos_strip f N : eq_strip (repos f N) N.
Proof.
  unfold repos. rewrite <- map_fmap_compose. apply map_fmap_ext. intros i [] _; done.
Qed.
Lemma term_pos_repos f N k n j :
  terms_ok N k -> term_pos (repos f N) n j <-> exists i, term_pos N n i /\ j = f i.
Proof.
  intros Tm. unfold repos, term_pos. rewrite lookup_fmap. split.
  - intros (tm & H & Hs). apply fmap_Some in H as (w & Hw & E). destruct w as [|tm0]; [done|].
    simpl in E. injection E as ->. exists (t_idx tm0).
    destruct (term_pos_of _ _ n tm0 Tm Hw) as (_ & _ & H3).
    split; [by exists tm0|]. simpl in Hs. by injection Hs.
  - intros (i & (tm & Hw & Hs) & ->). rewrite Hw. simpl. eexists. split; [done|]. simpl.
    unfold t_idx. by rewrite Hs.
Qed.
Lemma repos_NT f N n nt : repos f N !! n = Some (NT nt) <-> N !! n = Some (NT nt).
Proof.
  unfold repos. rewrite lookup_fmap. split.
  - intros H. apply fmap_Some in H as (w & Hw & E). destruct w; [|done]. simpl in E. congruence.
  - intros ->. done.
Qed.
Lemma repos_ext f g N k :
  terms_ok N k -> (forall i, i < k -> f i = g i) -> repos f N = repos g N.
Proof.
  intros Tm H. unfold repos. apply map_fmap_ext. intros i [|tm] Hw; [done|]. simpl.
  destruct (term_pos_of _ _ _ _ Tm Hw) as (_ & Hlt & _). by rewrite H.
Qed.

(** The loop shifting a list of terminals. *)
Lemma shift_fold (h : nat -> outcome (option nat)) (f : nat -> nat) k l t :
  terms_ok (nodes t) k -> NoDup l ->
  (forall n, n ∈ l -> exists tm, nodes t !! n = Some (T tm)) ->
  (forall n tm, n ∈ l -> nodes t !! n = Some (T tm) ->
      exists o, h (t_idx tm) = Ret o /\ default (t_idx tm) o = f (t_idx tm)) ->
  exists N', foldM (shift_terminal h) l t = Ret (set_graph t (set_nodes (tr_graph t) N')) /\
    (forall n, N' !! n = if bool_decide (n ∈ l) then repos_node f <$> (nodes t !! n) else nodes t !! n).
Proof.
  intros Tm Hnd Hl Hh.
  destruct (foldM_ind (shift_terminal h)
    (fun done_ rest s => exists N', s = set_graph t (set_nodes (tr_graph t) N') /\ done_ ++ rest = l /\
       forall n, N' !! n = if bool_decide (n ∈ done_) then repos_node f <$> (nodes t !! n)
                      else nodes t !! n) l t) as (s' & Hs & N' & -> & _ & HN').
  - exists (nodes t). split_and!; [by destruct t as [[]]|done|].
    intros n. by rewrite bool_decide_false by set_solver.
  - intros done_ x rest s (N' & -> & Hdr & HN').
    assert (Hx : x ∈ l) by (rewrite <- Hdr; set_solver).
    assert (Hxd : x ∉ done_).
    { rewrite <- Hdr in Hnd. apply NoDup_app in Hnd as (_ & Hd & _). intros H.
      by apply (Hd x H); set_solver. }
    destruct (Hl x Hx) as [tm Htm]. destruct (Hh x tm Hx Htm) as (o & Ho & Hf).
    unfold shift_terminal, node_at. simpl. rewrite HN', bool_decide_false by done.
    rewrite Htm. simpl. rewrite Ho. simpl.
    destruct (term_pos_of _ _ _ _ Tm Htm) as (_ & _ & Hsp).
    destruct o as [i|]; simpl in Hf.
    + eexists. split; [reflexivity|]. exists (<[x := T (t_set_span tm (span_of i))]> N').
      split_and!; [done|by rewrite <- app_assoc|]. intros n.
      destruct (decide (n = x)) as [->|Hne].
      * rewrite lookup_insert, bool_decide_true by set_solver. rewrite Htm. simpl. by rewrite Hf.
      * rewrite lookup_insert_ne, HN' by done. destruct (decide (n ∈ done_)) as [Hd|Hd].
        -- rewrite !bool_decide_true by set_solver. done.
        -- rewrite !bool_decide_false by set_solver. done.
    + eexists. split; [reflexivity|]. exists N'.
      split_and!; [done|by rewrite <- app_assoc|]. intros n.
      destruct (decide (n = x)) as [->|Hne].
      * rewrite HN', bool_decide_false, bool_decide_true by set_solver. rewrite Htm. simpl.
        rewrite <- Hf, <- Hsp. by destruct tm.
      * rewrite HN'. destruct (decide (n ∈ done_)) as [Hd|Hd].
        -- rewrite !bool_decide_true by set_solver. done.
        -- rewrite !bool_decide_false by set_solver. done.
  - exists N'. done.
Qed.

(** ** [insert_terminal] *)
Definition ins_shift (index i : nat) : nat := if Nat.leb index i then i + 1 else i.

Lemma insert_terminal_ok t p pn tm index :
  WF t -> nodes t !! p = Some (NT pn) -> t_span tm = span_of index -> index <= tr_nterm t ->
  exists t' n e, insert_terminal t p tm = Ret (t', n) /\ WF t' /\
    nodes t !! n = None /\ nodes t' !! n = Some (T tm) /\
    eq_strip (delete n (nodes t')) (nodes t) /\
    (forall m i, m <> n -> term_pos (nodes t) m i -> term_pos (nodes t') m (ins_shift index i)) /\
    edges t' = mk_e e p n (Primary None) :: edges t /\
    tr_root t' = tr_root t /\ tr_nterm t' = tr_nterm t + 1.
Proof.
  intros W Hp Htm Hidx. pose proof W as [G Sh Tm Nt Nd]. set (k := tr_nterm t) in *.
  unfold insert_terminal. rewrite (node_at_Some _ _ _ Hp). simpl.
  rewrite Htm. simpl. fold k. destruct (Nat.leb_spec index k) as [_|]; [|lia]. simpl.
  set (h := fun pos : nat => if index <=? pos then Ret (Some (pos + 1)) else Ret None).
  destruct (shift_fold h (ins_shift index) k (terminals t) t Tm (terminals_nodup t))
    as (N1 & -> & HN1).
  { intros n Hn. by apply elem_of_terminals. }
  { intros n tm' _ _. unfold h, ins_shift. destruct (index <=? t_idx tm'); by eexists. }
  assert (N1 = repos (ins_shift index) (nodes t)) as ->.
  { apply map_eq. intros n. rewrite HN1. unfold repos. rewrite lookup_fmap.
    destruct (decide (n ∈ terminals t)) as [Hn|Hn]; [by rewrite bool_decide_true|].
    rewrite bool_decide_false by done. destruct (nodes t !! n) as [[nt|tm']|] eqn:E; try done.
    exfalso. apply Hn, elem_of_terminals; eauto. }
  set (N1 := repos (ins_shift index) (nodes t)). simpl.
  assert (G1 : graph_ok (set_nodes (tr_graph t) N1)).
  { apply set_nodes_ok; [done|]. apply (fmap_eq_dom strip), repos_strip. }
  destruct (add_node (set_nodes (tr_graph t) N1) (T tm)) as [g2 n] eqn:E2.
  destruct (add_node_spec _ _ _ _ G1 E2) as (G2 & Hn & N2 & Ed2). simpl in *.
  assert (Hp1 : N1 !! p = Some (NT pn)) by (by apply repos_NT).
  assert (Hpn : p <> n) by congruence.
  destruct (add_edge_spec g2 p n (Primary None) G2) as (g3 & e & -> & G3 & N3 & Ed3 & He).
  { rewrite N2, lookup_insert_ne by done. eauto. }
  { rewrite N2, lookup_insert. eauto. }
  simpl. rewrite N2 in N3.
  assert (Sh1 : shape_ok N1 (edges t) (tr_root t)).
  { eapply shape_ok_strip; [|exact Sh]. symmetry. apply repos_strip. }
  assert (Hes : forall r, r ∈ g_edges g3 <-> r = mk_e e p n (Primary None) \/ r ∈ edges t).
  { intros r. rewrite Ed3, Ed2. apply elem_of_cons. }
  assert (Sh3 : shape_ok (g_nodes g3) (g_edges g3) (tr_root t)).
  { rewrite N3. by eapply (add_leaf_shape Sh1). }
  assert (Htp1 : forall m i, term_pos N1 m i <-> exists j, term_pos (nodes t) m j /\ i = ins_shift index j)
    by (intros; by eapply term_pos_repos).
  assert (Htp : forall m i, term_pos (g_nodes g3) m i <->
             (m = n /\ i = index) \/ exists j, term_pos (nodes t) m j /\ i = ins_shift index j).
  { intros m i. rewrite N3, term_pos_insert, Htp1, Htm by done.
    split; (intros [[-> H]|H]; [left|by right]); split; try done; [by injection H|by subst]. }
  assert (Hbd : forall m i, term_pos (nodes t) m i -> i < k).
  { intros m i (tm' & Hm & Hs). destruct (to_pos _ _ Tm m tm' Hm) as (j & Hj & Hlt).
    rewrite Hs in Hj. by injection Hj as ->. }
  assert (Hsh : forall i, ins_shift index i <> index /\ (i < k -> ins_shift index i < k + 1)).
  { intros i. unfold ins_shift. destruct (Nat.leb_spec index i); lia. }
  assert (Tm3 : terms_ok (g_nodes g3) (k + 1)).
  { constructor.
    - intros m tm' Hm. destruct (decide (m = n)) as [->|Hmn].
      + exists index. rewrite N3, lookup_insert in Hm. injection Hm as <-. split; [done|lia].
      + rewrite N3, lookup_insert_ne in Hm by done.
        unfold N1, repos in Hm. rewrite lookup_fmap in Hm.
        apply fmap_Some in Hm as ([|tm0] & Hw & E); [done|]. simpl in E. injection E as ->.
        destruct (term_pos_of _ _ _ _ Tm Hw) as (_ & Hlt & _).
        eexists. split; [reflexivity|]. by apply Hsh.
    - intros m1 m2 i H1%Htp H2%Htp.
      destruct H1 as [[-> ->]|(j1 & H1 & E1)], H2 as [[-> E']|(j2 & H2 & E3)]; try done.
      + exfalso. by apply (proj1 (Hsh j2)).
      + exfalso. apply (proj1 (Hsh j1)). congruence.
      + assert (j1 = j2) as <-.
        { subst i. unfold ins_shift in E3.
          destruct (Nat.leb_spec index j1), (Nat.leb_spec index j2); lia. }
        by apply (to_inj _ _ Tm m1 m2 j1).
    - intros i Hi. destruct (decide (i = index)) as [->|Hne].
      { exists n. apply Htp. by left. }
      destruct (to_surj _ _ Tm (if Nat.leb index i then i - 1 else i)) as [m Hm].
      { destruct (Nat.leb_spec index i); fold k; lia. }
      exists m. apply Htp. right. eexists. split; [exact Hm|]. unfold ins_shift.
      destruct (Nat.leb_spec index i); [|destruct (Nat.leb_spec index i); lia].
      destruct (Nat.leb_spec index (i - 1)); lia. }
  destruct (reset_nt_spans_spec (set_graph t g3) (k + 1) Sh3 Tm3) as (N4 & HR & E4 & Nt4).
  unfold set_graph in *. simpl in *. rewrite HR. simpl.
  eexists _, n, e. split; [reflexivity|]. simpl. unfold set_nterm. simpl. split_and!.
  - constructor; simpl.
    + apply set_nodes_ok; [done|]. by apply (fmap_eq_dom strip_nt).
    + eapply shape_ok_strip; [|exact Sh3]. symmetry. by apply strip_of_strip_nt.
    + eapply terms_ok_strip_nt; [|exact Tm3]. by symmetry.
    + done.
    + done.
  - assert (Hd : strip <$> N1 !! n = strip <$> nodes t !! n)
      by (rewrite <- !lookup_fmap; f_equal; apply repos_strip).
    rewrite Hn in Hd. by destruct (nodes t !! n).
  - apply (eq_strip_nt_T _ _ n tm E4). by rewrite N3, lookup_insert.
  - rewrite fmap_delete. rewrite (strip_of_strip_nt _ _ E4), N3, <- fmap_delete.
    rewrite delete_insert by done. apply repos_strip.
  - intros m i Hm Hpos. apply (term_pos_strip_nt _ _ _ _ E4), Htp. right. by exists i.
  - by rewrite Ed3, Ed2.
  - done.
  - done.
Qed.

Lemma insert_terminal_panics t p w tm :
  nodes t !! p = Some w -> is_terminal w = true \/ tr_nterm t < sp_start (t_span tm) ->
  insert_terminal t p tm = Panic.
Proof.
  intros Hp H. unfold insert_terminal. rewrite (node_at_Some _ _ _ Hp). simpl.
  destruct (is_terminal w) eqn:E; [done|]. destruct H as [H|H]; [done|]. simpl.
  destruct (Nat.leb_spec (sp_start (t_span tm)) (tr_nterm t)); [lia|done].
Qed.

(** ** [move_terminal] *)
Definition move_pos (old index i : nat) : nat :=
  if Nat.eqb i old then index
  else if (Nat.leb old i && Nat.leb i index)%bool then i - 1
  else if (Nat.leb index i && Nat.leb i old)%bool then i + 1
  else i.

Lemma move_pos_spec old index i :
  (i = old -> move_pos old index i = index) /\
  (i <> old -> old <= i <= index -> move_pos old index i = i - 1) /\
  (i <> old -> index <= i <= old -> move_pos old index i = i + 1) /\
  (i <> old -> ~ (old <= i <= index) -> ~ (index <= i <= old) -> move_pos old index i = i).
Proof.
  unfold move_pos. destruct (Nat.eqb_spec i old); [split_and!; done || lia|].
  destruct (Nat.leb_spec old i), (Nat.leb_spec i index), (Nat.leb_spec index i), (Nat.leb_spec i old);
    simpl; split_and!; intros; try lia.
Qed.
Ltac move_pos_lia :=
  unfold move_pos in *;
  repeat match goal with
         | H : context [Nat.eqb ?a ?b] |- _ => destruct (Nat.eqb_spec a b)
         | |- context [Nat.eqb ?a ?b] => destruct (Nat.eqb_spec a b)
         | H : context [Nat.leb ?a ?b] |- _ => destruct (Nat.leb_spec a b)
         | |- context [Nat.leb ?a ?b] => destruct (Nat.leb_spec a b)
         end; simpl in *; try lia.

Lemma move_terminal_ok t n tm old index :
  WF t -> nodes t !! n = Some (T tm) -> t_span tm = span_of old -> index < tr_nterm t ->
  exists t', move_terminal t n index = Ret t' /\ WF t' /\
    eq_strip (nodes t') (nodes t) /\
    (forall m i, term_pos (nodes t) m i -> term_pos (nodes t') m (move_pos old index i)) /\
    edges t' = edges t /\ tr_root t' = tr_root t /\ tr_nterm t' = tr_nterm t.
Proof.
  intros W Hn Hold Hidx. pose proof W as [G Sh Tm Nt Nd]. set (k := tr_nterm t) in *.
  assert (Hti : t_idx tm = old) by (unfold t_idx; by rewrite Hold).
  assert (Hok : old < k).
  { destruct (to_pos _ _ Tm n tm Hn) as (j & Hj & Hlt). rewrite Hold in Hj. injection Hj as ->. done. }
  unfold move_terminal. rewrite (node_at_Some _ _ _ Hn). simpl. rewrite Hold. simpl.
  destruct (Nat.eqb_spec old index) as [<-|Hne].
  { exists t. split_and!; try done. intros m i Hm.
    destruct (move_pos_spec old old i) as (M1 & M2 & M3 & M4).
    destruct (decide (i = old)) as [->|]; [by rewrite M1|].
    rewrite M4; [done|done|lia|lia]. }
  fold k. destruct (Nat.ltb_spec index k); [|lia]. simpl.
  match goal with |- context [foldM (shift_terminal ?hh)] => set (h := hh) end.
  set (l := filter (fun m => m <> n) (terminals t)).
  destruct (shift_fold h (move_pos old index) k l t Tm) as (N1 & HF & HN1).
  { apply NoDup_filter, terminals_nodup. }
  { intros m Hm. apply elem_of_list_filter in Hm as [_ Hm]. by apply elem_of_terminals. }
  { intros m tm' Hm Hm'. apply elem_of_list_filter in Hm as [Hmn _].
    assert (Hio : t_idx tm' <> old).
    { intros E. apply Hmn. apply (to_inj _ _ Tm m n old).
      - rewrite <- E. by eapply term_pos_of.
      - rewrite <- Hti. by eapply term_pos_of. }
    unfold h, move_pos. destruct (Nat.eqb_spec (t_idx tm') old); [done|].
    destruct (Nat.leb_spec old (t_idx tm')), (Nat.leb_spec (t_idx tm') index); simpl.
    - rewrite sub_chk_ok by lia. simpl. by eexists.
    - destruct (Nat.leb_spec index (t_idx tm')), (Nat.leb_spec (t_idx tm') old); simpl; by eexists.
    - destruct (Nat.leb_spec index (t_idx tm')), (Nat.leb_spec (t_idx tm') old); simpl; by eexists.
    - destruct (Nat.leb_spec index (t_idx tm')), (Nat.leb_spec (t_idx tm') old); simpl; by eexists. }
  rewrite HF. simpl. unfold node_at. simpl.
  assert (Hnl : n ∉ l) by (intros H'; apply elem_of_list_filter in H'; tauto).
  rewrite HN1, bool_decide_false by done. rewrite Hn. simpl.
  replace (span_n_indices (span_of index)) with 1
    by (unfold span_n_indices, span_of; simpl; lia). simpl.
  set (N2 := repos (move_pos old index) (nodes t)).
  assert (EN2 : <[n := T (t_set_span tm (span_of index))]> N1 = N2).
  { apply map_eq. intros m. unfold N2, repos. rewrite lookup_fmap.
    destruct (decide (m = n)) as [->|Hmn].
    - rewrite lookup_insert, Hn. simpl. rewrite Hti.
      by rewrite (proj1 (move_pos_spec old index old) eq_refl).
    - rewrite lookup_insert_ne, HN1 by done.
      destruct (decide (m ∈ l)) as [Hm|Hm]; [by rewrite bool_decide_true|].
      rewrite bool_decide_false by done.
      destruct (nodes t !! m) as [[nt|tm']|] eqn:E; try done.
      exfalso. apply Hm, elem_of_list_filter. split; [done|]. apply elem_of_terminals; eauto. }
  unfold put_node, set_graph, set_node. simpl. rewrite EN2.
  assert (Sh2 : shape_ok N2 (edges t) (tr_root t)).
  { eapply shape_ok_strip; [|exact Sh]. symmetry. apply repos_strip. }
  assert (Htp : forall m i, term_pos N2 m i <-> exists j, term_pos (nodes t) m j /\ i = move_pos old index j)
    by (intros; by eapply term_pos_repos).
  assert (Tm2 : terms_ok N2 k).
  { constructor.
    - intros m tm' Hm. unfold N2, repos in Hm. rewrite lookup_fmap in Hm.
      apply fmap_Some in Hm as ([|tm0] & Hw & E); [done|]. simpl in E. injection E as ->.
      destruct (term_pos_of _ _ _ _ Tm Hw) as (_ & Hlt & _).
      eexists. split; [reflexivity|]. move_pos_lia.
    - intros m1 m2 i (j1 & H1 & E1)%Htp (j2 & H2 & E2)%Htp.
      assert (j1 = j2) as <- by (subst i; move_pos_lia). by apply (to_inj _ _ Tm m1 m2 j1).
    - intros i Hi. destruct (to_surj _ _ Tm (move_pos index old i)) as [m Hm]; [fold k; move_pos_lia|].
      exists m. apply Htp. eexists. split; [exact Hm|]. move_pos_lia. }
  match goal with |- context [reset_nt_spans ?tt] => set (t2 := tt) end.
  destruct (reset_nt_spans_spec t2 k Sh2 Tm2) as (N4 & HR & E4 & Nt4). simpl in *.
  rewrite HR. eexists. split; [reflexivity|]. simpl. split_and!.
  - constructor; simpl.
    + apply (set_nodes_ok (tr_graph t)); [done|].
      rewrite (fmap_eq_dom strip_nt _ _ E4). apply (fmap_eq_dom strip), repos_strip.
    + eapply shape_ok_strip; [|exact Sh2]. symmetry. by apply strip_of_strip_nt.
    + eapply terms_ok_strip_nt; [|exact Tm2]. by symmetry.
    + done.
    + done.
  - rewrite (strip_of_strip_nt _ _ E4). apply repos_strip.
  - intros m i Hm. apply (term_pos_strip_nt _ _ _ _ E4), Htp. by exists i.
  - done.
  - done.
  - done.
Qed.
