(** Inserting unary nodes, removing nonterminals. *)
From Coq Require Import Lia.
From Verif Require Import TreeSpec BaseProofs ShapeProofs GraphProofs DfsProofs ResetProofs ShapeOps TreeOps.

(** ** One more nonterminal *)
Lemma term_pos_insert_nt N ins nt0 m i :
  N !! ins = None -> term_pos (<[ins := NT nt0]> N) m i <-> term_pos N m i.
Proof.
  intros Hi. unfold term_pos. destruct (decide (m = ins)) as [->|Hm].
  - rewrite lookup_insert. naive_solver.
  - by rewrite lookup_insert_ne.
Qed.
Lemma terms_ok_ext N N' k :
  (forall m tm, N' !! m = Some (T tm) -> N !! m = Some (T tm)) ->
  (forall m i, term_pos N' m i <-> term_pos N m i) -> terms_ok N k -> terms_ok N' k.
Proof.
  intros H1 H2 [to1 to2 to3]. constructor.
  - intros n tm Hn. by apply (to1 n), H1.
  - intros n m i Hn%H2 Hm%H2. by apply (to2 n m i).
  - intros i Hi. destruct (to3 i Hi) as [n Hn]. exists n. by apply H2.
Qed.
Lemma terms_ok_insert_nt N ins nt0 k :
  N !! ins = None -> terms_ok N k -> terms_ok (<[ins := NT nt0]> N) k.
Proof.
  intros Hi. apply terms_ok_ext.
  - intros m tm. destruct (decide (m = ins)) as [->|Hm]; [by rewrite lookup_insert|].
    by rewrite lookup_insert_ne.
  - intros. by apply term_pos_insert_nt.
Qed.
Lemma terms_ok_delete_nt N n nt0 k :
  N !! n = Some (NT nt0) -> terms_ok N k -> terms_ok (delete n N) k.
Proof.
  intros Hi. apply terms_ok_ext.
  - intros m tm. rewrite lookup_delete_Some. tauto.
  - intros m i. unfold term_pos. split.
    + intros (tm & H & Hs). rewrite lookup_delete_Some in H. exists tm. tauto.
    + intros (tm & H & Hs). exists tm. rewrite lookup_delete_Some. split; [split; congruence|done].
Qed.
Lemma nts_ok_insert_nt N es es' ins nt0 c :
  N !! ins = None -> nts_ok N es ->
  (forall a b tm, a <> ins -> N !! b = Some (T tm) -> Dom es' a b <-> Dom es a b) ->
  (forall b tm, N !! b = Some (T tm) -> Dom es' ins b <-> Dom es c b) ->
  span_ok (nt_span nt0) -> (forall i, covers (nt_span nt0) i <-> yields N es c i) ->
  nts_ok (<[ins := NT nt0]> N) es'.
Proof.
  intros Hi Nt H1 H2 Hok Hc n nt Hn.
  destruct (decide (n = ins)) as [->|Hne].
  - rewrite lookup_insert in Hn. injection Hn as <-. split; [done|]. intros i. rewrite Hc.
    unfold yields. split; intros (m & Hm & Hp); exists m.
    + split; [|by apply term_pos_insert_nt]. destruct Hp as (tm & Hp & _). by eapply H2.
    + apply term_pos_insert_nt in Hp; [|done]. split; [|done]. destruct Hp as (tm & Hp & _).
      by eapply H2.
  - rewrite lookup_insert_ne in Hn by done. destruct (Nt n nt Hn) as [Ho Hy]. split; [done|].
    intros i. rewrite Hy. unfold yields. split; intros (m & Hm & Hp); exists m.
    + split; [|by apply term_pos_insert_nt]. destruct Hp as (tm & Hp & _). by eapply H1.
    + apply term_pos_insert_nt in Hp; [|done]. split; [|done]. destruct Hp as (tm & Hp & _).
      by eapply H1.
Qed.
Lemma nts_ok_delete_nt N es es' n nt0 :
  N !! n = Some (NT nt0) -> nts_ok N es ->
  (forall a b tm, a <> n -> N !! b = Some (T tm) -> Dom es' a b <-> Dom es a b) ->
  nts_ok (delete n N) es'.
Proof.
  intros Hn Nt H1 m nt Hm. apply lookup_delete_Some in Hm as [Hne Hm].
  destruct (Nt m nt Hm) as [Ho Hy]. split; [done|]. intros i. rewrite Hy.
  unfold yields, term_pos. split; intros (x & Hx & tm & Hp & Hs); exists x.
  - split; [by eapply H1|]. exists tm. rewrite lookup_delete_Some. split; [split; congruence|done].
  - apply lookup_delete_Some in Hp as [_ Hp]. split; [by eapply H1|]. by exists tm.
Qed.

(** ** [insert_unary_above].  The discontinuity counter is never updated. *)
Lemma insert_unary_above_ok t c w label :
  WF t -> nodes t !! c = Some w ->
  exists t' ins, insert_unary_above t c label = Ret (t', ins) /\
    WF (set_ndisc t' (tr_ndisc t + b2n (gappy w))) /\ tr_ndisc t' = tr_ndisc t /\
    nodes t !! ins = None /\
    nodes t' = <[ins := NT (nt_new label (node_span w))]> (nodes t) /\
    tr_nterm t' = tr_nterm t /\
    tr_root t' = (if decide (c = tr_root t) then ins else tr_root t) /\
    (forall a b, PE (edges t') a b <->
        (PE (edges t) a c /\ b = ins) \/ (a = ins /\ b = c) \/ (PE (edges t) a b /\ b <> c)) /\
    (forall p e, parent t c = Some (p, e) -> exists e1 e2 r0, r0 ∈ edges t /\ e_id r0 = e /\
        edges t' = mk_e e2 ins c (e_w r0) :: mk_e e1 p ins (Primary None) ::
                   filter (fun r => e_id r <> e) (edges t)) /\
    (parent t c = None -> exists e, edges t' = mk_e e ins c (Primary None) :: edges t).
Proof.
  intros W Hc. pose proof W as [G Sh Tm Nt Nd].
  unfold insert_unary_above. rewrite (node_at_Some _ _ _ Hc). simpl.
  set (nt0 := nt_new label (node_span w)).
  destruct (node_span_ok _ _ _ _ _ _ Sh Tm Nt Hc) as [Hok Hcv].
  destruct (add_node (tr_graph t) (NT nt0)) as [g1 ins] eqn:E1.
  destruct (add_node_spec _ _ _ _ G E1) as (G1 & Hi & N1 & Ed1).
  assert (Hci : c <> ins) by congruence.
  assert (Epar : parent (set_graph t g1) c = parent t c)
    by (unfold parent, in_edges; simpl; by rewrite Ed1).
  rewrite Epar.
  destruct (parent t c) as [[p e]|] eqn:Ep.
  - apply parent_Some in Ep as (r0 & Hr0 & Pr0 & Sr0 & Tr0 & Ir0); [|done].
    destruct (remove_edge_spec g1 r0 G1) as (g2 & HR & G2 & N2 & Ed2 & El2); [by rewrite Ed1|].
    simpl. rewrite <- Ir0, HR. simpl. rewrite N1 in N2. rewrite Ed1 in Ed2, El2.
    assert (Hplive : is_Some (nodes t !! p)).
    { apply (sh_live _ _ _ Sh p c). by exists r0. }
    assert (Hpi : p <> ins) by (destruct Hplive; congruence).
    destruct (add_edge_spec g2 p ins (Primary None) G2) as (g3 & e1 & -> & G3 & N3 & Ed3 & He3).
    { rewrite N2, lookup_insert_ne by done. done. }
    { rewrite N2, lookup_insert. eauto. }
    simpl. rewrite N2 in N3.
    destruct (add_edge_spec g3 ins c (e_w r0) G3) as (g4 & e2 & -> & G4 & N4 & Ed4 & He4).
    { rewrite N3, lookup_insert. eauto. }
    { rewrite N3, lookup_insert_ne by done. eauto. }
    simpl. rewrite N3 in N4.
    assert (Hes : forall r, r ∈ g_edges g4 <-> r = mk_e e1 p ins (Primary None) \/
                r = mk_e e2 ins c (e_w r0) \/ (r ∈ edges t /\ r <> r0)).
    { intros r. rewrite Ed4, Ed3, !elem_of_cons, El2. tauto. }
    assert (Hcr : c <> tr_root t).
    { intros ->. apply (sh_root_top _ _ _ Sh p). by exists r0. }
    assert (HPE := fun a b => above_PE Sh Hi Hr0 Pr0 Sr0 Tr0 Pr0 Hes a b).
    assert (Hpc : forall a, PE (edges t) a c <-> a = p).
    { intros a. split; [|intros ->; by exists r0]. intros H.
      apply (PE_parent_unique Sh _ _ _ H). by exists r0. }
    eexists _, ins. split; [reflexivity|]. simpl. split_and!; try done.
    + constructor; simpl.
      * done.
      * rewrite N4. by apply (above_shape Sh Hi Hr0 Pr0 Sr0 Tr0 Pr0 Hes).
      * rewrite N4. by apply terms_ok_insert_nt.
      * rewrite N4. eapply (nts_ok_insert_nt _ (edges t) _ _ _ c); try done.
        -- intros a b tm Ha Hb. apply (above_Dom_old Sh Hi Hr0 Pr0 Sr0 Tr0 Pr0 Hes); [done|congruence].
        -- intros b tm Hb. apply (above_Dom_from Sh Hi Hr0 Pr0 Sr0 Tr0 Pr0 Hes). congruence.
      * rewrite N4, ndisc_of_insert by done. rewrite Nd. do 2 f_equal.
    + by rewrite decide_False.
    + intros a b. rewrite HPE, Hpc. tauto.
    + intros p' e' [= <- <-]. exists e1, e2, r0. by rewrite Ed4, Ed3, Ed2.
  - assert (Hcr : c = tr_root t) by (apply (parent_None_root t c Sh); eauto).
    destruct (add_edge_spec g1 ins c (Primary None) G1) as (g2 & e & He & G2 & N2 & Ed2 & He2).
    { rewrite N1, lookup_insert. eauto. }
    { rewrite N1, lookup_insert_ne by done. eauto. }
    simpl. rewrite He. simpl. rewrite (proj2 (Nat.eqb_eq _ _) Hcr). rewrite N1 in N2.
    assert (Hes : forall r, r ∈ g_edges g2 <-> r = mk_e e ins (tr_root t) (Primary None) \/ r ∈ edges t).
    { intros r. rewrite Ed2, Ed1, <- Hcr. apply elem_of_cons. }
    assert (HPE := fun a b => rabove_PE Sh Hi Hes a b).
    eexists _, ins. split; [reflexivity|]. simpl. split_and!; try done.
    + constructor; simpl.
      * done.
      * rewrite N2. by apply (rabove_shape Sh Hi Hes).
      * rewrite N2. by apply terms_ok_insert_nt.
      * rewrite N2. eapply (nts_ok_insert_nt _ (edges t) _ _ _ c); try done.
        -- intros a b tm Ha Hb. by apply (rabove_Dom_old Sh Hi Hes).
        -- intros b tm Hb. rewrite Hcr. apply (rabove_Dom_from Sh Hi Hes). congruence.
      * rewrite N2, ndisc_of_insert by done. rewrite Nd. do 2 f_equal.
    + by rewrite decide_True.
    + intros a b. rewrite HPE. split.
      * intros [[-> ->]|H]; [right; left; by rewrite Hcr|]. right; right. split; [done|].
        intros ->. rewrite Hcr in H. by apply (sh_root_top _ _ _ Sh) in H.
      * intros [[H _]|[[-> ->]|[H _]]]; [|left; done|by right].
        rewrite Hcr in H. by apply (sh_root_top _ _ _ Sh) in H.
    + exists e. by rewrite Ed2, Ed1.
Qed.

(** ** Re-hanging a list of edges below one node *)
Definition euniq (es : list erec) : Prop :=
  forall r1 r2, r1 ∈ es -> r2 ∈ es -> is_primary (e_w r1) = true -> is_primary (e_w r2) = true ->
    e_tgt r1 = e_tgt r2 -> r1 = r2.
Definition child_of (r : erec) : nat * nat := (e_tgt r, e_id r).
Definition out_prim (t : tree) (n : nat) : list erec :=
  filter (fun r => is_primary (e_w r) = true) (out_edges (tr_graph t) n).
Lemma children_out_prim t n : children t n = map child_of (out_prim t n).
Proof. done. Qed.
Lemma elem_of_out_prim t n r :
  r ∈ out_prim t n <-> r ∈ edges t /\ is_primary (e_w r) = true /\ e_src r = n.
Proof. unfold out_prim, out_edges. rewrite !elem_of_list_filter. tauto. Qed.
Lemma out_prim_nodup t n : graph_ok (tr_graph t) -> NoDup (out_prim t n).
Proof. intros G. unfold out_prim, out_edges. by apply NoDup_filter, NoDup_filter, edges_nodup. Qed.

(** The edges [es'] are [es] with every primary edge into a target of [rs] replaced by an unlabelled
    one from [x]. *)
Record rehung (es es' : list erec) (x : nat) (rs : list erec) : Prop := {
  rh_same : forall r, is_primary (e_w r) = false \/ e_tgt r ∉ map e_tgt rs -> r ∈ es' <-> r ∈ es;
  rh_from : forall r, r ∈ es' -> is_primary (e_w r) = true -> e_tgt r ∈ map e_tgt rs ->
              e_src r = x /\ e_w r = Primary None;
  rh_to : forall b, b ∈ map e_tgt rs -> PE es' x b
}.
Lemma rehung_PE es es' x rs a b :
  rehung es es' x rs ->
  PE es' a b <-> (a = x /\ b ∈ map e_tgt rs) \/ (PE es a b /\ b ∉ map e_tgt rs).
Proof.
  intros [R1 R2 R3]. destruct (decide (b ∈ map e_tgt rs)) as [Hb|Hb].
  - split.
    + intros (r & Hr & Hp & <- & <-). left. by destruct (R2 r Hr Hp Hb) as [-> _].
    + intros [[-> H]|[_ H]]; [by apply R3|done].
  - split.
    + intros (r & Hr & Hp & <- & <-). right. split; [|done]. exists r. split; [|done].
      apply R1; [by right|done].
    + intros [[_ H]|[(r & Hr & Hp & <- & <-) _]]; [done|]. exists r. split; [|done].
      apply R1; [by right|done].
Qed.

Lemma rehang_fold x rs g :
  graph_ok g -> is_Some (g_nodes g !! x) -> NoDup (map e_tgt rs) ->
  (forall r, r ∈ rs -> r ∈ g_edges g /\ is_primary (e_w r) = true) -> euniq (g_edges g) ->
  exists g', foldM (fun g (ce : nat * nat) =>
                 let '(g, o) := remove_edge g ce.2 in
                 _ ← unwrap o;
                 '(g, _) ← add_edge g x ce.1 (Primary None);
                 Ret g) (map child_of rs) g = Ret g' /\
    graph_ok g' /\ g_nodes g' = g_nodes g /\ euniq (g_edges g') /\
    rehung (g_edges g) (g_edges g') x rs.
Proof.
  revert g. induction rs as [|r rs IH]; intros g G Hx Hnd Hin Hu.
  - exists g. simpl. split_and!; try done. constructor; set_solver.
  - simpl in Hnd. apply NoDup_cons in Hnd as [Hr Hnd].
    destruct (Hin r ltac:(set_solver)) as [Hrg Hrp].
    destruct (remove_edge_spec g r G Hrg) as (g1 & E1 & G1 & N1 & Ed1 & El1).
    simpl. rewrite E1. simpl.
    destruct (add_edge_spec g1 x (e_tgt r) (Primary None) G1) as (g2 & e & -> & G2 & N2 & Ed2 & _).
    { by rewrite N1. }
    { rewrite N1. by apply (go_ends _ G). }
    simpl.
    assert (Hel : forall r', r' ∈ g_edges g2 <-> r' = mk_e e x (e_tgt r) (Primary None) \/
                        (r' ∈ g_edges g /\ r' <> r)).
    { intros r'. rewrite Ed2, elem_of_cons, El1. done. }
    assert (Hother : forall r', r' ∈ g_edges g -> r' <> r -> is_primary (e_w r') = true -> e_tgt r' <> e_tgt r).
    { intros r' H1 H2 H3 H4. by apply H2, Hu. }
    destruct (IH g2 G2) as (g' & -> & G' & N' & U' & R').
    { by rewrite N2, N1. }
    { done. }
    { intros r' Hr'. destruct (Hin r' ltac:(set_solver)) as [H1 H2]. split; [|done].
      apply Hel. right. split; [done|]. intros ->. by apply Hr, elem_of_list_fmap_1. }
    { intros r1 r2 H1%Hel H2%Hel P1 P2 E.
      destruct H1 as [->|[H1 H1']], H2 as [->|[H2 H2']]; try done.
      - exfalso. by apply (Hother r2 H2 H2' P2).
      - exfalso. by apply (Hother r1 H1 H1' P1).
      - by apply Hu. }
    exists g'. split_and!; try done; [by rewrite N', N2, N1|].
    destruct R' as [R1 R2 R3]. constructor.
    + intros r' H. rewrite R1, Hel by (destruct H as [H|H]; [by left|right; set_solver]).
      split.
      * intros [->|[H' _]]; [|done]. destruct H as [H|H]; [done|]. simpl in H. set_solver.
      * intros H'. right. split; [done|]. intros ->. destruct H as [H|H]; [congruence|].
        simpl in H. set_solver.
    + intros r' Hr' Pr' Ht. simpl in Ht. apply elem_of_cons in Ht as [Ht|Ht]; [|by apply R2].
      apply R1 in Hr'; [|right; by rewrite Ht]. apply Hel in Hr' as [->|[H1 H2]]; [done|].
      exfalso. by apply (Hother r' H1 H2 Pr').
    + intros b Hb. simpl in Hb. destruct (decide (b ∈ map e_tgt rs)) as [Hb'|Hb']; [by apply R3|].
      apply elem_of_cons in Hb as [->|Hb]; [|done].
      exists (mk_e e x (e_tgt r) (Primary None)). split; [|done].
      apply R1; [by right|]. apply Hel. by left.
Qed.

(** ** [insert_unary_below].  The discontinuity counter is never updated. *)
Lemma insert_unary_below_err t n tm label :
  nodes t !! n = Some (T tm) -> insert_unary_below t n label = Ret (t, Err).
Proof. intros H. unfold insert_unary_below. by rewrite (node_at_Some _ _ _ H). Qed.
Lemma insert_unary_below_ok t n nt label :
  WF t -> nodes t !! n = Some (NT nt) ->
  exists t' ins, insert_unary_below t n label = Ret (t', Ok ins) /\
    WF (set_ndisc t' (tr_ndisc t + b2n (gappy (NT nt)))) /\ tr_ndisc t' = tr_ndisc t /\
    nodes t !! ins = None /\
    nodes t' = <[ins := NT (nt_new label (nt_span nt))]> (nodes t) /\
    tr_nterm t' = tr_nterm t /\ tr_root t' = tr_root t /\
    (forall a b, PE (edges t') a b <->
        (a = n /\ b = ins) \/ (a = ins /\ PE (edges t) n b) \/ (a <> n /\ PE (edges t) a b)) /\
    (forall r, is_primary (e_w r) = false \/ (~ PE (edges t) n (e_tgt r) /\ e_tgt r <> ins) ->
        r ∈ edges t' <-> r ∈ edges t).
Proof.
  intros W Hn. pose proof W as [G Sh Tm Nt Nd].
  unfold insert_unary_below. rewrite (node_at_Some _ _ _ Hn). simpl.
  set (nt0 := nt_new label (nt_span nt)).
  destruct (node_span_ok _ _ _ _ _ _ Sh Tm Nt Hn) as [Hok Hcv].
  destruct (add_node (tr_graph t) (NT nt0)) as [g1 ins] eqn:E1.
  destruct (add_node_spec _ _ _ _ G E1) as (G1 & Hi & N1 & Ed1).
  assert (Hni : n <> ins) by congruence.
  destruct (add_edge_spec g1 n ins (Primary None) G1) as (g2 & e & -> & G2 & N2 & Ed2 & He2).
  { rewrite N1, lookup_insert_ne by done. eauto. }
  { rewrite N1, lookup_insert. eauto. }
  simpl. rewrite N1 in N2. rewrite Ed1 in Ed2.
  assert (Hlive : forall a b, PE (edges t) a b -> a <> ins /\ b <> ins).
  { intros a b [[x Ha] [y Hb]]%(sh_live _ _ _ Sh). split; congruence. }
  assert (Htg : forall b, b ∈ map e_tgt (out_prim t n) <-> PE (edges t) n b).
  { intros b. rewrite <- children_fst, children_out_prim, map_map. done. }
  destruct (rehang_fold ins (out_prim t n) g2 G2) as (g3 & HF & G3 & N3 & U3 & R3).
  { rewrite N2, lookup_insert. eauto. }
  { pose proof (children_nodup t n G Sh) as H. by rewrite children_out_prim, map_map in H. }
  { intros r (Hr & Hp & _)%elem_of_out_prim. split; [|done]. rewrite Ed2. set_solver. }
  { intros r1 r2. rewrite Ed2, !elem_of_cons. intros H1 H2 P1 P2 E.
    assert (Hno : forall r, r ∈ edges t -> is_primary (e_w r) = true -> e_tgt r <> ins).
    { intros r Hr Pr. eapply (Hlive (e_src r)). by exists r. }
    destruct H1 as [->|H1], H2 as [->|H2]; try done.
    - exfalso. by apply (Hno r2 H2).
    - exfalso. by apply (Hno r1 H1).
    - by apply (sh_uniq _ _ _ Sh). }
  rewrite N2 in N3.
  rewrite children_out_prim, HF. simpl.
  assert (HPE2 : forall a b, PE (g_edges g2) a b <-> (a = n /\ b = ins) \/ PE (edges t) a b).
  { intros a b. unfold PE. rewrite Ed2. setoid_rewrite elem_of_cons. split.
    - intros (r & [->|Hr] & H); simpl in H; [left; naive_solver|right; by exists r].
    - intros [[-> ->]|(r & Hr & H)]; [eexists; split; [by left|done]|exists r; tauto]. }
  assert (HPE : forall a b, PE (g_edges g3) a b <-> (a = n /\ b = ins) \/
                      (a = ins /\ PE (edges t) n b) \/ (a <> n /\ PE (edges t) a b)).
  { intros a b. rewrite (rehung_PE _ _ _ _ _ _ R3), HPE2, Htg. split.
    - intros [H|[[H|H] Hb]]; [by right; left|by left|]. right; right. split; [|done]. intros ->. done.
    - intros [[-> ->]|[H|[Ha H]]].
      + right. split; [by left|]. intros H. by destruct (Hlive _ _ H).
      + by left.
      + right. split; [by right|]. intros H'. by apply Ha, (PE_parent_unique Sh _ _ _ H H'). }
  eexists _, ins. split; [reflexivity|]. simpl. split_and!; try done.
  - constructor; simpl.
    + done.
    + rewrite N3. eapply (below_shape Sh Hi Hn HPE); done.
    + rewrite N3. by apply terms_ok_insert_nt.
    + rewrite N3. eapply (nts_ok_insert_nt _ (edges t) _ _ _ n); try done.
      * intros a b tm Ha Hb. apply (below_Dom_old Sh Hi Hn HPE); [done|congruence].
      * intros b tm Hb. rewrite (below_Dom_from Sh Hi Hn HPE) by congruence.
        split; [tauto|]. intros H. split; [done|congruence].
    + rewrite N3, ndisc_of_insert by done. rewrite Nd. do 2 f_equal.
  - intros r H. rewrite (rh_same _ _ _ _ R3), Ed2, elem_of_cons.
    + split; [|by right]. intros [->|H']; [|done]. simpl in H. destruct H as [H|[_ H]]; done.
    + rewrite Htg. tauto.
Qed.

(** ** [remove_nonterminal] *)
(** Removing an inner node, whatever the spans are. *)
Lemma remove_nonterminal_gen t n nt p :
  graph_ok (tr_graph t) -> shape_ok (nodes t) (edges t) (tr_root t) ->
  terms_ok (nodes t) (tr_nterm t) -> tr_ndisc t = ndisc_of (nodes t) -> nodes t !! n = Some (NT nt) -> PE (edges t) p n ->
  exists t', remove_nonterminal t n = Ret (t', Ok (NT nt)) /\ graph_ok (tr_graph t') /\
    shape_ok (nodes t') (edges t') (tr_root t') /\ terms_ok (nodes t') (tr_nterm t') /\ tr_ndisc t' = ndisc_of (nodes t') /\
    nodes t' = delete n (nodes t) /\ tr_nterm t' = tr_nterm t /\ tr_root t' = tr_root t /\
    (forall a b, PE (edges t') a b <->
        (a = p /\ PE (edges t) n b) \/ (a <> n /\ b <> n /\ PE (edges t) a b)) /\
    (forall r, e_src r <> n -> e_tgt r <> n ->
       is_primary (e_w r) = false \/ ~ PE (edges t) n (e_tgt r) ->
       r ∈ edges t' <-> r ∈ edges t).
Proof.
  intros G Sh Tm Nd Hn Hpn.
  unfold remove_nonterminal. rewrite (node_at_Some _ _ _ Hn). simpl.
  destruct (proj1 (parent_PE t n p Sh) Hpn) as [e0 ->].
  assert (Hpne : p <> n) by (intros ->; by apply (PE_irrefl Sh) in Hpn).
  (* the loop adding edges *)
  assert (HF : forall cs g, graph_ok g -> g_nodes g = nodes t ->
            (forall c, c ∈ map fst cs -> is_Some (nodes t !! c)) ->
            exists g' new, foldM (fun g (ce : nat * nat) =>
                   '(g, _) ← add_edge g p ce.1 (Primary None); Ret g) cs g = Ret g' /\
              graph_ok g' /\ g_nodes g' = nodes t /\ g_edges g' = new ++ g_edges g /\
              map e_tgt new = rev (map fst cs) /\
              forall r, r ∈ new -> e_src r = p /\ e_w r = Primary None).
  { intros cs. induction cs as [|ce cs IH]; intros g Hg HN Hl.
    - exists g, []. simpl. split_and!; try done. set_solver.
    - destruct (add_edge_spec g p ce.1 (Primary None) Hg) as (g1 & e1 & E1 & G1 & N1 & Ed1 & _).
      { rewrite HN. by apply (sh_live _ _ _ Sh p n). }
      { rewrite HN. apply Hl. set_solver. }
      destruct (IH g1 G1) as (g' & new & HF & G' & N' & Ed' & Mt & Hnew).
      { by rewrite N1. } { intros c Hc. apply Hl. set_solver. }
      exists g', (new ++ [mk_e e1 p ce.1 (Primary None)]). simpl. rewrite E1. simpl.
      split_and!; try done.
      + rewrite Ed', Ed1. by rewrite <- app_assoc.
      + by rewrite map_app, Mt.
      + intros r [Hr|Hr]%elem_of_app; [by apply Hnew|]. apply elem_of_list_singleton in Hr as ->. done. }
  destruct (HF (children t n) (tr_graph t) G eq_refl) as (g1 & new & -> & G1 & N1 & Ed1 & Mt & Hnew).
  { intros c Hc%children_fst. by apply (sh_live _ _ _ Sh n c). }
  simpl.
  destruct (remove_node_g_spec g1 n (NT nt) G1) as (g2 & -> & G2 & N2 & Ed2); [by rewrite N1|].
  simpl. rewrite N1 in N2.
  assert (Htn : forall r, r ∈ new -> PE (edges t) n (e_tgt r)).
  { intros r Hr. rewrite <- children_fst, <- elem_of_list_rev, <- Mt. by apply elem_of_list_fmap_1. }
  assert (Hel : forall r, r ∈ g_edges g2 <-> (r ∈ new \/ r ∈ edges t) /\ e_src r <> n /\ e_tgt r <> n).
  { intros r. rewrite Ed2, elem_of_list_filter, Ed1, elem_of_app. tauto. }
  assert (Hself : forall b, PE (edges t) n b -> b <> n) by (intros b H ->; by apply (PE_irrefl Sh) in H).
  assert (HPE : forall a b, PE (g_edges g2) a b <->
        (a = p /\ PE (edges t) n b) \/ (a <> n /\ b <> n /\ PE (edges t) a b)).
  { intros a b. split.
    - intros (r & [[Hr|Hr] [H1 H2]]%Hel & Hp & <- & <-).
      + left. split; [by apply Hnew|by apply Htn].
      + right. split_and!; try done. by exists r.
    - intros [[-> H]|(Ha & Hb & r & Hr & Hp & <- & <-)].
      + assert (Hb : b ∈ map e_tgt new) by (rewrite Mt, elem_of_list_rev; by apply children_fst).
        apply elem_of_list_fmap in Hb as (r & -> & Hr). destruct (Hnew r Hr) as [H1 H2].
        exists r. rewrite H2. split_and!; try done. apply Hel. split_and!; [by left|congruence|by apply Hself].
      + exists r. split; [|done]. apply Hel. tauto. }
  assert (Hu : euniq (g_edges g2)).
  { intros r1 r2 ([H1|H1] & S1 & T1)%Hel ([H2|H2] & S2 & T2)%Hel P1 P2 E.
    - assert (Hnd : NoDup (map e_tgt new)) by (rewrite Mt; apply NoDup_ListNoDup, NoDup_rev, NoDup_ListNoDup, children_nodup; done).
      clear -H1 H2 E Hnd. induction new as [|x l IH]; [set_solver|].
      simpl in Hnd. apply NoDup_cons in Hnd as [Hx Hnd].
      apply elem_of_cons in H1 as [->|H1], H2 as [->|H2]; [done| | |by apply IH].
      + exfalso. apply Hx. rewrite E. by apply elem_of_list_fmap_1.
      + exfalso. apply Hx. rewrite <- E. by apply elem_of_list_fmap_1.
    - exfalso. apply S2. symmetry. apply (PE_parent_unique Sh n (e_src r2) (e_tgt r2)); [|by exists r2].
      rewrite <- E. by apply Htn.
    - exfalso. apply S1. symmetry. apply (PE_parent_unique Sh n (e_src r1) (e_tgt r1)); [|by exists r1].
      rewrite E. by apply Htn.
    - by apply (sh_uniq _ _ _ Sh). }
  assert (Sh' : shape_ok (g_nodes g2) (g_edges g2) (tr_root t)).
  { rewrite N2. by apply (splice_shape Sh Hn Hpn HPE). }
  assert (Tm' : terms_ok (g_nodes g2) (tr_nterm t)) by (rewrite N2; by eapply terms_ok_delete_nt).
  assert (Hkeep : forall r, e_src r <> n -> e_tgt r <> n ->
       is_primary (e_w r) = false \/ ~ PE (edges t) n (e_tgt r) ->
       r ∈ g_edges g2 <-> r ∈ edges t).
  { intros r H1 H2 H3. rewrite Hel. split; [|tauto]. intros [[H|H] _]; [|done].
    destruct (Hnew r H) as [_ Hw]. destruct H3 as [H3|H3]; [by rewrite Hw in H3|].
    exfalso. by apply H3, Htn. }
  pose proof (ndisc_of_delete _ _ _ Hn) as Hdel. rewrite b2n_gappy in Hdel. simpl in Hdel.
  destruct (sp_skips (nt_span nt)) eqn:Esk.
  - rewrite sub_chk_ok by lia. simpl. eexists. split; [reflexivity|]. simpl. split_and!; try done. rewrite N2. lia.
  - eexists. split; [reflexivity|]. simpl. split_and!; try done. rewrite N2. lia.
Qed.
Lemma remove_nonterminal_ok t n nt p :
  WF t -> nodes t !! n = Some (NT nt) -> PE (edges t) p n ->
  exists t', remove_nonterminal t n = Ret (t', Ok (NT nt)) /\ WF t' /\
    nodes t' = delete n (nodes t) /\ tr_nterm t' = tr_nterm t /\ tr_root t' = tr_root t /\
    (forall a b, PE (edges t') a b <->
        (a = p /\ PE (edges t) n b) \/ (a <> n /\ b <> n /\ PE (edges t) a b)) /\
    (forall r, e_src r <> n -> e_tgt r <> n ->
       is_primary (e_w r) = false \/ ~ PE (edges t) n (e_tgt r) ->
       r ∈ edges t' <-> r ∈ edges t).
Proof.
  intros W Hn Hpn. pose proof W as [G Sh Tm Nt Nd].
  destruct (remove_nonterminal_gen t n nt p G Sh Tm Nd Hn Hpn)
    as (t' & HR & G' & Sh' & Tm' & Nd' & HN & Hk & Hrt & HPE & HE).
  exists t'. split_and!; try done. constructor; try done.
  rewrite HN. eapply nts_ok_delete_nt; try done. intros a b tm Ha Hb.
  apply (splice_Dom Sh Hpn HPE); [done|congruence].
Qed.

Lemma remove_nonterminal_root_err t nt c1 c2 :
  WF t -> nodes t !! tr_root t = Some (NT nt) ->
  PE (edges t) (tr_root t) c1 -> PE (edges t) (tr_root t) c2 -> c1 <> c2 ->
  remove_nonterminal t (tr_root t) = Ret (t, Err).
Proof.
  intros W Hn H1 H2 Hne. pose proof W as [G Sh Tm Nt Nd].
  unfold remove_nonterminal. rewrite (node_at_Some _ _ _ Hn). simpl.
  rewrite (proj2 (parent_None t (tr_root t) Sh) (sh_root_top _ _ _ Sh)).
  apply children_fst in H1, H2. destruct (children t (tr_root t)) as [|[c e] [|]]; [done| |done].
  simpl in H1, H2. apply elem_of_list_singleton in H1, H2. congruence.
Qed.
Lemma remove_nonterminal_root_ok t nt c :
  WF t -> nodes t !! tr_root t = Some (NT nt) ->
  PE (edges t) (tr_root t) c -> (forall x, PE (edges t) (tr_root t) x -> x = c) ->
  exists t', remove_nonterminal t (tr_root t) = Ret (t', Ok (NT nt)) /\ WF t' /\
    nodes t' = delete (tr_root t) (nodes t) /\ tr_nterm t' = tr_nterm t /\ tr_root t' = c /\
    (forall r, r ∈ edges t' <-> r ∈ edges t /\ e_src r <> tr_root t /\ e_tgt r <> tr_root t).
Proof.
  intros W Hn Hc Honly. pose proof W as [G Sh Tm Nt Nd].
  unfold remove_nonterminal. rewrite (node_at_Some _ _ _ Hn). simpl.
  rewrite (proj2 (parent_None t (tr_root t) Sh) (sh_root_top _ _ _ Sh)).
  assert (exists e, children t (tr_root t) = [(c, e)]) as [e ->].
  { pose proof (children_nodup t (tr_root t) G Sh) as Hnd.
    pose proof (fun x => proj1 (children_fst t (tr_root t) x)) as Hin.
    apply children_fst in Hc. destruct (children t (tr_root t)) as [|[c1 e1] [|[c2 e2] l]].
    - set_solver.
    - simpl in Hc. apply elem_of_list_singleton in Hc as ->. by exists e1.
    - exfalso. assert (c1 = c) as -> by (apply Honly, Hin; set_solver).
      assert (c2 = c) as -> by (apply Honly, Hin; set_solver). simpl in Hnd.
      apply NoDup_cons in Hnd as [Hnd _]. set_solver. }
  simpl.
  destruct (remove_node_g_spec (tr_graph t) _ (NT nt) G Hn) as (g2 & -> & G2 & N2 & Ed2). simpl.
  assert (Hel : forall r, r ∈ g_edges g2 <-> r ∈ edges t /\ e_src r <> tr_root t /\ e_tgt r <> tr_root t).
  { intros r. rewrite Ed2, elem_of_list_filter. tauto. }
  assert (HPE : forall a b, PE (g_edges g2) a b <-> a <> tr_root t /\ PE (edges t) a b).
  { intros a b. split.
    - intros (r & (Hr & H1 & H2)%Hel & Hp & <- & <-). split; [done|]. by exists r.
    - intros [Ha (r & Hr & Hp & <- & <-)]. exists r. split; [|done]. apply Hel. split_and!; try done.
      intros E. apply (sh_root_top _ _ _ Sh (e_src r)). exists r. by rewrite <- E. }
  assert (Hu : euniq (g_edges g2)).
  { intros r1 r2 [H1 _]%Hel [H2 _]%Hel. by apply (sh_uniq _ _ _ Sh). }
  assert (Sh' : shape_ok (g_nodes g2) (g_edges g2) c).
  { rewrite N2. by apply (unroot_shape Sh Hc Honly HPE). }
  assert (Tm' : terms_ok (g_nodes g2) (tr_nterm t)) by (rewrite N2; by eapply terms_ok_delete_nt).
  assert (Nt' : nts_ok (g_nodes g2) (g_edges g2)).
  { rewrite N2. eapply nts_ok_delete_nt; try done. intros a b tm Ha Hb.
    by apply (unroot_Dom Sh HPE). }
  pose proof (ndisc_of_delete _ _ _ Hn) as Hdel. rewrite b2n_gappy in Hdel. simpl in Hdel.
  destruct (sp_skips (nt_span nt)) eqn:Esk.
  - rewrite sub_chk_ok by lia. simpl. eexists. split; [reflexivity|]. split_and!; try done.
    constructor; simpl; try done. rewrite N2. lia.
  - eexists. split; [reflexivity|]. split_and!; try done.
    constructor; simpl; try done. rewrite N2. lia.
Qed.
