(** The NEGRA writer: numbering of nonterminals and the lines written. *)
From Coq Require Import Lia.
From Verif Require Import NegraModel TreeSpec BaseProofs ShapeProofs GraphProofs SortProofs TreeOps NegraSpec.

(** ** Padding *)
Lemma pad_spaces len to : exists k, 0 < k /\ pad len to = replicate k 32%N.
Proof.
  unfold pad. destruct (Nat.leb_spec (to + 8) len).
  - exists 1. split; [lia|done].
  - exists (to + 8 - len). split; [lia|done].
Qed.
Lemma spaced_pad f len to fs s : spaced fs s -> spaced (f :: fs) (f ++ pad len to ++ s).
Proof. intros H. destruct (pad_spaces len to) as (k & Hk & ->). by constructor. Qed.

(** ** Numbering *)
Section number.
  Context (t : tree).
  Hypothesis W : WF t.
  Local Notation N := (nodes t).
  Local Notation es := (edges t).
  Local Notation root := (tr_root t).
  Local Lemma NS : shape_ok N es root.
  Proof. apply (wf_shape _ W). Qed.

  Definition inner (n : nat) : Prop := exists nt, N !! n = Some (NT nt).
  Definition leafn (n : nat) : Prop := exists tm, N !! n = Some (T tm).

  Record num_inv (q : list nat) (v : gset nat) (count : nat) (ids : gmap nat str) (nts : list nat)
    : Prop := {
    nu_nodup : NoDup nts;
    nu_count : count = 500 + length nts;
    nu_root : ids !! root = Some (lit "0");
    nu_ids : forall i n, nts !! i = Some n -> ids !! n = Some (print_nat (500 + i));
    nu_nts : forall n, n ∈ nts -> n <> root /\ inner n /\ n ∈ v;
    nu_v : forall n, n ∈ v -> leafn n \/ n ∈ nts \/ n = root;
    nu_leaf : forall n, leafn n -> n ∈ v;
    nu_q : forall n, n ∈ q -> inner n /\ forall c, PE es n c -> c ∈ v;
    nu_ready : forall p, inner p -> p ∉ v -> (forall c, PE es p c -> c ∈ v) -> p ∈ q;
    nu_order : forall i p c, nts !! i = Some p -> PE es p c -> leafn c \/ exists j, j < i /\ nts !! j = Some c
  }.

  Lemma children_all (f : nat -> bool) p :
    forallb (fun c => f (fst c)) (children t p) = true <-> forall c, PE es p c -> f c = true.
  Proof.
    rewrite forallb_forall. split.
    - intros H c (e & He)%children_PE. apply elem_of_list_In in He. apply (H _ He).
    - intros H [c e] He. apply elem_of_list_In in He. apply H, children_PE. by exists e.
  Qed.

  (** The start queue. *)
  Lemma start_queue_spec (l : list nat) :
    (forall n, n ∈ l <-> leafn n) ->
    (start_queue t l).2 = list_to_set l /\
    forall p, p ∈ (start_queue t l).1 <-> inner p /\ forall c, PE es p c -> leafn c.
  Proof.
    intros Hl.
    assert (G : forall l q0 v0,
      (foldl (queue_step t) (q0, v0) l).2 = list_to_set l ∪ v0 /\
      forall p, p ∈ (foldl (queue_step t) (q0, v0) l).1 <->
        p ∈ q0 \/ exists n, n ∈ l /\ PE es p n /\ forall c, PE es p c -> leafn c).
    { clear l Hl. induction l as [|n l IH]; intros q0 v0.
      - simpl. split; [set_solver|]. intros p. split; [by left|].
        intros [H|(n & Hn & _)]; [done|set_solver].
      - cbn [foldl]. unfold queue_step at 2 4. cbn [fst snd].
        assert (Hterm : forall p, forallb (fun c => node_is_term t (fst c)) (children t p) = true <->
                        forall c, PE es p c -> leafn c).
        { intros p. rewrite (children_all (node_is_term t)). split; intros H c Hc.
          - specialize (H c Hc). unfold node_is_term in H. destruct (N !! c) as [[|tm]|] eqn:E; try done.
            by exists tm.
          - destruct (H c Hc) as [tm E]. unfold node_is_term. by rewrite E. }
        destruct (parent t n) as [[p e]|] eqn:Ep.
        + assert (Hp : PE es p n) by (apply parent_PE; [apply NS|by exists e]).
          destruct (forallb _ (children t p)) eqn:Ef.
          * destruct (IH (q0 ++ [p]) ({[n]} ∪ v0)) as [IH1 IH2]. split; [rewrite IH1; set_solver|].
            intros p'. rewrite IH2, elem_of_app, elem_of_list_singleton. pose proof (proj1 (Hterm p) Ef) as Hpc.
            split.
            -- intros [[H| ->]|(m & Hm & H)]; [by left|right; exists n; set_solver|right; exists m; set_solver].
            -- intros [H|(m & Hm & H1 & H2)]; [by left; left|]. apply elem_of_cons in Hm as [->|Hm].
               ++ left. right. by apply (PE_parent_unique NS _ _ n).
               ++ right. by exists m.
          * destruct (IH q0 ({[n]} ∪ v0)) as [IH1 IH2]. split; [rewrite IH1; set_solver|].
            intros p'. rewrite IH2. split.
            -- intros [H|(m & Hm & H)]; [by left|right; exists m; set_solver].
            -- intros [H|(m & Hm & H1 & H2)]; [by left|]. apply elem_of_cons in Hm as [->|Hm]; [|right; by exists m].
               assert (p' = p) as -> by by apply (PE_parent_unique NS _ _ n).
               apply Hterm in H2. congruence.
        + destruct (IH q0 ({[n]} ∪ v0)) as [IH1 IH2]. split; [rewrite IH1; set_solver|].
          intros p'. rewrite IH2. split.
          * intros [H|(m & Hm & H)]; [by left|right; exists m; set_solver].
          * intros [H|(m & Hm & H1 & H2)]; [by left|]. apply elem_of_cons in Hm as [->|Hm]; [|right; by exists m].
            exfalso. rewrite (parent_None _ _ NS) in Ep. by apply (Ep p'). }
    destruct (G l [] ∅) as [G1 G2]. split; [unfold start_queue; rewrite G1; set_solver|].
    intros p. unfold start_queue. rewrite G2. split.
    - intros [H|(n & Hn & H1 & H2)]; [set_solver|]. split; [|done].
      destruct (PE_src_nt NS _ _ H1) as [nt ?]. by exists nt.
    - intros [[nt Hp] Hc]. right. destruct (sh_inner _ _ _ NS _ _ Hp) as [c Hpc].
      exists c. split; [by apply Hl, Hc|done].
  Qed.

  Lemma start_inv (l : list nat) : (forall n, n ∈ l <-> leafn n) ->
    num_inv (start_queue t l).1 (start_queue t l).2 500 {[root := lit "0"]} [].
  Proof.
    intros Hl. destruct (start_queue_spec l Hl) as [-> Hq]. split; simpl.
    - constructor.
    - done.
    - by rewrite lookup_singleton.
    - done.
    - set_solver.
    - intros n Hn. left. apply Hl. set_solver.
    - intros n Hn%Hl. set_solver.
    - intros p [Hp Hc]%Hq. split; [done|]. intros c Hpc%Hc%Hl. set_solver.
    - intros p Hp _ Hc. apply Hq. split; [done|]. intros c Hpc%Hc. apply Hl. set_solver.
    - done.
  Qed.

  Lemma nts_length q v c ids nts : num_inv q v c ids nts -> length nts <= size N.
  Proof.
    intros I. rewrite <- (size_list_to_set (C := gset nat)) by apply (nu_nodup _ _ _ _ _ I).
    rewrite <- size_dom. apply subseteq_size. intros n Hn%elem_of_list_to_set.
    apply (nu_nts _ _ _ _ _ I) in Hn as (_ & [nt E] & _). apply elem_of_dom. eauto.
  Qed.

  Lemma number_step_skip n q v c ids nts : num_inv (n :: q) v c ids nts ->
    n ∈ v \/ n = root -> num_inv q ({[n]} ∪ v) c ids nts.
  Proof.
    intros I Hn. pose proof (nu_q _ _ _ _ _ I n ltac:(set_solver)) as [Hin Hch]. split; try apply I.
    - intros m (H1 & H2 & H3)%(nu_nts _ _ _ _ _ I). set_solver.
    - intros m Hm. destruct (decide (m ∈ v)) as [Hv|Hv]; [by apply (nu_v _ _ _ _ _ I)|].
      assert (m = n) as -> by set_solver. destruct Hn as [?|]; [done|]. by right; right.
    - intros m Hm%(nu_leaf _ _ _ _ _ I). set_solver.
    - intros m Hm. destruct (nu_q _ _ _ _ _ I m ltac:(set_solver)) as [H1 H2]. split; [done|]. set_solver.
    - intros p Hp Hv Hc. assert (Hq : p ∈ n :: q).
      { apply (nu_ready _ _ _ _ _ I); [done|set_solver|]. intros c' Hc'. specialize (Hc c' Hc').
        apply elem_of_union in Hc as [E|]; [|done]. apply elem_of_singleton in E as ->.
        destruct Hn as [?| ->]; [done|]. by apply (sh_root_top _ _ _ NS) in Hc'. }
      apply elem_of_cons in Hq as [->|]; [set_solver|done].
  Qed.

  Lemma number_step_new n q v c ids nts : num_inv (n :: q) v c ids nts -> n ∉ v -> n <> root ->
    num_inv (match parent t n with
             | Some (p, _) =>
                 if forallb (fun c => bool_decide (fst c ∈ ({[n]} ∪ v : gset nat))) (children t p) then p :: q
                 else q
             | None => q
             end) ({[n]} ∪ v) (c + 1) (<[n := print_nat c]> ids) (nts ++ [n]).
  Proof.
    intros I Hv Hr. pose proof (nu_q _ _ _ _ _ I n ltac:(set_solver)) as [Hin Hch].
    assert (Hnew : n ∉ nts) by (intros (_ & _ & ?)%(nu_nts _ _ _ _ _ I); done).
    assert (Hall : forall p, forallb (fun c => bool_decide (fst c ∈ ({[n]} ∪ v : gset nat))) (children t p) = true <->
                   forall c, PE es p c -> c ∈ ({[n]} ∪ v : gset nat)).
    { intros p. set (f := fun c : nat => bool_decide (c ∈ ({[n]} ∪ v : gset nat))).
      etrans; [exact (children_all f p)|]. unfold f.
      split; intros H c' Hc'; [exact (bool_decide_eq_true_1 _ (H c' Hc'))|exact (bool_decide_eq_true_2 _ (H c' Hc'))]. }
    assert (Hlook : forall i m, (nts ++ [n]) !! i = Some m -> nts !! i = Some m \/ i = length nts /\ m = n).
    { intros i m [H|[H1 H2]]%lookup_app_Some; [by left|].
      apply list_lookup_singleton_Some in H2 as [H2 <-]. right. split; [lia|done]. }
    split.
    - apply NoDup_app. split_and!; [apply I|set_solver|apply NoDup_singleton].
    - rewrite app_length, (nu_count _ _ _ _ _ I). simpl. lia.
    - rewrite lookup_insert_ne by done. apply I.
    - intros i m [H|[-> ->]]%Hlook.
      + rewrite lookup_insert_ne; [by apply (nu_ids _ _ _ _ _ I)|]. intros ->. apply Hnew. by eapply elem_of_list_lookup_2.
      + rewrite lookup_insert. by rewrite (nu_count _ _ _ _ _ I).
    - intros m [H|H%elem_of_list_singleton]%elem_of_app.
      + apply (nu_nts _ _ _ _ _ I) in H as (? & ? & ?). set_solver.
      + subst m. set_solver.
    - intros m [->%elem_of_singleton|H%(nu_v _ _ _ _ _ I)]%elem_of_union; [|set_solver].
      right. left. set_solver.
    - intros m Hm%(nu_leaf _ _ _ _ _ I). set_solver.
    - assert (Hq : forall m, m ∈ q -> inner m /\ forall c, PE es m c -> c ∈ ({[n]} ∪ v : gset nat)).
      { intros m Hm. destruct (nu_q _ _ _ _ _ I m ltac:(set_solver)) as [H1 H2]. split; [done|]. set_solver. }
      destruct (parent t n) as [[p e]|] eqn:Ep; [|done]. destruct (forallb _ _) eqn:Ef; [|done].
      intros m [->|Hm]%elem_of_cons; [|by apply Hq]. split; [|by apply Hall].
      assert (Hp : PE es p n) by (apply parent_PE; [apply NS|by exists e]).
      destruct (PE_src_nt NS _ _ Hp) as [nt ?]. by exists nt.
    - intros p Hp Hpv Hc.
      assert (Hdec : PE es p n \/ ~ PE es p n).
      { destruct (parent t n) as [[p' e]|] eqn:Ep.
        - assert (Hp' : PE es p' n) by (apply parent_PE; [apply NS|by exists e]).
          destruct (decide (p = p')) as [->|Hne]; [by left|right]. intros Hpn. apply Hne.
          by apply (PE_parent_unique NS _ _ n).
        - right. by apply parent_None; [apply NS|]. }
      destruct Hdec as [Hpn|Hpn].
      + apply (parent_PE _ _ _ NS) in Hpn as [e ->]. rewrite (proj2 (Hall p)) by done. set_solver.
      + assert (Hq : p ∈ n :: q).
        { apply (nu_ready _ _ _ _ _ I); [done|set_solver|]. intros c' Hc'. specialize (Hc c' Hc').
          apply elem_of_union in Hc as [E|]; [|done]. apply elem_of_singleton in E as ->. done. }
        apply elem_of_cons in Hq as [->|Hq]; [set_solver|].
        destruct (parent t n) as [[p' e]|]; [|done]. destruct (forallb _ _); set_solver.
    - intros i p c' [H|[-> ->]]%Hlook Hpc.
      + destruct (nu_order _ _ _ _ _ I i p c' H Hpc) as [?|(j & Hj & E)]; [by left|].
        right. exists j. split; [done|]. by apply lookup_app_l_Some.
      + specialize (Hch c' Hpc). destruct (nu_v _ _ _ _ _ I _ Hch) as [?|[Hn| ->]]; [by left| |].
        * right. apply elem_of_list_lookup in Hn as [j Hj]. exists j. split; [by eapply lookup_lt_Some|].
          by apply lookup_app_l_Some.
        * by apply (sh_root_top _ _ _ NS) in Hpc.
  Qed.

  Lemma number_nts_spec fuel q v c ids nts :
    num_inv q v c ids nts -> length q + (size N - length nts) <= fuel ->
    exists v' c' ids' nts', number_nts fuel t q v c ids nts = Ret (ids', nts') /\
      num_inv [] v' c' ids' nts'.
  Proof.
    revert q v c ids nts. induction fuel as [|fuel IH]; intros q v c ids nts I Hf.
    - destruct q; [|simpl in Hf; lia]. simpl. eauto 10.
    - destruct q as [|n q]; [simpl; eauto 10|]. cbn [number_nts].
      destruct (bool_decide (n ∈ v) || Nat.eqb root n)%bool eqn:E.
      + apply IH; [|simpl in Hf; lia]. apply number_step_skip; [done|].
        apply orb_true_iff in E as [E%bool_decide_eq_true|E%Nat.eqb_eq]; auto.
      + apply orb_false_iff in E as [E1%bool_decide_eq_false E2%Nat.eqb_neq].
        pose proof (number_step_new _ _ _ _ _ _ I E1 ltac:(done)) as I'.
        pose proof (nts_length _ _ _ _ _ I') as Hlen. rewrite app_length in Hlen. simpl in Hlen.
        apply IH; [exact I'|]. rewrite app_length. simpl in Hf |- *.
        destruct (parent t n) as [[p e]|]; [|lia]. destruct (forallb _ _); simpl; lia.
  Qed.

  Lemma number_all (l : list nat) : (forall n, n ∈ l <-> leafn n) ->
    exists ids nts,
      number_nts (number_fuel t (start_queue t l).1) t (start_queue t l).1 (start_queue t l).2 500
                 {[root := lit "0"]} [] = Ret (ids, nts) /\
      numbering t nts /\ ids !! root = Some (print_nat 0) /\
      (forall i n, nts !! i = Some n -> ids !! n = Some (print_nat (500 + i))).
  Proof.
    intros Hl. pose proof (start_inv l Hl) as I.
    destruct (number_nts_spec (number_fuel t (start_queue t l).1) _ _ _ _ _ I) as (v & c & ids & nts & E & I').
    { unfold number_fuel, node_count. simpl. lia. }
    exists ids, nts. split_and!; [done| |apply (nu_root _ _ _ _ _ I')|apply I'].
    split_and!; [apply I'| |].
    - intros n. split; [intros Hn; apply (nu_nts _ _ _ _ _ I') in Hn; tauto|].
      intros [Hr Hn]. assert (Hv : forall m, is_Some (N !! m) -> m <> root -> m ∈ v).
      { apply (tree_ind_up NS (fun m => m <> root -> m ∈ v)). intros m [w Hm] IH Hmr.
        destruct w as [nt|tm]; [|by apply (nu_leaf _ _ _ _ _ I'); exists tm].
        destruct (decide (m ∈ v)) as [|Hmv]; [done|]. exfalso.
        apply (not_elem_of_nil m), (nu_ready _ _ _ _ _ I'); [by exists nt|done|].
        intros c' Hc'. apply IH; [done|]. intros ->. by apply (sh_root_top _ _ _ NS) in Hc'. }
      destruct Hn as [nt Hn]. destruct (nu_v _ _ _ _ _ I' n (Hv n ltac:(eauto) Hr)) as [[tm ?]|[?|?]]; [congruence|done|done].
    - intros i j p c' Hi Hj Hpc. destruct (nu_order _ _ _ _ _ I' _ _ _ Hi Hpc) as [[tm Htm]|(j' & Hj' & Hc)].
      + apply elem_of_list_lookup_2 in Hj. apply (nu_nts _ _ _ _ _ I') in Hj as (_ & [nt ?] & _). congruence.
      + by rewrite (NoDup_lookup _ _ _ _ (nu_nodup _ _ _ _ _ I') Hj Hc).
  Qed.
End number.

(** ** Lines *)
Lemma mapO_exists {A B} (f : A -> outcome B) (P : A -> B -> Prop) l :
  (forall x, x ∈ l -> exists y, f x = Ret y /\ P x y) ->
  exists ys, mapO f l = Ret ys /\ Forall2 P l ys.
Proof.
  induction l as [|x l IH]; intros H; simpl; [by exists []|].
  destruct (H x ltac:(set_solver)) as (y & Hy & Hxy). rewrite Hy. simpl.
  destruct IH as (ys & Hys & HF); [set_solver|]. rewrite Hys. simpl. eauto.
Qed.
Lemma or_dashes_default o : default dashes o = or_dashes o.
Proof. by destruct o. Qed.
Lemma feat_val_has f k : has_feat f k (feat_val f k).
Proof.
  unfold has_feat, feat_val, feats_get. destruct f as [m|]; [|done]. by destruct (m !! k).
Qed.

Section lines.
  Context (t : tree) (ids : gmap nat str) (nts : list nat).
  Hypothesis W : WF t.
  Hypothesis Hnum : numbering t nts.
  Hypothesis Hroot : ids !! tr_root t = Some (print_nat 0).
  Hypothesis Hids : forall i n, nts !! i = Some n -> ids !! n = Some (print_nat (500 + i)).
  Hypothesis Hsec : forall r, r ∈ edges t -> is_primary (e_w r) = false -> exists nt, nodes t !! e_src r = Some (NT nt).

  Lemma id_exists n nt : nodes t !! n = Some (NT nt) -> exists k, id_of t nts n k /\ ids !! n = Some (print_nat k).
  Proof.
    intros Hn. destruct (decide (n = tr_root t)) as [->|Hne]; [exists 0; split; [by left|done]|].
    destruct Hnum as (_ & H & _). assert (Hin : n ∈ nts) by (apply H; eauto).
    apply elem_of_list_lookup in Hin as [i Hi]. exists (500 + i). split; [right; by exists i|by apply Hids].
  Qed.

  Lemma get_parent_edge_ok n : is_Some (nodes t !! n) -> n <> tr_root t ->
    exists s fs, get_parent_edge n t ids = Ret s /\ edge_fields t nts n fs /\ spaced fs s.
  Proof.
    intros Hn Hr. pose proof (wf_shape _ W) as S. pose proof (wf_graph _ W) as G.
    destruct (live_parent S n Hn Hr) as [p Hp]. apply (parent_PE _ _ _ S) in Hp as [e He].
    unfold get_parent_edge. rewrite He. cbn [unwrap mbind outcome_bind].
    apply (parent_Some _ _ _ _ S) in He as (r & Hin & Hpr & <- & <- & <-).
    unfold edge_at. rewrite (proj2 (find_edge_Some _ (e_id r) r G)) by done. cbn [fmap option_fmap option_map unwrap mbind outcome_bind].
    destruct (PE_src_nt S (e_src r) (e_tgt r)) as [nt Hnt]; [by exists r|].
    destruct (id_exists _ _ Hnt) as (k & Hk & ->). cbn [unwrap mbind outcome_bind].
    rewrite (or_dashes_default (edge_label (e_w r))).
    destruct (secondary_parent t (e_tgt r)) as [[p2 e2]|] eqn:E2.
    - apply fmap_Some in E2 as (r2 & Hr2 & [= -> ->]). apply head_Some_elem_of in Hr2.
      unfold in_edges in Hr2. rewrite !elem_of_list_filter in Hr2. destruct Hr2 as (H1 & H2 & H3).
      rewrite (proj2 (find_edge_Some _ (e_id r2) r2 G)) by done. cbn [fmap option_fmap option_map unwrap mbind outcome_bind].
      destruct (Hsec r2 H3 H1) as [nt2 Hnt2]. destruct (id_exists _ _ Hnt2) as (k2 & Hk2 & ->). cbn [unwrap mbind outcome_bind].
      rewrite (or_dashes_default (edge_label (e_w r2))).
      eexists _, [or_dashes (edge_label (e_w r)); print_nat k; or_dashes (edge_label (e_w r2)); print_nat k2].
      split; [done|]. split; [exists r, k; split_and!; try done; right; by exists r2, k2|].
      repeat apply spaced_pad. constructor.
    - eexists _, [or_dashes (edge_label (e_w r)); print_nat k]. split; [done|]. split.
      + exists r, k. split_and!; try done. left. split; [|done]. intros r2 Hr2 Ht.
        apply fmap_None in E2. destruct (is_primary (e_w r2)) eqn:Ep; [done|].
        assert (Hin2 : r2 ∈ filter (fun r => is_primary (e_w r) = false) (in_edges (tr_graph t) (e_tgt r))).
        { unfold in_edges. rewrite !elem_of_list_filter. done. }
        destruct (filter _ (in_edges _ _)) eqn:Ef; [set_solver|done].
      + apply spaced_pad. constructor.
  Qed.

  Lemma tline_ok n tm : nodes t !! n = Some (T tm) -> n <> tr_root t ->
    exists l, terminal_line t ids n = Ret l /\ term_line t nts n l.
  Proof.
    intros Hn Hr. unfold terminal_line. rewrite (node_at_Some _ _ _ Hn). simpl.
    destruct (get_parent_edge_ok n ltac:(eauto) Hr) as (s & fs & -> & Hfs & Hs). simpl.
    eexists. split; [done|]. exists tm, (feat_val (t_feats tm) morph_key), fs.
    split_and!; [done|apply feat_val_has|done|].
    unfold terminal_to_negra_line. rewrite (or_dashes_default (t_lemma tm)), <- !(assoc_L (++)). cbn [app].
    repeat apply spaced_pad.
    destruct (feat_val (t_feats tm) morph_key); simpl or_dashes; rewrite <- !(assoc_L (++)); by apply spaced_pad.
  Qed.
  Lemma nline_ok i n : nts !! i = Some n ->
    exists l, nonterminal_line t ids n = Ret l /\
      nt_line t nts (500 + i) n l.
  Proof.
    intros Hi. unfold nonterminal_line. rewrite (Hids _ _ Hi). cbn [unwrap mbind outcome_bind].
    destruct Hnum as (_ & Hn & _). destruct (proj1 (Hn n)) as [Hr [nt Hnt]]; [by eapply elem_of_list_lookup_2|].
    rewrite (node_at_Some _ _ _ Hnt). cbn [unwrap mbind outcome_bind node_nonterminal].
    destruct (get_parent_edge_ok n ltac:(eauto) Hr) as (s & fs & -> & Hfs & Hs). cbn [mbind outcome_bind].
    eexists. split; [done|]. exists nt, (feat_val (nt_feats nt) annotation_key), fs.
    split_and!; [done|apply feat_val_has|done|].
    unfold nonterminal_to_negra_line. rewrite <- !(assoc_L (++)).
    set (lab := match feat_val (nt_feats nt) annotation_key with Some a => [61%N] ++ a | None => [] end).
    change (match feat_val (nt_feats nt) annotation_key with Some a => lit "=" ++ a | None => [] end) with lab.
    cbn [app]. change (lit "#" ++ print_nat (500 + i)) with (35%N :: print_nat (500 + i)).
    change (spaced ((35%N :: print_nat (500 + i)) :: [dashes; nt_label nt ++ lab; dashes] ++ fs)
      ((35%N :: print_nat (500 + i)) ++ pad (byte_len (print_nat (500 + i)) + 1) 24 ++ dashes ++ pad 2 24
        ++ nt_label nt ++ lab ++ pad (byte_len (nt_label nt ++ lab)) 8 ++ dashes ++ pad 2 16 ++ s)).
    rewrite (assoc_L (++) (nt_label nt) lab).
    do 4 apply (spaced_pad (_ : str)). done.
  Qed.
End lines.

Lemma negra_write_ok t c nt : WF t -> nodes t !! tr_root t = Some (NT nt) ->
  (forall r, r ∈ edges t -> is_primary (e_w r) = false -> exists nt, nodes t !! e_src r = Some (NT nt)) ->
  exists sid c' header words tl nts nl,
    negra_write c t = Ret (unlines (header :: tl ++ nl ++ [lit "#EOS " ++ sid; []]), c') /\
    sid_of t c sid c' /\ header_line t sid header /\
    sentence t words /\ Forall2 (term_line t nts) words tl /\
    numbering t nts /\ length nl = length nts /\
    (forall i n l, nts !! i = Some n -> nl !! i = Some l -> nt_line t nts (500 + i) n l).
Proof.
  intros W Hroot Hsec. unfold negra_write. rewrite (node_at_Some _ _ _ Hroot). cbn [mbind outcome_bind].
  pose proof (sentence_sorted t (wf_graph _ W) (wf_terms _ W)) as Hsent.
  set (words := sort_indices t (terminals t)) in *.
  assert (Hw : forall n, n ∈ words <-> leafn t n).
  { intros n. destruct Hsent as [_ Hs]. split.
    - intros [i Hi]%elem_of_list_lookup. apply Hs in Hi as (tm & H & _). by exists tm.
    - intros [tm Htm]. destruct (term_pos_of _ _ _ _ (wf_terms _ W) Htm) as (Hp & _).
      apply Hs in Hp. by eapply elem_of_list_lookup_2. }
  clearbody words.
  destruct (number_all t W words Hw) as (ids & nts & E & Hnum & Hr0 & Hids).
  destruct (start_queue t words) as [q v]. cbn [fst snd] in E.
  destruct (mapO_exists (terminal_line t ids) (term_line t nts) words) as (tl & Etl & Htl).
  { intros n [tm Hn]%Hw. eapply tline_ok; try done. intros ->. congruence. }
  destruct (mapO_exists (nonterminal_line t ids)
     (fun n l => forall i, nts !! i = Some n -> nt_line t nts (500 + i) n l) nts) as (nl & Enl & Hnl).
  { intros n [i Hi]%elem_of_list_lookup.
    destruct (nline_ok t ids nts W Hnum Hr0 Hids Hsec i n Hi) as (l & H1 & H2).
    exists l. split; [done|]. intros j Hj. by rewrite (NoDup_lookup _ _ _ _ (proj1 Hnum) Hj Hi). }
  pose (sid := match feat_val (nt_feats nt) sid_key with Some s => s | None => print_nat c end).
  exists sid, (match feat_val (nt_feats nt) sid_key with Some s => c | None => c + 1 end),
    (lit "#BOS " ++ sid ++ match feat_val (nt_feats nt) meta_key with Some m => lit "  " ++ m | None => [] end),
    words, tl, nts, nl. unfold sid. split_and!; [| | |done|done|done| |].
  - cbn [node_feats]. destruct (feat_val (nt_feats nt) sid_key); rewrite E; cbn [mbind outcome_bind];
      rewrite Etl; cbn [mbind outcome_bind]; rewrite Enl; reflexivity.
  - exists (NT nt), (feat_val (nt_feats nt) sid_key). split_and!; [done|apply feat_val_has|].
    by destruct (feat_val (nt_feats nt) sid_key).
  - exists (NT nt), (feat_val (nt_feats nt) meta_key). split_and!; [done|apply feat_val_has|].
    destruct (feat_val (nt_feats nt) sid_key); reflexivity.
  - by apply Forall2_length in Hnl.
  - intros i n l Hi Hl. by apply (Forall2_lookup_lr _ _ _ _ _ _ Hnl Hi Hl).
Qed.
