(** The tree built from the parse of a bracketed text. *)
From Coq Require Import Lia.
From Verif Require Import ModModel TreeSpec BaseProofs ShapeProofs GraphProofs SortProofs RoseSpec RoseProofs SegProofs PtbSpec PtbProofs.

Section ast_ind.
  Context (P : ast -> Prop).
  Hypothesis Hpre : forall label form, P (APre label form).
  Hypothesis Hnode : forall label cs, Forall P cs -> P (ANode label cs).
  Fixpoint ast_ind' (a : ast) : P a :=
    match a with
    | APre label form => Hpre label form
    | ANode label cs =>
        Hnode label cs ((fix go cs : Forall P cs :=
                           match cs with
                           | [] => @List.Forall_nil _ _
                           | c :: cs => @List.Forall_cons _ _ c cs (ast_ind' c) (go cs)
                           end) cs)
    end.
End ast_ind.

(** *** Labels *)
Lemma find_split_spec c s :
  match find_split c s with
  | Some (a, b) => exists b', s = a ++ c :: b' /\ b = c :: b' /\ c ∉ a
  | None => c ∉ s
  end.
Proof.
  induction s as [|x s IH]; simpl; [set_solver|]. destruct (N.eqb_spec x c) as [->|Hne].
  - exists s. split_and!; [done|done|set_solver].
  - destruct (find_split c s) as [[a b]|].
    + destruct IH as (b' & -> & -> & Ha). exists b'. split_and!; [done|done|set_solver].
    + set_solver.
Qed.
Lemma split_char_cut c s : exists p q, cut c s p q /\ head (split_char c s) = Some p /\
  field c q (split_char c s !! 1).
Proof.
  assert (H : forall s, exists p q, cut c s p q /\ split_char c s = p :: match q with Some q => split_char c q | None => [] end).
  { clear s. induction s as [|x s (p & q & Hc & E)]; simpl.
    - exists [], None. split; [constructor; set_solver|done].
    - destruct (N.eqb_spec x c) as [->|Hne].
      + exists [], (Some s). split; [|done]. apply (cut_some c [] s). set_solver.
      + rewrite E. exists (x :: p), q. split; [|done]. destruct Hc.
        * constructor. set_solver.
        * rewrite app_comm_cons. constructor. set_solver. }
  destruct (H s) as (p & q & Hc & E). exists p, q. rewrite E. split_and!; [done|done|].
  destruct q as [q|]; simpl; [|constructor]. destruct (H q) as (p' & q' & Hc' & ->). simpl. by econstructor.
Qed.
Lemma process_label_spec f l lab edge ann : process_label f l = (lab, edge, ann) -> label_of f l lab edge ann.
Proof.
  destruct f; simpl.
  - pose proof (find_split_spec 45%N l) as H. destruct (find_split 45%N l) as [[a b]|]; intros [= <- <- <-].
    + destruct H as (b' & -> & -> & Ha). by constructor.
    + by constructor.
  - intros [= <- <- <-]. constructor.
  - destruct (split_char_cut 58%N l) as (tag & o1 & Hc1 & -> & Hf1). simpl.
    destruct (split_char_cut 61%N tag) as (lab' & o2 & Hc2 & -> & Hf2). simpl.
    intros [= <- <- <-].
    replace (match split_char 58%N l !! 1 with
             | Some e => if str_eqb e (lit "--") then None else Some e
             | None => None end)
      with (if decide (split_char 58%N l !! 1 = Some [45; 45]%N) then None else split_char 58%N l !! 1).
    + by eapply lo_tueba.
    + destruct (split_char 58%N l !! 1) as [e|]; [|by destruct (decide _)].
      unfold str_eqb. destruct (bool_decide_reflect (e = lit "--")) as [->|Hne].
      * by rewrite decide_True.
      * rewrite decide_False; [done|]. intros [= ->]. by apply Hne.
Qed.

(** *** The graph *)
Definition built (f : ptb_format) (a : ast) : Prop := forall g k, graph_ok g ->
  exists g' k' n edge r N2 E2 w,
    parse_value f a g k = Ret (g', k', (mk_span k k' None, n, Primary edge)) /\
    graph_ok g' /\ k < k' /\
    g_nodes g' = N2 ∪ g_nodes g /\ N2 ##ₘ g_nodes g /\ g_edges g' = E2 ++ g_edges g /\
    seg N2 E2 n k k' /\ closed N2 E2 n k k' /\
    N2 !! n = Some w /\ node_span w = mk_span k k' None /\
    ast_rose f a edge r /\ Den N2 E2 n r /\ map t_idx (leaves r) = seq k (k' - k).

Lemma built_pre f label form : built f (APre label form).
Proof.
  intros g k HG. simpl. destruct (process_label f label) as [[tag edge] ann] eqn:El.
  apply process_label_spec in El.
  set (tm := term_new form tag k).
  destruct (add_node g (T tm)) as [g' n] eqn:Ea.
  apply (add_node_spec g _ g' n HG) in Ea as (HG' & Hn & EN & EE).
  destruct (seg_leaf n tm k eq_refl) as [Sg C].
  exists g', (S k), n, edge, (RLeaf tm), {[n := T tm]}, [], (T tm).
  split_and!; try done.
  - f_equal. unfold span_of. rewrite Nat.add_1_r. done.
  - lia.
  - rewrite EN. by rewrite insert_union_singleton_l.
  - by apply map_disjoint_singleton_l.
  - by rewrite lookup_singleton.
  - simpl. unfold span_of. by rewrite Nat.add_1_r.
  - by econstructor.
  - constructor. by rewrite lookup_singleton.
  - simpl. replace (S k - k) with 1 by lia. done.
Qed.

Lemma built_node f label cs : Forall (built f) cs -> cs <> [] -> built f (ANode label cs).
Proof.
  intros IH Hne g0 k HG0. cbn [parse_value].
  destruct (process_label f label) as [[lab edge] ann] eqn:El. apply process_label_spec in El.
  set (nt0 := match ann with
              | Some a => node_insert_feat (NT (nt_new lab (span_of 0))) annotation_key (Some a)
              | None => NT (nt_new lab (span_of 0)) end).
  assert (exists nt, nt0 = NT nt /\ nt_label nt = lab /\
            nt_feats nt = match ann with Some a => Some {[ lit "node_annotation" := Some a ]} | None => None end)
    as (nt & Ent & Hlab & Hfeat).
  { unfold nt0. destruct ann as [a|]; eexists; (split; [reflexivity|]); done. }
  rewrite Ent. clear nt0 Ent.
  destruct (add_node g0 (NT nt)) as [g1 n] eqn:Ea.
  apply (add_node_spec g0 _ g1 n HG0) in Ea as (HG1 & Hn & EN & EE).
  match goal with |- context[?F cs true g1 k 0 0] => set (go := F) end.
  assert (LOOP : forall cs1 (first : bool) g kc lo up N E l1 ds1,
    Forall (built f) cs1 ->
    graph_ok g -> g_nodes g = N ∪ g_nodes g0 -> N ##ₘ g_nodes g0 -> g_edges g = E ++ g_edges g0 ->
    seg N E n k kc -> k <= kc -> N !! n = Some (NT nt) ->
    (forall r, r ∈ l1 <-> r ∈ E /\ is_primary (e_w r) = true /\ e_src r = n) ->
    StronglySorted (fun a b => first_pos N (e_tgt a) < first_pos N (e_tgt b)) l1 ->
    (forall r, r ∈ l1 -> first_pos N (e_tgt r) < kc) ->
    Forall2 (fun r c => c.1 = edge_label (e_w r) /\ Den N E (e_tgt r) c.2) l1 ds1 ->
    map t_idx (concat (map (fun c => leaves c.2) ds1)) = seq k (kc - k) ->
    (if first then l1 = [] else l1 <> [] /\ k < kc /\ lo = k /\ up = kc) ->
    exists g' kc' N' E' l' ds' lo' up',
      go cs1 first g kc lo up = Ret (g', kc', lo', up') /\
      graph_ok g' /\ g_nodes g' = N' ∪ g_nodes g0 /\ N' ##ₘ g_nodes g0 /\ g_edges g' = E' ++ g_edges g0 /\
      seg N' E' n k kc' /\ N' !! n = Some (NT nt) /\
      (forall r, r ∈ l' <-> r ∈ E' /\ is_primary (e_w r) = true /\ e_src r = n) /\
      StronglySorted (fun a b => first_pos N' (e_tgt a) < first_pos N' (e_tgt b)) l' /\
      Forall2 (fun r c => c.1 = edge_label (e_w r) /\ Den N' E' (e_tgt r) c.2) l' (ds1 ++ ds') /\
      Forall2 (fun c d => ast_rose f c d.1 d.2) cs1 ds' /\
      map t_idx (concat (map (fun c => leaves c.2) (ds1 ++ ds'))) = seq k (kc' - k) /\
      (l1 <> [] \/ cs1 <> [] -> l' <> [] /\ k < kc' /\ lo' = k /\ up' = kc')).
  { clear IH Hne. induction cs1 as [|c cs1 IHc]; intros first g kc lo up N E l1 ds1 HB HG EN' Hdis EE' Sg Hk Hr Hl1 HS1 Hb1 HF1 Hlv Hfst.
    - exists g, kc, N, E, l1, [], lo, up. rewrite app_nil_r. split_and!; try done; try constructor.
      all: destruct first; [destruct H as [H|H]; done|tauto].
    - apply Forall_cons in HB as [Hc HB].
      destruct (Hc g kc HG) as (g2 & k2 & n2 & ed & r2 & N2 & E2 & w2 & Epv & HG2 & Hk2 & EN2 & Hdis2 & EE2 & S2 & C2 & Hw2 & Hsp2 & Har & HD2 & Hlv2).
      unfold go. fold go. rewrite Epv. cbn [mbind outcome_bind].
      assert (Hn2live : is_Some (g_nodes g2 !! n2)).
      { rewrite EN2. exists w2. by apply lookup_union_Some_l. }
      assert (Hnlive : is_Some (g_nodes g2 !! n)).
      { rewrite EN2. apply lookup_union_is_Some. right. rewrite EN'. apply lookup_union_is_Some. left. by rewrite Hr. }
      destruct (add_edge_spec g2 n n2 (Primary ed) HG2 Hnlive Hn2live) as (g3 & ei & Eae & HG3 & EN3 & EE3 & Hei).
      rewrite Eae. cbn [mbind outcome_bind].
      set (e := mk_e ei n n2 (Primary ed)).
      assert (HdNN2 : N ##ₘ N2).
      { rewrite EN' in Hdis2. apply map_disjoint_union_r in Hdis2 as [? _]. by apply map_disjoint_sym. }
      assert (HdN2g : N2 ##ₘ g_nodes g0).
      { rewrite EN' in Hdis2. by apply map_disjoint_union_r in Hdis2 as [_ ?]. }
      set (E' := e :: E2 ++ E).
      assert (HE' : forall r, r ∈ E' <-> r = e \/ r ∈ E2 \/ r ∈ E).
      { intros r. unfold E'. rewrite elem_of_cons, elem_of_app. done. }
      destruct (seg_attach N E n k kc nt N2 E2 n2 k2 e E' Sg Hr S2 C2 HdNN2 Hk eq_refl eq_refl eq_refl HE') as (S' & HDa & HDb).
      assert (HfpN : forall m, is_Some (N !! m) -> first_pos (N ∪ N2) m = first_pos N m).
      { intros m [w Hw]. unfold first_pos. by rewrite Hw, (lookup_union_Some_l _ _ _ _ Hw). }
      assert (HfpN2 : first_pos (N ∪ N2) n2 = kc).
      { unfold first_pos. rewrite (lookup_union_Some_r _ _ _ _ HdNN2 Hw2). by rewrite Hsp2. }
      assert (Hl1live : forall r, r ∈ l1 -> is_Some (N !! e_tgt r)).
      { intros r (R1 & R2 & R3)%Hl1. by apply (sg_live _ _ _ _ _ Sg). }
      destruct (IHc false g3 k2 (if first then kc else lo) k2 (N ∪ N2) E' (l1 ++ [e]) (ds1 ++ [(ed, r2)])) as
        (g' & kc' & N' & E'' & l' & ds' & lo' & up' & Ego & HG' & EN'' & Hdis' & EE'' & S'' & Hr' & Hl' & HS' & HF' & Har' & Hlv' & Hfin).
      + done.
      + done.
      + rewrite EN3, EN2, EN'. rewrite (map_union_comm N N2) by done. by rewrite (assoc_L (∪)).
      + by apply map_disjoint_union_l.
      + rewrite EE3, EE2, EE'. unfold E'. simpl. by rewrite (assoc_L (++)).
      + done.
      + lia.
      + by apply lookup_union_Some_l.
      + intros r. rewrite elem_of_app, elem_of_list_singleton, Hl1, HE'. split.
        * intros [(R1 & R2 & R3)| ->]; [tauto|]. split_and!; [by left|done|done].
        * intros ([->|[R1|R1]] & R2 & R3); [by right| |tauto].
          exfalso. destruct (sg_live _ _ _ _ _ S2 r R1) as [[w Hw] _]. rewrite R3 in Hw.
          by apply (map_disjoint_spec N N2) with n (NT nt) w in HdNN2.
      + apply StronglySorted_snoc.
        * clear -HS1 HfpN Hl1live. induction HS1 as [|x l HS IH HF]; constructor; [apply IH; set_solver|].
          rewrite Forall_forall in HF. apply Forall_forall. intros y Hy.
          rewrite !HfpN by (apply Hl1live; set_solver). by apply HF.
        * intros r Hr1. simpl. rewrite HfpN2, HfpN by (by apply Hl1live). by apply Hb1.
      + intros r [Hr1| ->%elem_of_list_singleton]%elem_of_app.
        * rewrite HfpN by (by apply Hl1live). specialize (Hb1 r Hr1). lia.
        * simpl. rewrite HfpN2. lia.
      + apply Forall2_app; [|constructor; [|constructor]].
        * apply Forall2_same_length_lookup. split; [by apply Forall2_length in HF1|].
          intros i r d Hr1 Hd. destruct (Forall2_lookup_lr _ _ _ _ _ _ HF1 Hr1 Hd) as [Ed D].
          split; [done|]. apply HDb; [|intros Etn|done].
          -- apply Hl1live. by eapply elem_of_list_lookup_2.
          -- apply elem_of_list_lookup_2, Hl1 in Hr1 as (R1 & _). by apply (sg_top _ _ _ _ _ Sg r).
        * simpl. split; [done|]. apply HDa; [by rewrite Hw2|done].
      + rewrite map_app, concat_app, map_app. simpl. rewrite app_nil_r, Hlv, Hlv2.
        replace (k2 - k) with ((kc - k) + (k2 - kc)) by lia. rewrite seq_app. f_equal. f_equal. lia.
      + split_and!; [by destruct l1|lia| |done]. destruct first; [|tauto].
        subst l1. destruct (decide (k = kc)) as [|Hne]; [done|exfalso].
        destruct (sg_surj _ _ _ _ _ Sg k ltac:(lia)) as (m & tm & Hm & _).
        pose proof (sg_reach _ _ _ _ _ Sg m ltac:(by rewrite Hm)) as Hd.
        apply rtc_inv in Hd as [->|(c' & (r & R1 & R2 & R3 & R4) & _)]; [congruence|].
        assert (r ∈ []) by (by apply Hl1). set_solver.
      + exists g', kc', N', E'', l', ((ed, r2) :: ds'), lo', up'.
        rewrite <- (assoc_L (++)) in HF', Hlv'. simpl in HF', Hlv'.
        assert (Hfin' : l' <> [] /\ k < kc' /\ lo' = k /\ up' = kc') by (apply Hfin; left; by destruct l1).
        split; [exact Ego|].
        do 8 (split; [done|]). split; [exact HF'|]. split; [by constructor|]. split; [exact Hlv'|]. intros _. exact Hfin'. }
  destruct (LOOP cs true g1 k 0 0 {[n := NT nt]} [] [] []) as
    (g' & kc' & N' & E' & l' & ds' & lo' & up' & Ego & HG' & EN' & Hdis' & EE' & S' & Hr' & Hl' & HS' & HF' & Har' & Hlv' & Hfin).
  { done. }
  { done. }
  { rewrite EN. by rewrite insert_union_singleton_l. }
  { by apply map_disjoint_singleton_l. }
  { done. }
  { apply seg_start. }
  { done. }
  { by rewrite lookup_singleton. }
  { set_solver. }
  { constructor. }
  { set_solver. }
  { constructor. }
  { simpl. by rewrite Nat.sub_diag. }
  { done. }
  clear LOOP. rewrite Ego. cbn [mbind outcome_bind].
  destruct Hfin as (Hl'ne & Hlt & -> & ->); [by right|].
  unfold span_new. rewrite (proj2 (Nat.ltb_lt _ _) Hlt). cbn [assert mbind outcome_bind].
  rewrite EN'. rewrite (lookup_union_Some_l _ _ _ _ Hr'). cbn [unwrap mbind outcome_bind node_nonterminal].
  set (nt' := nt_set_span nt (mk_span k kc' None)).
  exists (set_node g' n (NT nt')), kc', n, edge, (RNode nt' ds'), (<[n := NT nt']> N'), E', (NT nt').
  assert (HDf : forall m r, Den N' E' m r -> m <> n -> Den (<[n := NT nt']> N') E' m r).
  { apply (Den_frame N' E' _ _ (fun m => m <> n)).
    - intros m w Hm. by rewrite lookup_insert_ne.
    - done.
    - intros r R1 _. by apply (sg_top _ _ _ _ _ S'). }
  split_and!; try done.
  - apply set_node_ok; [done|]. rewrite EN'. rewrite (lookup_union_Some_l _ _ _ _ Hr'). done.
  - simpl. rewrite EN'. by rewrite insert_union_l.
  - apply map_disjoint_insert_l. split; [done|done].
  - by eapply seg_finish.
  - split; [done|]. intros nt2. rewrite lookup_insert. intros [= <-]. split; [|done].
    destruct l' as [|r l']; [done|]. exists r. assert (r ∈ r :: l') as (R1 & R2 & R3)%Hl' by set_solver. done.
  - by rewrite lookup_insert.
  - by econstructor.
  - apply (Den_node _ _ n nt' l' ds'); [by rewrite lookup_insert|done| |].
    + assert (Hfp : forall r, r ∈ l' -> first_pos (<[n := NT nt']> N') (e_tgt r) = first_pos N' (e_tgt r)).
      { intros r (R1 & R2 & R3)%Hl'. unfold first_pos. rewrite lookup_insert_ne; [done|].
        intros Et. by apply (sg_top _ _ _ _ _ S' r). }
      clear -HS' Hfp. induction HS' as [|x l HS IH HF]; constructor; [apply IH; set_solver|].
      rewrite Forall_forall in HF. apply Forall_forall. intros y Hy. rewrite !Hfp by set_solver. by apply HF.
    + apply Forall2_same_length_lookup. split; [by apply Forall2_length in HF'|].
      intros i r d Hr1 Hd. destruct (Forall2_lookup_lr _ _ _ _ _ _ HF' Hr1 Hd) as [Ed D].
      split; [done|]. apply HDf; [done|]. apply elem_of_list_lookup_2, Hl' in Hr1 as (R1 & _).
      by apply (sg_top _ _ _ _ _ S').
Qed.

Lemma built_all f : forall a s, G a s -> built f a.
Proof.
  intros a s H. revert a s H.
  apply (G_mut (fun a _ => built f a) (fun cs _ => Forall (built f) cs)).
  - intros. apply built_pre.
  - intros label cs b1 body _ _ Hne _ IH. by apply built_node.
  - constructor.
  - intros. by constructor.
Qed.

Lemma graph_empty_ok : graph_ok graph_empty.
Proof.
  constructor; simpl; try set_solver; try constructor.
  intros n [w Hw]. by rewrite lookup_empty in Hw.
Qed.

Theorem string_to_tree_spec f s :
  exists r, string_to_tree f s = Ret r /\
    (forall t, r = Ok t -> exists a, bracketed a s /\ WF t /\ is_projective t = true /\
       exists edge ro, Reads t ro /\ ast_rose f a edge ro /\ map t_idx (leaves ro) = seq 0 (tr_nterm t)) /\
    ((exists t, r = Ok t) <-> exists a, bracketed a s).
Proof.
  unfold string_to_tree. destruct (p_tree_spec s) as (r & -> & Hr). cbn [mbind outcome_bind].
  destruct r as [a|].
  - pose proof (proj1 (Hr a) eq_refl) as Hb. pose proof Hb as (b1 & s0 & b2 & _ & _ & _ & HG).
    destruct (built_all f a s0 HG graph_empty 0) as
      (g & k & n & edge & ro & N2 & E2 & w & -> & HGr & Hk & EN & Hd & EE & Sg & C & Hw & Hsp & Har & HD & Hl).
    { apply graph_empty_ok. }
    cbn [mbind outcome_bind]. simpl in EN, EE. rewrite map_union_empty in EN. rewrite app_nil_r in EE.
    assert (W : WF (mk_tree g k n 0)) by (apply seg_WF; by rewrite ?EN, ?EE).
    eexists. split; [reflexivity|]. split.
    + intros t [= <-]. exists a. split_and!; [done|done|done|].
      exists edge, ro. rewrite Nat.sub_0_r in Hl. subst N2 E2. done.
    + split; [eauto|]. intros _. eauto.
  - eexists. split; [reflexivity|]. split; [done|]. split; [intros [t H]; done|].
    intros [a Ha]. apply Hr in Ha. done.
Qed.
