(** What the bracketed writer prints, and reading it back. *)
From Coq Require Import Lia.
From Verif Require Import ModModel TreeSpec BaseProofs ShapeProofs GraphProofs SpanProofs SortProofs RoseSpec RoseProofs EqProofs SegProofs ResetProofs PtbSpec PtbProofs PtbBuild.

(** Sorting by a comparison that compares distinct keys. *)
Lemma sort_by_key {A} (cmp : A -> A -> comparison) (f : A -> nat) (l : list A) :
  (forall a b, a ∈ l -> b ∈ l -> f a <> f b -> cmp a b = Nat.compare (f a) (f b)) ->
  (forall a, a ∈ l -> cmp a a = Eq) ->
  (forall a b, a ∈ l -> b ∈ l -> f a = f b -> a = b) -> NoDup l ->
  StronglySorted (fun a b => f a < f b) (sort_by cmp l).
Proof.
  intros Hc Hr Hinj Hnd.
  assert (Hcmp : forall a b, a ∈ l -> b ∈ l -> cmp a b <> Gt <-> f a <= f b).
  { intros a b Ha Hb. destruct (decide (f a = f b)) as [E|Hne].
    - rewrite <- (Hinj a b Ha Hb E), Hr by done. split; [lia|done].
    - rewrite Hc by done. by rewrite Nat.compare_le_iff. }
  assert (HS : StronglySorted (fun a b => cmp a b <> Gt) (sort_by cmp l)).
  { apply (sort_by_sorted _ (fun x => x ∈ l)).
    - intros a b Ha Hb HG. rewrite Hcmp by done. destruct (decide (f a <= f b)) as [H|H]; [|lia].
      by apply Hcmp in H.
    - intros a b c Ha Hb Hc'. rewrite !Hcmp by done. lia.
    - by apply Forall_forall. }
  assert (Hin : forall x, x ∈ sort_by cmp l -> x ∈ l) by (intros x; by rewrite elem_of_sort_by).
  assert (Hnd' : NoDup (sort_by cmp l)) by (by rewrite sort_by_perm).
  induction HS as [|a l' HS IH HF]; constructor.
  - apply IH; [intros x Hx; apply Hin; set_solver|]. by apply NoDup_cons in Hnd' as [_ ?].
  - apply Forall_forall. intros b Hb. rewrite Forall_forall in HF. specialize (HF b Hb).
    apply Hcmp in HF; [|apply Hin; set_solver|apply Hin; set_solver].
    apply NoDup_cons in Hnd' as [Ha _].
    assert (f a <> f b); [|lia].
    intros E. apply Hinj in E; [|apply Hin; set_solver|apply Hin; set_solver]. congruence.
Qed.

Definition pair_of (r : erec) : nat * nat := (e_tgt r, e_id r).

Lemma sorted_pairs t n l :
  WF t -> (forall r, r ∈ l <-> r ∈ edges t /\ is_primary (e_w r) = true /\ e_src r = n) ->
  StronglySorted (fun a b => first_pos (nodes t) (e_tgt a) < first_pos (nodes t) (e_tgt b)) l ->
  sort_by (fun a b : nat * nat =>
             match g_nodes (tr_graph t) !! (fst a), g_nodes (tr_graph t) !! (fst b) with
             | Some wa, Some wb => span_cmp (node_span wa) (node_span wb)
             | _, _ => Eq
             end) (children t n) = map pair_of l.
Proof.
  intros [G Sh Tm Nt Nd] Hl HS.
  assert (Hch : forall ce : nat * nat, ce ∈ children t n -> PE (edges t) n ce.1).
  { intros [c e] He. apply children_PE. eauto. }
  assert (Hmem : forall ce, ce ∈ children t n <-> ce ∈ map pair_of l).
  { intros [c e]. rewrite elem_of_children, elem_of_list_fmap. split.
    - intros (r & R1 & R2 & R3 & <- & <-). exists r. split; [done|]. by apply Hl.
    - intros (r & [= -> ->] & (R1 & R2 & R3)%Hl). by exists r. }
  apply (ssorted_eq (fun ce : nat * nat => first_pos (nodes t) ce.1)).
  - apply sort_by_key.
    + intros a b Ha%Hch Hb%Hch Hne.
      destruct (proj2 (sh_live _ _ _ Sh n a.1 Ha)) as [wa Hwa], (proj2 (sh_live _ _ _ Sh n b.1 Hb)) as [wb Hwb].
      unfold first_pos in *. rewrite Hwa, Hwb in *. unfold span_cmp.
      destruct (Nat.eqb_spec (sp_start (node_span wa)) (sp_start (node_span wb))); [done|]. simpl.
      by destruct (Nat.compare_spec (sp_start (node_span wa)) (sp_start (node_span wb))).
    + intros a Ha. destruct (g_nodes (tr_graph t) !! a.1); [|done]. apply span_cmp_refl.
    + intros [c1 e1] [c2 e2] H1 H2 E. simpl in E.
      assert (c1 = c2) as <-.
      { apply (sibling_starts Sh Tm Nt n); [by apply Hch in H1|by apply Hch in H2|done]. }
      f_equal. apply elem_of_children in H1 as (r1 & A1 & A2 & A3 & A4 & <-).
      apply elem_of_children in H2 as (r2 & B1 & B2 & B3 & B4 & <-).
      f_equal. apply (sh_uniq _ _ _ Sh); congruence.
    + apply (NoDup_fmap_1 fst). by apply children_nodup.
  - clear Hl Hmem. induction HS as [|a l HS IH HF]; simpl; constructor; [done|].
    rewrite Forall_forall in HF. apply Forall_forall. intros x (r & -> & Hr)%elem_of_list_fmap. by apply HF.
  - intros ce. rewrite elem_of_sort_by. apply Hmem.
Qed.

(** The text of a rose tree. *)
Fixpoint rshow (f : ptb_format) (edge : option str) (r : rose) : str :=
  match r with
  | RLeaf tm => fmt_term f (t_form tm) (t_pos tm) edge
  | RNode nt cs =>
      [40%N] ++ Base.join (node_sep f) (fmt_inner f nt edge :: map (fun c => rshow f c.1 c.2) cs) ++ [41%N]
  end.

Fixpoint rdepth (r : rose) : nat :=
  match r with
  | RLeaf _ => 0
  | RNode _ cs => S (foldr (fun c m => Nat.max (rdepth c.2) m) 0 cs)
  end.

Lemma format_rose f t : WF t -> forall n r, Den (nodes t) (edges t) n r -> forall fuel edge,
  rdepth r < fuel -> format_sub_tree fuel f t n edge = Ret (rshow f edge r).
Proof.
  intros W n r D. revert n r D.
  apply (Den_ind' (nodes t) (edges t) (fun n r => forall fuel edge, rdepth r < fuel -> format_sub_tree fuel f t n edge = Ret (rshow f edge r))).
  - intros n tm Hn fuel edge Hf. destruct fuel as [|fuel]; [lia|]. cbn [format_sub_tree].
    unfold node_at. rewrite Hn. done.
  - intros n nt l cs Hn Hl HS HF fuel edge Hf. destruct fuel as [|fuel]; [lia|]. cbn [format_sub_tree].
    unfold node_at. rewrite Hn. cbn [unwrap mbind outcome_bind].
    rewrite (sorted_pairs t n l W Hl HS).
    assert (mapO (fun ce : nat * nat => we ← edge_at t ce.2; format_sub_tree fuel f t ce.1 (edge_label we)) (map pair_of l)
             = Ret (map (fun c => rshow f c.1 c.2) cs)) as ->; [|done].
    simpl in Hf.
    assert (Hlv : forall r, r ∈ l -> r ∈ edges t) by (intros r (R1 & _)%Hl; done).
    clear Hl HS. induction HF as [|r c l cs (Ed & _ & HD) HF IHl]; [done|]. simpl.
    simpl in Hf. assert (Hdep : rdepth c.2 < fuel) by lia.
    assert (Hre : edge_at t (e_id r) = Ret (e_w r)).
    { unfold edge_at. assert (find_edge (tr_graph t) (e_id r) = Some r) as ->; [|done].
      apply find_edge_Some; [by destruct W|]. split; [|done]. apply Hlv. set_solver. }
    rewrite Hre. cbn [mbind outcome_bind]. rewrite <- Ed, HD by done. cbn [mbind outcome_bind].
    rewrite IHl by (try done; try lia; set_solver). done.
Qed.

Lemma rdepth_rsize r : rdepth r <= rsize r.
Proof.
  induction r as [tm|nt cs IH] using rose_ind'; simpl; [lia|].
  assert (foldr (fun (c : option str * rose) m => Nat.max (rdepth c.2) m) 0 cs <= list_sum (map (fun c => rsize c.2) cs)); [|lia].
  induction IH as [|c cs Hc _ IHc]; simpl; lia.
Qed.

Theorem tree_to_string_spec f t r : WF t -> Reads t r ->
  tree_to_string f t = Ret (if is_projective t then Ok (rshow f None r) else Err).
Proof.
  intros W D. unfold tree_to_string. destruct (is_projective t); [|done].
  rewrite (format_rose f t W _ r D); [done|]. rewrite (Reads_size t r W D).
  pose proof (rdepth_rsize r). lia.
Qed.

(** *** Positions in a projective tree *)
Inductive tight : rose -> Prop :=
| tight_leaf tm : t_span tm = span_of (t_idx tm) -> tight (RLeaf tm)
| tight_node nt cs lo hi :
    lo < hi -> nt_span nt = mk_span lo hi None -> map t_idx (leaves (RNode nt cs)) = seq lo (hi - lo) ->
    Forall (fun c => tight c.2) cs -> tight (RNode nt cs).

Lemma StronglySorted_app2 {A} (R : A -> A -> Prop) (l1 l2 : list A) :
  StronglySorted R l1 -> StronglySorted R l2 -> (forall x y, x ∈ l1 -> y ∈ l2 -> R x y) ->
  StronglySorted R (l1 ++ l2).
Proof.
  intros H1 H2. induction H1 as [|a l1 H1 IH HF]; intros H; simpl; [done|].
  constructor; [apply IH; set_solver|]. apply Forall_app. split; [done|].
  apply Forall_forall. intros y Hy. apply H; set_solver.
Qed.

Lemma proj_no_gap t n w : WF t -> is_projective t = true -> nodes t !! n = Some w -> sp_skips (node_span w) = None.
Proof.
  intros W Hp Hw. unfold is_projective in Hp. apply Nat.eqb_eq in Hp. rewrite (wf_ndisc _ W) in Hp.
  pose proof (proj1 (ndisc_of_zero _) Hp n w Hw) as Hg. unfold gappy in Hg.
  destruct (sp_skips (node_span w)) as [k|]; [|done]. exfalso. by apply Hg.
Qed.

Lemma Den_tight t n r :
  WF t -> is_projective t = true -> Den (nodes t) (edges t) n r ->
  tight r /\ StronglySorted lt (map t_idx (leaves r)).
Proof.
  intros W Hp. pose proof W as [G Sh Tm Nt Nd]. revert n r.
  apply (Den_ind' (nodes t) (edges t) (fun n r => tight r /\ StronglySorted lt (map t_idx (leaves r)))).
  - intros n tm H. split; [|simpl; repeat constructor].
    destruct (term_pos_of _ _ _ _ Tm H) as ((tm' & Ht & Hs) & _). constructor.
    rewrite H in Ht. injection Ht as <-. unfold t_idx. by rewrite Hs.
  - intros n nt l cs H1 H2 H3 H4.
    assert (HDn : Den (nodes t) (edges t) n (RNode nt cs)).
    { apply (Den_node _ _ n nt l cs); [done|done|done|]. eapply Forall2_impl; [exact H4|]. simpl. intros; tauto. }
    pose proof (Den_yields t n _ W HDn) as Hy.
    assert (HSL : StronglySorted lt (map t_idx (leaves (RNode nt cs)))).
    { simpl. clear HDn Hy.
      assert (Hl : forall r, r ∈ l -> PE (edges t) n (e_tgt r)) by (intros r (R1 & R2 & R3)%H2; by exists r).
      clear H2. induction H4 as [|r c l cs (E & D & _ & HS) H4 IH4]; simpl; [constructor|].
      apply StronglySorted_inv in H3 as [H3 HF]. rewrite map_app.
      apply StronglySorted_app2; [done|apply IH4; [done|set_solver]|].
      intros i j Hi (tm & -> & Hj)%elem_of_list_fmap. apply elem_of_concat in Hj as (lv & Hj & Hlv).
      apply elem_of_list_fmap in Hlv as (d & -> & Hd).
      apply elem_of_list_lookup in Hd as (k & Hk).
      destruct (Forall2_lookup_r _ _ _ _ _ H4 Hk) as (r' & Hr' & _ & D' & _ & _).
      apply elem_of_list_lookup_2 in Hr'. rewrite Forall_forall in HF. pose proof (HF r' Hr') as Hlt.
      pose proof (proj2 (Den_yields t _ _ W D i) Hi) as Yi.
      assert (Yj : yields (nodes t) (edges t) (e_tgt r') (t_idx tm)).
      { apply (Den_yields t _ _ W D'). apply elem_of_list_fmap. eauto. }
      pose proof (Hl r ltac:(set_solver)) as P1. pose proof (Hl r' ltac:(set_solver)) as P2.
      destruct (proj2 (sh_live _ _ _ Sh _ _ P1)) as [w1 W1], (proj2 (sh_live _ _ _ Sh _ _ P2)) as [w2 W2].
      unfold first_pos in Hlt. rewrite W1, W2 in Hlt.
      destruct (node_span_ok _ _ _ _ _ _ Sh Tm Nt W1) as [O1 C1], (node_span_ok _ _ _ _ _ _ Sh Tm Nt W2) as [O2 C2].
      pose proof (proj_no_gap t _ _ W Hp W1) as G1. pose proof (proj_no_gap t _ _ W Hp W2) as G2.
      destruct (node_span w1) as [a1 b1 s1], (node_span w2) as [a2 b2 s2]. simpl in *. subst s1 s2.
      assert (Hdis : forall k, a1 <= k < b1 -> a2 <= k < b2 -> False).
      { intros k' Hk1 Hk2.
        assert (e_tgt r = e_tgt r') as Et.
        { apply (yields_sibling Sh Tm n _ _ k' P1 P2); [apply C1|apply C2]; by apply covers_plain. }
        assert (Y : covers (mk_span a1 b1 None) a1) by (apply covers_plain; lia).
        apply C1 in Y. rewrite Et in Y. apply C2, covers_plain in Y. lia. }
      apply C1, covers_plain in Yi. apply C2, covers_plain in Yj.
      destruct (decide (i < t_idx tm)) as [|Hge]; [done|exfalso].
      apply (Hdis a2); lia. }
    split; [|done].
    pose proof (proj_no_gap t n _ W Hp H1) as Hg.
    destruct (node_span_ok _ _ _ _ _ _ Sh Tm Nt H1) as [O C]. simpl in Hg, O, C.
    destruct (nt_span nt) as [lo hi sk] eqn:Esp. simpl in Hg. subst sk.
    apply (tight_node nt cs lo hi); [|done| |].
    + apply O.
    + apply (ssorted_eq (fun x => x)); [done|apply seq_ssorted|].
      intros i. rewrite <- Hy, <- C, covers_plain, elem_of_seq. lia.
    + clear -H4. induction H4 as [|r c l cs (_ & _ & H & _) H4 IH]; by constructor.
Qed.

(** Relating the positions of two readings. *)
Lemma rose_rel_leaves RT RN RE r r' : rose_rel RT RN RE r r' -> length (leaves r) = length (leaves r').
Proof.
  revert r'. induction r as [tm|nt cs IH] using rose_ind'; intros r' H; inversion H as [a b Hab|a b cs' ds Hab HF]; subst; simpl; [done|].
  clear H Hab. induction HF as [|c d cs ds [_ Hcd] HF IHF]; simpl; [done|].
  apply Forall_cons in IH as [IHc IH]. by rewrite !app_length, (IHc _ Hcd), IHF.
Qed.
Lemma rose_rel_tight RT RN RE r r' :
  rose_rel RT RN RE r r' -> tight r -> tight r' -> map t_idx (leaves r) = map t_idx (leaves r') ->
  rose_rel (fun a b => RT a b /\ t_span a = t_span b) (fun a b => RN a b /\ nt_span a = nt_span b) RE r r'.
Proof.
  revert r'. induction r as [tm|nt cs IH] using rose_ind'; intros r' H T1 T2 E; inversion H as [a b Hab|a b cs' ds Hab HF]; subst.
  - constructor. split; [done|]. inversion T1; subst. inversion T2; subst. simpl in E. injection E as E. congruence.
  - inversion T1 as [|? ? lo1 hi1 B1 S1 L1 F1]; subst. inversion T2 as [|? ? lo2 hi2 B2 S2 L2 F2]; subst.
    constructor.
    + split; [done|]. rewrite S1, S2.
      rewrite L1, L2 in E. pose proof (f_equal length E) as El. rewrite !seq_length in El.
      pose proof (f_equal head E) as Eh. destruct (hi1 - lo1) eqn:?, (hi2 - lo2) eqn:?; simpl in *; try lia.
      injection Eh as ->. f_equal. lia.
    + clear H L1 L2 S1 S2 T1 T2 Hab. simpl in E. induction HF as [|c d cs ds [He Hcd] HF IHF]; [constructor|].
      apply Forall_cons in IH as [IHc IH], F1 as [T1 F1], F2 as [T2 F2]. simpl in E. rewrite !map_app in E.
      apply app_inj_1 in E as [E1 E2]; [|rewrite !map_length; by eapply rose_rel_leaves].
      constructor; [|by apply IHF]. split; [done|]. by apply IHc.
Qed.

(** *** The printed text is a bracketed tree *)
Definition esc (s : str) : str := replace_char 41%N (lit "RBR") (replace_char 40%N (lit "LBR") s).
Definition ptb_tok (f : ptb_format) (pos : str) (edge : option str) : str :=
  match f with TueBa => esc pos ++ [58%N] ++ default (lit "--") edge | _ => esc pos end.
Fixpoint ast_of (f : ptb_format) (edge : option str) (r : rose) : ast :=
  match r with
  | RLeaf tm => APre (ptb_tok f (t_pos tm) edge) (esc (t_form tm))
  | RNode nt cs => ANode (fmt_inner f nt edge) (map (fun c => ast_of f c.1 c.2) cs)
  end.

Lemma esc_cons c s : esc (c :: s) = (if decide (c = 40%N) then lit "LBR" else if decide (c = 41%N) then lit "RBR" else [c]) ++ esc s.
Proof.
  unfold esc, replace_char. simpl. destruct (N.eqb_spec c 40) as [->|H1]; [done|]. simpl.
  rewrite decide_False by done. destruct (N.eqb_spec c 41) as [->|H2]; [done|]. by rewrite decide_False by done.
Qed.
Lemma esc_escaped s s' : escaped s s' <-> s' = esc s.
Proof.
  split.
  - induction 1 as [|s s' H ->|s s' H ->|c s s' H1 H2 H ->]; [done|by rewrite esc_cons|by rewrite esc_cons|].
    rewrite esc_cons. by rewrite !decide_False by done.
  - intros ->. induction s as [|c s IH]; [constructor|]. rewrite esc_cons.
    destruct (decide (c = 40%N)) as [->|H1]; [by constructor|].
    destruct (decide (c = 41%N)) as [->|H2]; by constructor.
Qed.
Lemma esc_plain s : (forall c, c ∈ s -> c <> 40%N /\ c <> 41%N) -> esc s = s.
Proof.
  induction s as [|c s IH]; intros H; [done|]. rewrite esc_cons.
  destruct (H c ltac:(set_solver)) as [H1 H2]. rewrite !decide_False by done. simpl. f_equal. apply IH. set_solver.
Qed.
Lemma esc_bracketless s : bracketless (esc s).
Proof.
  induction s as [|c s [I1 I2]]; [split; set_solver|]. rewrite esc_cons.
  destruct (decide (c = 40%N)) as [->|H1]; [|destruct (decide (c = 41%N)) as [->|H2]];
    split; rewrite elem_of_app; intros [H|H]; try done; vm_compute in H || idtac.
  all: repeat (apply elem_of_cons in H as [H|H]; [congruence|]); by apply elem_of_nil in H.
Qed.
Lemma esc_word s : s <> [] -> unblank s -> word (esc s).
Proof.
  intros Hne Hu. split.
  - destruct s as [|c s]; [done|]. rewrite esc_cons. intros [H _]%app_nil.
    destruct (decide (c = 40%N)); [done|]. by destruct (decide (c = 41%N)).
  - clear Hne. induction Hu as [|c s Hc Hu IH]; [constructor|]. rewrite esc_cons. apply Forall_app. split; [|done].
    destruct (decide (c = 40%N)); [|destruct (decide (c = 41%N))].
    + repeat constructor; set_solver.
    + repeat constructor; set_solver.
    + constructor; [|constructor]. set_solver.
Qed.
Lemma esc_unblank_plain s : unblank s -> plain [] (esc s).
Proof.
  intros Hu. destruct s as [|c s]; [constructor|]. apply (esc_word (c :: s)); [done|done].
Qed.
Lemma word_plain s : word s <-> s <> [] /\ plain [] s.
Proof. unfold word, plain. by rewrite app_nil_r. Qed.
Lemma plain_app no a b : plain no (a ++ b) <-> plain no a /\ plain no b.
Proof. apply Forall_app. Qed.
Lemma plain_weaken no s : plain no s -> plain [] s.
Proof. intros H. eapply Forall_impl; [exact H|]. simpl. set_solver. Qed.
Lemma plain_one c : c ∉ [32; 10; 13; 40; 41]%N -> plain [] [c].
Proof. intros H. constructor; [|constructor]. by rewrite app_nil_r. Qed.

Lemma annotated_spec nt a : annotated nt a <-> nt_annotation nt = Some a.
Proof.
  unfold annotated, nt_annotation, annotation_key. destruct (nt_feats nt) as [m|]; [|naive_solver].
  unfold feats_get. split.
  - intros (m' & [= <-] & ->). done.
  - intros H. exists m. split; [done|]. destruct (m !! lit "node_annotation") as [[x|]|]; simpl in H; congruence.
Qed.
Lemma dash_plain : plain [] (lit "--").
Proof. unfold lit. vm_compute. repeat constructor; set_solver. Qed.
Lemma edge_plain (e : option str) : (forall s, e = Some s -> plain [] s) -> plain [] (default (lit "--") e).
Proof. intros H. destruct e as [s|]; [by apply H|]. apply dash_plain. Qed.

Lemma inner_word f e nt : nt_printable f e nt -> word (fmt_inner f nt e).
Proof.
  intros [Hl Hf]. apply word_plain. destruct f; simpl in *.
  - destruct Hf as [Hne Ha]. split; [by destruct (nt_label nt)|]. apply plain_app. split; [done|].
    destruct (nt_annotation nt) as [a|] eqn:E; [|constructor]. apply annotated_spec, Ha in E.
    apply (plain_app [] [45%N] a). split; [|done]. apply plain_one. set_solver.
  - done.
  - destruct Hf as [Ha He]. split; [by destruct (nt_label nt), (nt_annotation nt)|].
    apply plain_app. split; [done|]. apply plain_app. split.
    + destruct (nt_annotation nt) as [a|] eqn:E; [|constructor]. apply annotated_spec, Ha in E.
      apply (plain_app [] [61%N] a). split; [|done]. apply plain_one. set_solver.
    + apply (plain_app [] [58%N]). split; [apply plain_one; set_solver|by apply edge_plain].
Qed.

Lemma GS_join f cs : Forall (fun c => G (ast_of f c.1 c.2) (rshow f c.1 c.2)) cs -> cs <> [] ->
  GS (map (fun c => ast_of f c.1 c.2) cs) (node_sep f ++ Base.join (node_sep f) (map (fun c => rshow f c.1 c.2) cs)).
Proof.
  assert (Hb : blank (node_sep f)) by (destruct f; repeat constructor; set_solver).
  induction 1 as [|c cs Hc HF IH]; intros Hne; [done|]. destruct cs as [|c' cs].
  - simpl. rewrite <- (app_nil_r (rshow f c.1 c.2)). constructor; [done|done|]. constructor. constructor.
  - change (Base.join (node_sep f) (map (fun c => rshow f c.1 c.2) (c :: c' :: cs)))
      with (rshow f c.1 c.2 ++ node_sep f ++ Base.join (node_sep f) (map (fun c => rshow f c.1 c.2) (c' :: cs))).
    constructor; [done|done|]. by apply IH.
Qed.

Inductive inhabited_rose : rose -> Prop :=
| inh_leaf tm : inhabited_rose (RLeaf tm)
| inh_node nt cs : cs <> [] -> Forall (fun c => inhabited_rose c.2) cs -> inhabited_rose (RNode nt cs).

Lemma rshow_G f : forall r e, inhabited_rose r -> printable f e r -> G (ast_of f e r) (rshow f e r).
Proof.
  induction r as [tm|nt cs IH] using rose_ind'; intros e HI HP.
  - inversion HP as [? ? (H1 & H2 & H3 & H4)|]; subst. cbn [ast_of rshow].
    assert (Hw : word (ptb_tok f (t_pos tm) e)).
    { unfold ptb_tok. destruct f; [by apply esc_word|by apply esc_word|].
      apply word_plain. split; [by destruct (esc (t_pos tm))|]. apply plain_app. split; [by apply esc_unblank_plain|].
      apply (plain_app [] [58%N]). split; [apply plain_one; set_solver|by apply edge_plain]. }
    pose proof (G_pre (ptb_tok f (t_pos tm) e) (esc (t_form tm)) [] [32%N] [] Hw (esc_word _ H1 H2)) as HG.
    assert (fmt_term f (t_form tm) (t_pos tm) e = [40%N] ++ [] ++ ptb_tok f (t_pos tm) e ++ [32%N] ++ esc (t_form tm) ++ [] ++ [41%N]) as ->.
    { unfold fmt_term, ptb_tok. fold (esc (t_pos tm)) (esc (t_form tm)). destruct f; [done|done|].
      by rewrite !app_nil_l, <- !(assoc_L (++)). }
    apply HG; repeat constructor; try done; set_solver.
  - inversion HP as [|? ? ? Hn HF]; subst. inversion HI as [|? ? Hne HI']; subst. cbn [ast_of rshow].
    assert (HGs : Forall (fun c => G (ast_of f c.1 c.2) (rshow f c.1 c.2)) cs).
    { apply Forall_forall. intros c Hc. rewrite Forall_forall in IH. rewrite Forall_forall in HF. rewrite Forall_forall in HI'.
      by apply IH; [|apply HI'|apply HF]. }
    pose proof (GS_join f cs HGs Hne) as HB.
    assert (Hmne : map (fun c : option str * rose => ast_of f c.1 c.2) cs <> []) by (by destruct cs).
    pose proof (G_node (fmt_inner f nt e) _ [] _ (inner_word f e nt Hn) ltac:(constructor) Hmne HB) as HG.
    destruct cs as [|c cs]; [done|].
    change (Base.join (node_sep f) (fmt_inner f nt e :: map (fun c => rshow f c.1 c.2) (c :: cs)))
      with (fmt_inner f nt e ++ node_sep f ++ Base.join (node_sep f) (map (fun c => rshow f c.1 c.2) (c :: cs))).
    rewrite app_nil_l in HG. rewrite <- !(assoc_L (++)) in HG. rewrite <- !(assoc_L (++)). exact HG.
Qed.

Lemma ast_of_words f : forall r e, words (ast_of f e r) = map (fun tm => esc (t_form tm)) (leaves r).
Proof.
  induction r as [tm|nt cs IH] using rose_ind'; intros e; simpl; [done|].
  induction IH as [|c cs Hc HF IH]; simpl; [done|]. by rewrite Hc, IH, map_app.
Qed.

(** *** Balance *)
Lemma balanced_app a b : balanced a -> balanced b -> balanced (a ++ b).
Proof.
  induction 1 as [|c s H1 H2 H IH|s1 s2 H1 IH1 H2 IH2]; intros Hb; simpl; [done|by constructor; auto|].
  rewrite <- (assoc_L (++)). simpl. constructor; [done|by apply IH2].
Qed.
Lemma balanced_plain s : bracketless s -> balanced s.
Proof. intros [H1 H2]. induction s as [|c s IH]; constructor; set_solver. Qed.
Lemma balanced_wrap s : balanced s -> balanced ([40%N] ++ s ++ [41%N]).
Proof. intros H. apply (bal_pair s []); [done|constructor]. Qed.
Lemma bracketless_app a b : bracketless a -> bracketless b -> bracketless (a ++ b).
Proof. intros [? ?] [? ?]. split; set_solver. Qed.
Lemma bracketless_dec s : bool_decide (40%N ∉ s) = true -> bool_decide (41%N ∉ s) = true -> bracketless s.
Proof. intros ?%bool_decide_eq_true ?%bool_decide_eq_true. done. Qed.
Lemma edge_bracketless (e : option str) : (forall s, e = Some s -> bracketless s) -> bracketless (default (lit "--") e).
Proof. intros H. destruct e as [s|]; [by apply H|]. by apply bracketless_dec. Qed.

Lemma rshow_balanced f : forall r e, labels_bracketless e r -> balanced (rshow f e r).
Proof.
  induction r as [tm|nt cs IH] using rose_ind'; intros e H; cbn [rshow].
  - inversion H as [? ? He|]; subst. unfold fmt_term. fold (esc (t_pos tm)) (esc (t_form tm)).
    assert (balanced ([40%N] ++ (match f with TueBa => esc (t_pos tm) ++ [58%N] ++ default (lit "--") e | _ => esc (t_pos tm) end ++ [32%N] ++ esc (t_form tm)) ++ [41%N])) as HB.
    { apply balanced_wrap, balanced_plain. repeat apply bracketless_app; try apply esc_bracketless; try (by apply bracketless_dec).
      destruct f; repeat apply bracketless_app; try apply esc_bracketless; try (by apply bracketless_dec). by apply edge_bracketless. }
    destruct f; rewrite <- !(assoc_L (++)) in HB; exact HB.
  - inversion H as [|? ? ? He Hl Ha HF]; subst. apply balanced_wrap.
    assert (Hi : bracketless (fmt_inner f nt e)).
    { unfold fmt_inner. destruct f; repeat apply bracketless_app; try done; try (by apply bracketless_dec).
      - destruct (nt_annotation nt) as [a|] eqn:E; [|by apply bracketless_dec]. apply annotated_spec, Ha in E.
        apply bracketless_app; [by apply bracketless_dec|done].
      - destruct (nt_annotation nt) as [a|] eqn:E; [|by apply bracketless_dec]. apply annotated_spec, Ha in E.
        apply bracketless_app; [by apply bracketless_dec|done].
      - by apply edge_bracketless. }
    assert (Hj : forall x ls, balanced x -> Forall balanced ls -> balanced (Base.join (node_sep f) (x :: ls))).
    { intros x ls Hx HL. revert x Hx. induction HL as [|y ls Hy HL IHL]; intros x Hx; [done|].
      apply balanced_app; [done|]. apply balanced_app; [|by apply IHL].
      apply balanced_plain. destruct f; by apply bracketless_dec. }
    apply Hj; [by apply balanced_plain|]. apply Forall_map. rewrite Forall_forall in IH. rewrite Forall_forall in HF.
    apply Forall_forall. intros c Hc. apply IH; [done|by apply HF].
Qed.

(** Bracketed texts are balanced. *)
Lemma blank_balanced b : blank b -> balanced b.
Proof. induction 1 as [|c b Hc Hb IH]; constructor; [set_solver|set_solver|done]. Qed.
Lemma word_balanced w : word w -> balanced w.
Proof. intros [_ H]. induction H as [|c b Hc Hb IH]; constructor; [set_solver|set_solver|done]. Qed.
Lemma G_balanced a s : G a s -> balanced s.
Proof.
  revert a s. apply (G_mut (fun _ s => balanced s) (fun _ s => balanced s)).
  - intros label form b1 b2 b3 Hl Hf H1 H2 _ H3.
    replace ([40%N] ++ b1 ++ label ++ b2 ++ form ++ b3 ++ [41%N]) with ([40%N] ++ (b1 ++ label ++ b2 ++ form ++ b3) ++ [41%N])
      by (by rewrite <- !(assoc_L (++))).
    apply balanced_wrap. repeat apply balanced_app; first [by apply blank_balanced|by apply word_balanced].
  - intros label cs b1 body Hl H1 _ _ IH.
    replace ([40%N] ++ b1 ++ label ++ body ++ [41%N]) with ([40%N] ++ (b1 ++ label ++ body) ++ [41%N])
      by (by rewrite <- !(assoc_L (++))).
    apply balanced_wrap. repeat apply balanced_app; first [by apply blank_balanced|by apply word_balanced|done].
  - intros b Hb. by apply blank_balanced.
  - intros a cs b s s' Hb _ IH1 _ IH2. repeat apply balanced_app; [by apply blank_balanced|done|done].
Qed.
Lemma opens_cons c s : opens (c :: s) = (if decide (c = 40%N) then 1 else 0) + opens s.
Proof. destruct (decide (c = 40%N)) as [->|H]; [done|]. exact (f_equal length (filter_cons_False (fun c => c = 40%N) c s H)). Qed.
Lemma closes_cons c s : closes (c :: s) = (if decide (c = 41%N) then 1 else 0) + closes s.
Proof. destruct (decide (c = 41%N)) as [->|H]; [done|]. exact (f_equal length (filter_cons_False (fun c => c = 41%N) c s H)). Qed.
Lemma opens_app a b : opens (a ++ b) = opens a + opens b.
Proof. induction a as [|c a IH]; [done|]. simpl. rewrite !opens_cons, IH. lia. Qed.
Lemma closes_app a b : closes (a ++ b) = closes a + closes b.
Proof. induction a as [|c a IH]; [done|]. simpl. rewrite !closes_cons, IH. lia. Qed.
Lemma balanced_count s : balanced s -> opens s = closes s.
Proof.
  induction 1 as [|c s H1 H2 H IH|s1 s2 H1 IH1 H2 IH2]; [done| |].
  - rewrite opens_cons, closes_cons. by rewrite !decide_False by done.
  - rewrite opens_cons, closes_cons, opens_app, closes_app, opens_cons, closes_cons.
    simpl. lia.
Qed.
Lemma plain_bracketless no s : plain no s -> bracketless s.
Proof. intros H. unfold plain in H. rewrite Forall_forall in H. split; intros Hc; specialize (H _ Hc); set_solver. Qed.
Lemma printable_bracketless : forall r e, printable TueBa e r -> labels_bracketless e r.
Proof.
  induction r as [tm|nt cs IH] using rose_ind'; intros e H.
  - inversion H as [? ? (_ & _ & _ & H1)|]; subst. constructor. intros s Hs. by eapply plain_bracketless, H1.
  - inversion H as [|? ? ? (Hl & Ha & He) HF]; subst. constructor.
    + intros s Hs. by eapply plain_bracketless, He.
    + by eapply plain_bracketless.
    + intros a Hx. by eapply plain_bracketless, Ha.
    + rewrite Forall_forall in IH. rewrite Forall_forall in HF. apply Forall_forall. intros c Hc. apply IH; [done|by apply HF].
Qed.
