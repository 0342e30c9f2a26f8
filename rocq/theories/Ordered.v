(** Trees delivered by the readers number their terminals in sentence order. *)
From Coq Require Import Lia.
From Verif Require Import PtbModel NegraModel ConllModel TreeSpec BaseProofs GraphProofs PtbBuild.

Definition ordered (t : tree) : Prop :=
  forall x y i j, term_pos (nodes t) x i -> term_pos (nodes t) y j -> x < y -> i < j.

Definition tpos (N : gmap nat node) (n : nat) : option nat :=
  match N !! n with Some (T tm) => Some (sp_start (t_span tm)) | _ => None end.
Definition mono (N : gmap nat node) : Prop :=
  forall x y i j, tpos N x = Some i -> tpos N y = Some j -> x < y -> i < j.
Lemma mono_ordered t : mono (nodes t) -> ordered t.
Proof.
  intros H x y i j (a & Ha & Ea) (b & Hb & Eb). apply H; unfold tpos; [rewrite Ha, Ea|rewrite Hb, Eb]; done.
Qed.
Lemma ordered_mono t : WF t -> ordered t -> mono (nodes t).
Proof.
  intros W H x y i j. unfold tpos. destruct (nodes t !! x) as [[|a]|] eqn:Ea; [done| |done]. destruct (nodes t !! y) as [[|b]|] eqn:Eb; [done| |done].
  intros [= <-] [= <-]. destruct (to_pos _ _ (wf_terms _ W) _ _ Ea) as (i & Ei & _). destruct (to_pos _ _ (wf_terms _ W) _ _ Eb) as (j & Ej & _).
  apply H; [exists a|exists b]; rewrite ?Ei, ?Ej; done.
Qed.
Lemma mono_keeps N N' : (forall n, tpos N' n = tpos N n) -> mono N -> mono N'.
Proof. intros H M x y i j. rewrite !H. apply M. Qed.
Lemma mono_sub N N' : (forall n i, tpos N' n = Some i -> tpos N n = Some i) -> mono N -> mono N'.
Proof. intros H M x y i j Hx%H Hy%H. by apply M. Qed.

(** While a graph is built: [k] terminals so far. *)
Record Ord (g : graph) (k : nat) : Prop := {
  ord_free : g_nfree g = [];
  ord_bound : forall n i, tpos (g_nodes g) n = Some i -> n < g_ncap g /\ i < k;
  ord_mono : mono (g_nodes g)
}.
Lemma tpos_insert N n w m : tpos (<[n := w]> N) m =
  if decide (m = n) then match w with T tm => Some (sp_start (t_span tm)) | NT _ => None end else tpos N m.
Proof. unfold tpos. case_decide as E; [subst; by rewrite lookup_insert|by rewrite lookup_insert_ne]. Qed.
Lemma Ord_empty : Ord graph_empty 0.
Proof. by constructor. Qed.
Lemma Ord_nt g k nt g' n : Ord g k -> add_node g (NT nt) = (g', n) -> Ord g' k.
Proof.
  intros [F B M]. unfold add_node. rewrite F. intros [= <- <-]. constructor; simpl; [done| |].
  - intros n i. rewrite tpos_insert. case_decide; [done|]. intros Hb%B. lia.
  - apply (mono_sub (g_nodes g)); [|done]. intros n i. rewrite tpos_insert. by case_decide.
Qed.
Lemma Ord_t g k tm g' n : Ord g k -> sp_start (t_span tm) = k -> add_node g (T tm) = (g', n) -> Ord g' (S k).
Proof.
  intros [F B M] <-. unfold add_node. rewrite F. intros [= <- <-]. constructor; simpl; [done| |].
  - intros n i. rewrite tpos_insert. case_decide as E; [intros [= <-]; lia|]. intros Hb%B. lia.
  - intros x y i j. rewrite !tpos_insert. case_decide as Ex; case_decide as Ey; intros Hx Hy Hlt; subst; simplify_eq.
    + lia.
    + apply B in Hy. lia.
    + apply B in Hx. lia.
    + by eapply M.
Qed.
Lemma Ord_edge g k a b w g' e : Ord g k -> add_edge g a b w = Ret (g', e) -> Ord g' k.
Proof.
  intros [F B M]. unfold add_edge. destruct (_ && _)%bool; [|done].
  destruct (g_efree g); intros [= <- <-]; by constructor.
Qed.
Lemma add_edge_nodes g a b w g' e : add_edge g a b w = Ret (g', e) -> g_nodes g' = g_nodes g.
Proof. unfold add_edge. destruct (_ && _)%bool; [|done]. by destruct (g_efree g); intros [= <- <-]. Qed.
Lemma Ord_set g k n w' : Ord g k -> (exists nt, w' = NT nt) -> Ord (set_node g n w') k.
Proof.
  intros [F B M] [nt ->]. constructor; simpl; [done| |].
  - intros m i. rewrite tpos_insert. case_decide; [done|]. apply B.
  - apply (mono_sub (g_nodes g)); [|done]. intros m i. rewrite tpos_insert. by case_decide.
Qed.

(** *** Bracketed trees *)
Lemma bind_inv {A B} (m : outcome A) (f : A -> outcome B) y : (x ← m; f x) = Ret y -> exists x, m = Ret x /\ f x = Ret y.
Proof. destruct m; simpl; [eauto|done|done]. Qed.
Lemma parse_value_ord f a : forall g k g' k' x, Ord g k -> parse_value f a g k = Ret (g', k', x) -> Ord g' k'.
Proof.
  induction a as [label form|label cs IH] using ast_ind'; intros g k g' k' x HO.
  - cbn [parse_value]. destruct (process_label f label) as [[tag edge] ann]. destruct (add_node g _) as [g1 n] eqn:Ea.
    intros [= <- <- <-]. eapply Ord_t; [exact HO| |exact Ea]. done.
  - cbn [parse_value]. destruct (process_label f label) as [[lab edge] ann].
    set (nt0 := match ann with Some a => _ | None => _ end). assert (exists nt, nt0 = NT nt) as [nt Hnt] by (unfold nt0; destruct ann; eexists; done).
    clearbody nt0. subst nt0. destruct (add_node g (NT nt)) as [g1 n] eqn:Ea. apply (Ord_nt _ _ _ _ _ HO) in Ea. clear HO. rename Ea into HO.
    intros ([[[g2 k2] lower] upper] & Hgo & H)%bind_inv.
    assert (HO2 : Ord g2 k2).
    { clear H. revert HO Hgo. generalize 0 at 2. generalize 0. generalize g1 k. generalize true.
      induction cs as [|c cs IHcs]; intros first g3 k3 lo up HO; [by intros [= <- <- <- <-]|].
      apply Forall_cons in IH as [IHc IH]. intros ([[g4 k4] [[sp child] edge']] & H1 & H2)%bind_inv.
      apply bind_inv in H2 as ([g5 e] & H2 & H3). eapply IHcs; [done| |exact H3]. eapply Ord_edge; [|done]. by eapply IHc. }
    apply bind_inv in H as (sp & _ & H). apply bind_inv in H as (w & _ & H). apply bind_inv in H as (nt' & _ & H).
    injection H as <- <- <-. apply Ord_set; [done|]. by eexists.
Qed.
Lemma string_to_tree_ordered f s t : string_to_tree f s = Ret (Ok t) -> ordered t.
Proof.
  unfold string_to_tree. intros ([a|] & _ & H)%bind_inv; [|done]. apply bind_inv in H as ([[g k] [[sp n] e]] & H1 & H2).
  injection H2 as <-. apply mono_ordered. eapply ord_mono, parse_value_ord; [apply Ord_empty|done].
Qed.

(** *** Label sequences *)
Lemma reset_nt_span_mono t n t' : reset_nt_span t n = Ret t' -> mono (nodes t) -> mono (nodes t').
Proof.
  unfold reset_nt_span. intros (w & _ & H)%bind_inv M. destruct w as [nt|tm]; [|by injection H as <-].
  apply bind_inv in H as (spans & _ & H). apply bind_inv in H as (r & _ & H). apply bind_inv in H as (s & _ & H). injection H as <-.
  apply (mono_sub (nodes t)); [|done]. intros m i.
  assert (E : tpos (nodes (put_node match sp_skips s with Some _ => set_ndisc t (tr_ndisc t + 1) | None => t end n (NT (nt_set_span nt s)))) m
    = tpos (<[n := NT (nt_set_span nt s)]> (nodes t)) m) by (by destruct (sp_skips s)).
  rewrite E, tpos_insert. by case_decide.
Qed.
Lemma reset_loop_mono fuel : forall t d t', reset_loop fuel t d = Ret t' -> mono (nodes t) -> mono (nodes t').
Proof.
  induction fuel as [|fuel IH]; intros t d t'; [done|]. simpl. intros ([[n d']|] & _ & H)%bind_inv M; [|by injection H as <-].
  apply bind_inv in H as (t1 & H1 & H). eapply IH; [done|]. by eapply reset_nt_span_mono.
Qed.
Lemma descend_common_ord k : forall g cur i p idx n g' cur', Ord g n -> descend_common g cur i k p idx = Ret (g', cur') -> Ord g' n.
Proof.
  induction k as [|k IH]; intros g cur i p idx n g' cur' HO; cbn [descend_common]; [by intros [= <- <-]|].
  destruct (if Nat.ltb p i then None else _) as [c|]; [by apply IH|].
  destruct (add_node g _) as [g1 m] eqn:Ea. intros ([g2 e] & H1 & H2)%bind_inv. eapply IH; [|done]. eapply Ord_edge; [|done]. by eapply Ord_nt.
Qed.
Lemma relabel_kind w l : match relabel w l with T tm => exists tm', w = T tm' /\ t_span tm = t_span tm' | NT _ => exists nt, w = NT nt end.
Proof. unfold relabel. destruct (rsplit_us l) as [[c l']|]; destruct w; simpl; eauto. Qed.
Lemma Ord_same g k n w w' : Ord g k -> g_nodes g !! n = Some w ->
  match w' with T tm => exists tm', w = T tm' /\ t_span tm = t_span tm' | NT _ => exists nt, w = NT nt end -> Ord (set_node g n w') k.
Proof.
  intros [F B M] Hn Hw. assert (E : forall m, tpos (<[n := w']> (g_nodes g)) m = tpos (g_nodes g) m).
  { intros m. rewrite tpos_insert. case_decide as E; [|done]. subst m. unfold tpos. rewrite Hn.
    destruct w'; [destruct Hw as [? ->]; done|destruct Hw as (? & -> & ->); done]. }
  constructor; simpl; [done|intros m i; rewrite E; apply B|by apply (mono_keeps (g_nodes g))].
Qed.
Lemma remove_edges_nodes es : forall g, g_nodes (remove_edges g es) = g_nodes g.
Proof.
  unfold remove_edges. induction es as [|e es IH]; intros g; [done|]. simpl. rewrite IH. unfold remove_edge. by destruct (find_edge g e).
Qed.
Lemma remove_node_nodes g n w : g_nodes g !! n = Some w -> g_nodes (remove_node_g g n).1 = delete n (g_nodes g).
Proof. intros Hn. unfold remove_node_g. rewrite Hn. simpl. by rewrite !remove_edges_nodes. Qed.
Lemma decode_loop_ord nt : forall l idx g root prev pn g' r, Ord g idx -> (forall i e, l !! i = Some e -> sp_start (t_span e.2) = idx + i) ->
  decode_loop nt l idx g root prev pn = Ret (g', r) -> mono (g_nodes g').
Proof.
  induction l as [|[[a u] tm] l IH]; intros idx g root prev pn g' r HO Hl; cbn [decode_loop]; [intros [= <- <-]; apply HO|].
  destruct (add_node g _) as [g1 term] eqn:Ea.
  assert (H1 : Ord g1 (S idx)).
  { destruct u; (eapply Ord_t; [exact HO| |exact Ea]); simpl; specialize (Hl 0 _ eq_refl); simpl in Hl; lia. }
  assert (Hl' : forall i e, l !! i = Some e -> sp_start (t_span e.2) = S idx + i).
  { intros i e Hi. specialize (Hl (S i) e Hi). lia. }
  clear Ea HO Hl. destruct a as [a|].
  - intros ([g2 cur] & E1 & H)%bind_inv. apply bind_inv in H as (wc & E2 & H). apply bind_inv in H as (tgt & E3 & H).
    apply bind_inv in H as ([g3 e] & E4 & H). apply bind_inv in H as (pn' & E5 & H).
    eapply IH; [|done|done]. eapply Ord_edge; [|done]. eapply Ord_same; [by eapply descend_common_ord| |apply relabel_kind].
    destruct (g_nodes g2 !! cur); [by injection E2 as ->|done].
  - destruct (Nat.eqb nt 1).
    + destruct (remove_node_g g1 root) as [g2 o] eqn:Er. intros [= <- <-]. apply (mono_sub (g_nodes g1)); [|apply H1].
      intros n i. destruct (g_nodes g1 !! root) as [w|] eqn:Ew.
      * pose proof (remove_node_nodes g1 root w Ew) as E. rewrite Er in E. simpl in E. rewrite E. unfold tpos.
        destruct (decide (n = root)) as [->|Hne]; [by rewrite lookup_delete|by rewrite lookup_delete_ne].
      * unfold remove_node_g in Er. rewrite Ew in Er. by injection Er as <- _.
    + intros ([g2 e] & E1 & H)%bind_inv. eapply IH; [|done|done]. by eapply Ord_edge.
Qed.
Lemma decode_mono enc terms t : map t_span terms = map span_of (seq 0 (length terms)) ->
  EncModel.decode enc terms = Ret t -> mono (nodes t).
Proof.
  intros Hs. unfold EncModel.decode. destruct (add_node graph_empty _) as [g r] eqn:Ea. intros ([g' r'] & H1 & H2)%bind_inv.
  eapply reset_loop_mono; [exact H2|]. simpl. eapply decode_loop_ord; [eapply Ord_nt; [apply Ord_empty|exact Ea]| |exact H1].
  intros i [e tm] Hi. apply lookup_zip_with_Some in Hi as (e' & tm' & [= <- <-] & _ & Ht). simpl.
  assert (E : map t_span terms !! i = Some (t_span tm)) by (by rewrite list_lookup_fmap, Ht). rewrite Hs in E.
  rewrite list_lookup_fmap in E. destruct (seq 0 (length terms) !! i) as [j|] eqn:Ej; [|done]. apply lookup_seq in Ej as [-> _].
  injection E as <-. done.
Qed.

(** *** NEGRA *)
Record NO (k : nat) (b : builder) : Prop := {
  no_ord : Ord (b_graph b) k;
  no_idx : forall pid n, b_idx b !! pid = Some n -> n < g_ncap (b_graph b) /\ exists nt, g_nodes (b_graph b) !! n = Some (NT nt)
}.
Lemma num_field_inv {B} o (k : nat -> outcome (result B)) y : num_field o k = Ret (Ok y) -> exists n, k n = Ret (Ok y).
Proof. unfold num_field. destruct o; [|done]. destruct (parse_usize _); [eauto|done]. Qed.
Lemma field_inv {A B} (o : option A) (k : A -> outcome (result B)) y : field o k = Ret (Ok y) -> exists n, o = Some n /\ k n = Ret (Ok y).
Proof. unfold field. destruct o; [eauto|done]. Qed.
Lemma try_inv {A B} (m : outcome (result A)) (k : A -> outcome (result B)) y : try m k = Ret (Ok y) -> exists a, m = Ret (Ok a) /\ k a = Ret (Ok y).
Proof. unfold try. destruct m as [[a|]| |]; simpl; [eauto|done|done|done]. Qed.
Lemma add_node_cap g w g' n k : Ord g k -> add_node g w = (g', n) -> n = g_ncap g /\ g_ncap g' = S n /\ g_nodes g' = <[n := w]> (g_nodes g).
Proof. intros [F _ _]. unfold add_node. rewrite F. by intros [= <- <-]. Qed.
Lemma add_edge_cap g a b w g' e : add_edge g a b w = Ret (g', e) -> g_ncap g' = g_ncap g.
Proof. unfold add_edge. destruct (_ && _)%bool; [|done]. by destruct (g_efree g); intros [= <- <-]. Qed.
Lemma process_edges_NO k b n parts b' : NO k b -> process_edges b n parts = Ret (Ok b') -> NO k b' /\ b_nterm b' = b_nterm b /\
  (forall pid n, b_idx b !! pid = Some n -> b_idx b' !! pid = Some n).
Proof.
  intros [HO HI]. unfold process_edges. intros (edge & _ & H)%field_inv. apply num_field_inv in H as (pid & H).
  set (e' := if str_eqb edge dashes then None else Some edge) in H.
  set (pr := match b_idx b !! pid with Some p => _ | None => _ end) in H. destruct pr as [[idx g] p] eqn:Epr. subst pr.
  assert (HG : Ord g k /\ (forall pid n, idx !! pid = Some n -> n < g_ncap g /\ exists nt, g_nodes g !! n = Some (NT nt)) /\
    forall pid n, b_idx b !! pid = Some n -> idx !! pid = Some n).
  { destruct (b_idx b !! pid) as [q|] eqn:Eq; [by injection Epr as <- <- <-|].
    destruct (add_node (b_graph b) _) as [g1 q] eqn:Ea. injection Epr as <- <- <-.
    destruct (add_node_cap _ _ _ _ _ HO Ea) as (Eq1 & Eq2 & Eq3). split; [by eapply Ord_nt|]. split.
    2: { intros pid' m Hm. rewrite lookup_insert_ne; [done|congruence]. }
    intros pid' m. destruct (decide (pid' = pid)) as [->|Hne].
    - rewrite lookup_insert. intros [= <-]. rewrite Eq3, lookup_insert. split; [lia|eauto].
    - rewrite lookup_insert_ne by done. intros [Hm [nt Hnt]]%HI. rewrite Eq3. split; [lia|].
      rewrite lookup_insert_ne by lia. eauto. }
  destruct HG as (HG1 & HG2 & HG3). apply bind_inv in H as ([g2 e] & E1 & H). apply try_inv in H as (o & _ & H). injection H as <-. split; [|done].
  constructor; simpl; [by eapply Ord_edge|]. rewrite (add_edge_nodes _ _ _ _ _ _ E1), (add_edge_cap _ _ _ _ _ _ E1). done.
Qed.
Lemma NO_set k b n nt : NO k b -> NO k (b_set_graph b (set_node (b_graph b) n (NT nt))).
Proof.
  intros [HO HI]. constructor; simpl; [by apply Ord_set; [|eexists]|]. intros pid m [Hm [nt' Hnt]]%HI. split; [done|].
  destruct (decide (m = n)) as [->|Hne]; [rewrite lookup_insert; eauto|rewrite lookup_insert_ne by done; eauto].
Qed.
Lemma NO_graph k b b' : b_graph b' = b_graph b -> b_idx b' = b_idx b -> NO k b -> NO k b'.
Proof. intros E1 E2 [HO HI]. constructor; [by rewrite E1|]. by rewrite E1, E2. Qed.
Lemma nonterminal_line_NO b line b' : NO (b_nterm b) b -> process_nonterminal_line b line = Ret (Ok b') -> NO (b_nterm b') b'.
Proof.
  intros HN. unfold process_nonterminal_line. destruct (Nat.eqb (b_nterm b) 0); [done|].
  intros (sid & H)%num_field_inv. apply field_inv in H as (n & En & H). apply field_inv in H as (? & _ & H). apply field_inv in H as (lab & _ & H).
  apply field_inv in H as (label & _ & H). apply bind_inv in H as (w & Ew & H).
  destruct (no_idx _ _ HN sid n En) as [Hn [nt Hnt]]. rewrite Hnt in Ew. injection Ew as <-.
  set (w := match split_char 61%N lab !! 1 with Some a => _ | None => _ end) in H.
  assert (exists nt', w = NT nt') as [nt' Hw] by (unfold w; destruct (split_char 61%N lab !! 1); eexists; done).
  clearbody w. subst w. apply field_inv in H as (? & _ & H). apply try_inv in H as (b1 & H1 & H).
  apply (process_edges_NO (b_nterm b)) in H1 as (HN1 & E1 & EI).
  2: { eapply NO_graph; [| |apply (NO_set _ b n nt' HN)]; done. }
  simpl in E1. apply bind_inv in H as (spans & _ & H). apply try_inv in H as (sp & _ & H). apply bind_inv in H as (w & Ew & H).
  assert (exists nt1, w = NT nt1) as [nt1 ->].
  { assert (HX : b_idx b1 !! sid = Some n).
    { by apply EI. }
    destruct (no_idx _ _ HN1 sid n HX) as [_ [nt1 Hnt1]]. rewrite Hnt1 in Ew. injection Ew as <-. eauto. }
  simpl in H. injection H as <-. simpl. rewrite E1. eapply NO_graph; [| |apply (NO_set _ b1 n (nt_set_span nt1 sp) HN1)]; done.
Qed.
Lemma terminal_line_NO b line b' : NO (b_nterm b) b -> process_terminal_line b line = Ret (Ok b') -> NO (b_nterm b') b'.
Proof.
  intros [HO HI]. unfold process_terminal_line. destruct (b_fin b); [done|].
  intros (form & _ & H)%field_inv. apply field_inv in H as (lemma & _ & H). apply field_inv in H as (pos & _ & H). apply field_inv in H as (morph & _ & H).
  set (w := if str_eqb morph dashes then _ else _) in H.
  assert (exists tm, w = T tm /\ sp_start (t_span tm) = b_nterm b) as (tm & -> & Hs).
  { unfold w. destruct (str_eqb morph dashes), (str_eqb lemma dashes); eexists; (split; [reflexivity|done]). }
  destruct (add_node (b_graph b) (T tm)) as [g n] eqn:Ea. apply try_inv in H as (b1 & H1 & H). injection H as <-.
  destruct (add_node_cap _ _ _ _ _ HO Ea) as (Eq1 & Eq2 & Eq3).
  apply (process_edges_NO (S (b_nterm b))) in H1 as (HN1 & E1 & _).
  - simpl in *. rewrite E1, Nat.add_1_r. eapply NO_graph; [| |exact HN1]; done.
  - constructor; simpl; [by eapply Ord_t|]. intros pid m [Hm [nt Hnt]]%HI. rewrite Eq3. split; [lia|].
    rewrite lookup_insert_ne by lia. eauto.
Qed.
Lemma from_header_NO header b : from_header header = Ret (Ok b) -> NO (b_nterm b) b.
Proof.
  unfold from_header. intros (? & _ & H)%bind_inv. destruct (cut_white header) as [? rest].
  destruct (match rest with Some r => _ | None => _ end) as [id metadata]. apply num_field_inv in H as (bos & H).
  set (w := match metadata with Some m => _ | None => _ end) in H.
  assert (exists nt, w = NT nt) as [nt Hw] by (unfold w; destruct metadata; eexists; done). clearbody w. subst w.
  destruct (add_node graph_empty (NT nt)) as [g r] eqn:Ea. injection H as <-.
  destruct (add_node_cap _ _ _ _ _ Ord_empty Ea) as (Eq1 & Eq2 & Eq3). constructor; simpl; [eapply Ord_nt; [apply Ord_empty|exact Ea]|].
  intros pid n [<- <-]%lookup_singleton_Some. rewrite Eq3, lookup_insert. split; [lia|eauto].
Qed.
Lemma try_into_tree_mono b footer t : NO (b_nterm b) b -> try_into_tree b footer = Ret (Ok t) -> mono (nodes t).
Proof.
  intros [HO HI]. unfold try_into_tree. intros (? & _ & H)%bind_inv. apply field_inv in H as (eos & _ & H).
  destruct (negb (str_eqb eos (b_sid b))); [done|]. apply bind_inv in H as (g & Hg & H). apply bind_inv in H as (root & Hr & H).
  destruct (negb (Nat.eqb (b_done b) (size (b_idx b)))); [done|]. apply bind_inv in H as (sp & _ & H). apply bind_inv in H as (w & Hw & H).
  assert (EN : g_nodes g = g_nodes (b_graph b)).
  { revert Hg. generalize (b_graph b). induction (b_sec b) as [|[[s l] tg] sec IH]; intros g0; cbn [foldM]; [by intros [= <-]|].
    intros (g1 & H1 & H2)%bind_inv. apply IH in H2. rewrite H2. apply bind_inv in H1 as (p & _ & H1). apply bind_inv in H1 as ([g2 e] & H1 & H3).
    injection H3 as <-. by eapply add_edge_nodes. }
  destruct (b_idx b !! 0) as [r|] eqn:Er; [|done]. injection Hr as ->. destruct (HI _ _ Er) as [_ [nt Hnt]].
  rewrite EN, Hnt in Hw. injection Hw as <-. simpl in H. injection H as <-. simpl.
  apply (mono_sub (g_nodes (b_graph b))); [|apply HO]. intros n i. rewrite EN, tpos_insert. by case_decide.
Qed.
Lemma negra_next_mono ls : forall cur r rest, (forall b, cur = Some b -> NO (b_nterm b) b) -> negra_next ls cur = Ret (r, rest) ->
  forall t, r = Some (Ok t) -> mono (nodes t).
Proof.
  induction ls as [|[l|] ls IH]; intros cur r rest Hcur; cbn [negra_next]; [by intros [= <- <-]| |by intros [= <- <-]].
  destruct (starts_with (lit "#BOS") (trim l)).
  { destruct cur; [by intros [= <- <-]|]. intros ([b|] & H1 & H)%bind_inv; [|by injection H as <- <-].
    eapply IH; [|exact H]. intros ? [= <-]. by eapply from_header_NO. }
  destruct (starts_with (lit "#EOS") (trim l)).
  { destruct cur as [b|]; [|by intros [= <- <-]]. intros (r' & H1 & H)%bind_inv. injection H as <- <-.
    intros t [= ->]. eapply try_into_tree_mono; [|exact H1]. by apply Hcur. }
  destruct cur as [b|]; [|by apply IH]. intros ([b'|] & H1 & H)%bind_inv; [|by injection H as <- <-].
  eapply IH; [|exact H]. intros ? [= <-]. unfold process_line in H1.
  destruct (starts_with (lit "#") (trim l)); [eapply nonterminal_line_NO|eapply terminal_line_NO]; try exact H1; by apply Hcur.
Qed.
Lemma negra_read_all_mono fuel : forall ls rs t, negra_read_all fuel ls = Ret rs -> Ok t ∈ rs -> mono (nodes t).
Proof.
  induction fuel as [|fuel IH]; intros ls rs t; cbn [negra_read_all]; [done|]. intros ([[r|] ls'] & H1 & H)%bind_inv Ht; [|by injection H as <-; set_solver].
  apply bind_inv in H as (rs' & H2 & H). injection H as <-. apply elem_of_cons in Ht as [<-|Ht]; [|by eapply IH].
  eapply negra_next_mono; [|exact H1|done]. done.
Qed.
Lemma negra_read_ordered ls rs t : negra_read ls = Ret rs -> Ok t ∈ rs -> ordered t.
Proof. intros H Ht. apply mono_ordered. by eapply negra_read_all_mono. Qed.

(** *** CONLL-X *)
Lemma tpos_put_sub t n w w' : nodes t !! n = Some w ->
  match w' with T tm => exists tm', w = T tm' /\ t_span tm = t_span tm' | NT _ => True end ->
  mono (nodes t) -> mono (nodes (put_node t n w')).
Proof.
  intros Hn Hw. apply mono_sub. intros m i. change (nodes (put_node t n w')) with (<[n := w']> (nodes t)). rewrite tpos_insert.
  case_decide as E; [|done]. subst m. destruct w' as [|tm]; [done|]. destruct Hw as (tm' & -> & ->). unfold tpos. by rewrite Hn.
Qed.
Lemma remove_edge_nodes g e : g_nodes (remove_edge g e).1 = g_nodes g.
Proof. unfold remove_edge. by destruct (find_edge g e). Qed.
Lemma insert_unary_above_mono t c l t' n : insert_unary_above t c l = Ret (t', n) -> mono (nodes t) -> mono (nodes t').
Proof.
  unfold insert_unary_above. intros (w & _ & H)%bind_inv M. destruct (add_node (tr_graph t) _) as [g ins] eqn:Ea.
  assert (MG : mono (g_nodes g)).
  { unfold add_node in Ea. destruct (g_nfree (tr_graph t)); injection Ea as <- <-; simpl; (apply (mono_sub (nodes t)); [|done]);
      intros m i; rewrite tpos_insert; by case_decide. }
  destruct (parent (set_graph t g) c) as [[p old]|].
  - destruct (remove_edge (tr_graph (set_graph t g)) old) as [g1 o] eqn:Er. apply bind_inv in H as (ow & _ & H).
    apply bind_inv in H as ([g2 e2] & H2 & H). apply bind_inv in H as ([g3 e3] & H3 & H). injection H as <- <-. simpl.
    rewrite (add_edge_nodes _ _ _ _ _ _ H3), (add_edge_nodes _ _ _ _ _ _ H2).
    pose proof (remove_edge_nodes (tr_graph (set_graph t g)) old) as E. rewrite Er in E. simpl in E. by rewrite E.
  - apply bind_inv in H as ([g1 e1] & H1 & H). injection H as <- <-. simpl.
    assert (E : forall b : bool, nodes (if b then set_root (set_graph (set_graph t g) g1) ins else set_graph (set_graph t g) g1) = g_nodes g1) by (by intros []).
    rewrite E, (add_edge_nodes _ _ _ _ _ _ H1). done.
Qed.
Lemma insert_chain_mono ls : forall t c t', insert_chain t c ls = Ret t' -> mono (nodes t) -> mono (nodes t').
Proof.
  induction ls as [|l ls IH]; intros t c t'; cbn [insert_chain]; [by intros [= <-]|]. intros ([t1 c1] & H1 & H)%bind_inv M.
  eapply IH; [done|]. by eapply insert_unary_above_mono.
Qed.
Lemma restore_mono t d t' r : restore_unary_chains t d = Ret (t', r) -> mono (nodes t) -> mono (nodes t').
Proof.
  unfold restore_unary_chains. generalize (node_indices (tr_graph t)). intros l. revert t.
  induction l as [|n l IH]; intros t; cbn [foldR]; [by intros [= <- <-]|]. intros ([t1 r1] & H1 & H)%bind_inv M.
  assert (M1 : mono (nodes t1)).
  { apply bind_inv in H1 as (w & Hw & H1). unfold node_at in Hw. destruct (nodes t !! n) as [w0|] eqn:Ew; [|done]. injection Hw as ->.
    destruct (feats_remove (default ∅ (node_feats w)) unary_chain) as [m o].
    assert (MP : mono (nodes (put_node t n (node_set_feats w (Some m))))).
    { eapply tpos_put_sub; [done| |done]. destruct w; simpl; eauto. }
    destruct o as [[chain|]|]; [|by injection H1 as <- _|by injection H1 as <- _].
    apply bind_inv in H1 as (t2 & H2 & H1). injection H1 as <- _. by eapply insert_chain_mono. }
  destruct r1; [by eapply IH|by injection H as <- _].
Qed.
Lemma read_tokens_terms {A} key (tf : str -> result A) l : forall idx e terms, read_tokens key tf idx l = Ok (e, terms) ->
  length e = length l /\ length terms = length l /\ map t_span terms = map span_of (seq idx (length l)).
Proof.
  induction l as [|k l IH]; intros idx e terms; cbn [read_tokens]; [by intros [= <- <-]|].
  destruct (read_tag key tf k) as [x|]; [|done]. destruct (read_tokens key tf (S idx) l) as [[e' terms']|] eqn:E; [|done].
  intros [= <- <-]. apply IH in E as (E1 & E2 & E3). simpl. by rewrite E1, E2, E3.
Qed.
Lemma decode_restore_mono e terms t : map t_span terms = map span_of (seq 0 (length terms)) ->
  decode_restore e terms = Ret (Ok t) -> mono (nodes t).
Proof.
  intros Hs. unfold decode_restore. intros (t1 & H1 & H)%bind_inv. apply bind_inv in H as ([t2 r] & H2 & H).
  destruct r; [|done]. injection H as <-. eapply restore_mono; [done|]. by eapply decode_mono.
Qed.
Lemma from_conllx_ordered l t : from_conllx_absolute l = Ret (Ok t) \/ from_conllx_relative l = Ret (Ok t) -> ordered t.
Proof.
  intros H. apply mono_ordered. destruct H as [H|H].
  - unfold from_conllx_absolute in H. destruct (read_tokens _ _ 0 l) as [[e terms]|] eqn:E; [|done].
    apply read_tokens_terms in E as (_ & E2 & E3). eapply decode_restore_mono; [|done]. by rewrite E3, E2.
  - unfold from_conllx_relative in H. destruct (read_tokens _ _ 0 l) as [[e terms]|] eqn:E; [|done].
    apply read_tokens_terms in E as (_ & E2 & E3). apply bind_inv in H as (r & _ & H). apply bind_inv in H as (e' & _ & H).
    eapply decode_restore_mono; [|done]. by rewrite E3, E2.
Qed.
Lemma ptb_next_ordered f lf ls : forall r rest, ptb_next f lf ls = Ret (r, rest) -> forall t, r = Some (Ok t) -> ordered t.
Proof.
  destruct lf; cbn [ptb_next].
  - induction ls as [|[l|] ls IH]; intros r rest; cbn [next_single]; [by intros [= <- <-]| |by intros [= <- <-]].
    destruct (starts_percent l); [apply IH|]. intros (r' & H1 & H)%bind_inv. injection H as <- <-. intros t [= ->]. by eapply string_to_tree_ordered.
  - generalize ([] : str). generalize 0. induction ls as [|[l|] ls IH]; intros o buf r rest; cbn [next_multi]; [by intros [= <- <-]| |by intros [= <- <-]].
    destruct ((_ && _) || _)%bool; [apply IH|]. destruct (count_pars l) as [o' c]. intros (o2 & _ & H)%bind_inv.
    destruct (Nat.eqb o2 0); [|by eapply IH]. apply bind_inv in H as (r' & H1 & H). injection H as <- <-. intros t [= ->]. by eapply string_to_tree_ordered.
Qed.
Lemma ptb_read_ordered f lf ls rs t : ptb_read f lf ls = Ret rs -> Ok t ∈ rs -> ordered t.
Proof.
  unfold ptb_read. generalize (S (length ls)). intros fuel. revert ls rs.
  induction fuel as [|fuel IH]; intros ls rs; cbn [ptb_read_all]; [done|]. intros ([[r|] ls'] & H1 & H)%bind_inv Ht; [|by injection H as <-; set_solver].
  apply bind_inv in H as (rs' & H2 & H). injection H as <-. apply elem_of_cons in Ht as [<-|Ht]; [|by eapply IH].
  by eapply ptb_next_ordered.
Qed.
