(** C69: writing a tree that was read from brackets and reading it again gives the tree itself. *)
From Coq Require Import Lia.
From Verif Require Import ModModel TreeSpec BaseProofs ShapeProofs GraphProofs SortProofs RoseSpec RoseProofs SegProofs
  PtbSpec PtbProofs PtbBuild PtbPrint PtbRound PropsPtb.

Local Arguments lit : simpl never.

(** In the PTB format hyphens separate the annotation, which is read with its hyphen and written with
    a further one: no inner label with a hyphen, no tag that begins with one. *)
Inductive hyphenless (f : ptb_format) : ast -> Prop :=
| hl_pre label form : (f = PTB -> head label <> Some 45%N) -> hyphenless f (APre label form)
| hl_node label cs : (f = PTB -> 45%N ∉ label) -> Forall (hyphenless f) cs -> hyphenless f (ANode label cs).

(** ** What is read fits the format *)
Lemma cut_parts c s p q : cut c s p q -> c ∉ p /\ (forall x, x ∈ p -> x ∈ s) /\
  (forall q', q = Some q' -> forall x, x ∈ q' -> x ∈ s).
Proof. intros []; split_and!; try done; set_solver. Qed.
Lemma field_parts c o e p : field c o e -> e = Some p -> c ∉ p /\ exists s, o = Some s /\ forall x, x ∈ p -> x ∈ s.
Proof. intros [|s p' q Hc] E; [done|]. injection E as ->. apply cut_parts in Hc as (? & ? & _). eauto. Qed.
Lemma plain_sub no s p : word s -> (forall x, x ∈ p -> x ∈ s) -> (forall c, c ∈ no -> c ∉ p) -> plain no p.
Proof.
  intros [_ H] Hs Hno. rewrite Forall_forall in H. apply Forall_forall. intros c Hc. rewrite elem_of_app.
  intros [H2|H2]; [by apply (H c (Hs c Hc))|by apply (Hno c H2)].
Qed.
Lemma tueba_parts l lab e ann : word l -> label_of TueBa l lab e ann ->
  plain [58%N; 61%N] lab /\ (forall a, ann = Some a -> plain [58%N; 61%N] a) /\ edge_fits e.
Proof.
  intros W L. inversion L as [| | |? tag o1 e0 ? o2 ? C1 F1 C2 F2]; subst.
  apply cut_parts in C1 as (C1a & C1b & C1c), C2 as (C2a & C2b & C2c). split_and!.
  - apply (plain_sub _ l); [done|auto|]. intros c Hc Hin. apply C2b in Hin as Ht.
    apply elem_of_cons in Hc as [->|Hc]; [done|]. apply elem_of_list_singleton in Hc as ->. done.
  - intros a ->. destruct (field_parts _ _ _ a F2 eq_refl) as (Fa & s & -> & Fs).
    apply (plain_sub _ l); [done|intros x Hx; eapply C1b, C2c; [done|by apply Fs]|].
    intros c Hc Hin. apply elem_of_cons in Hc as [->|Hc].
    + apply C1a. eapply C2c; [done|by apply Fs].
    + apply elem_of_list_singleton in Hc as ->. done.
  - intros s Hs. destruct (decide (e0 = Some [45; 45]%N)) as [|Hne]; [done|]. subst e0. split.
    + destruct (field_parts _ _ _ s F1 eq_refl) as (Fa & s1 & -> & Fs).
      apply (plain_sub _ l); [done|intros x Hx; eapply C1c; [done|by apply Fs]|].
      intros c ->%elem_of_list_singleton. done.
    + intros ->. by apply Hne.
Qed.

Lemma annotated_feats nt (ann : option str) s :
  nt_feats nt = match ann with Some a => Some {[ lit "node_annotation" := Some a ]} | None => None end ->
  annotated nt s <-> ann = Some s.
Proof.
  intros E. unfold annotated. rewrite E. destruct ann as [a|]; [|naive_solver]. split.
  - intros (m & [= <-] & H). rewrite lookup_singleton in H. congruence.
  - intros [= ->]. eexists. split; [done|]. by rewrite lookup_singleton.
Qed.
Lemma nt_annotation_feats nt (ann : option str) :
  nt_feats nt = match ann with Some a => Some {[ lit "node_annotation" := Some a ]} | None => None end ->
  nt_annotation nt = ann.
Proof.
  intros E. pose proof (annotated_feats nt ann) as H. destruct (nt_annotation nt) as [a|] eqn:Ea.
  - apply annotated_spec in Ea. by apply H in Ea.
  - destruct ann as [a|]; [|done]. assert (annotated nt a) as X%annotated_spec by (by apply H). congruence.
Qed.

Lemma fits_leaf_read f label form tag e ann tm : word label -> word form -> (f = PTB -> head label <> Some 45%N) ->
  label_of f label tag e ann -> t_form tm = form -> t_pos tm = tag -> term_fits f e tm.
Proof.
  intros W1 W2 Hh L <- <-. split; [done|]. destruct f.
  - specialize (Hh eq_refl). inversion L as [|? Hn|a b Hn|]; subst; [done|]. split; [|done]. split.
    + intros E. rewrite E in Hh. by apply Hh.
    + destruct W1 as [_ W1]. by apply Forall_app in W1 as [W1 _].
  - by inversion L; subst.
  - destruct (tueba_parts _ _ _ _ W1 L) as (H1 & _ & H3). done.
Qed.
Lemma fits_node_read f label lab e ann nt : word label -> (f = PTB -> 45%N ∉ label) ->
  label_of f label lab e ann -> nt_label nt = lab ->
  nt_feats nt = match ann with Some a => Some {[ lit "node_annotation" := Some a ]} | None => None end ->
  nt_fits f e nt.
Proof.
  intros W1 Hh L <- Ef. destruct f; simpl.
  - specialize (Hh eq_refl). inversion L as [|? Hn|a b Hn|]; subst; [|set_solver].
    split_and!; [done|done|]. intros a Ha. apply (annotated_feats nt None a) in Ha; done.
  - by inversion L; subst.
  - destruct (tueba_parts _ _ _ _ W1 L) as (H1 & H2 & H3). split_and!; [done| |done].
    intros a Ha. apply (annotated_feats nt ann a) in Ha; [by apply H2|done].
Qed.

Lemma fits_read f : forall a s, G a s -> hyphenless f a -> forall e r, ast_rose f a e r -> fits f e r.
Proof.
  apply (G_mut (fun a _ => hyphenless f a -> forall e r, ast_rose f a e r -> fits f e r)
    (fun cs _ => Forall (hyphenless f) cs -> forall ds, Forall2 (fun c (d : option str * rose) => ast_rose f c d.1 d.2) cs ds ->
       Forall (fun d => fits f d.1 d.2) ds)).
  - intros label form b1 b2 b3 W1 W2 _ _ _ _ Hh e r HA. inversion Hh; subst. inversion HA as [? ? tag ? ann tm|]; subst.
    constructor. eapply (fits_leaf_read f label (t_form tm)); eauto; try done.
  - intros label cs b1 body W1 _ _ _ IH Hh e r HA. inversion Hh; subst. inversion HA; subst.
    constructor; [by eapply fits_node_read|by apply IH].
  - intros b _ _ ds H. inversion H. constructor.
  - intros a cs b s s' _ _ IH1 _ IH2 Hh ds H. inversion H; subst. apply Forall_cons in Hh as [Hh1 Hh2].
    constructor; [by apply IH1|by apply IH2].
Qed.
Lemma fits_none f e r : fits f e r -> fits f None r.
Proof.
  intros []; constructor; try done; destruct f; simpl in *; try done; unfold term_fits, edge_fits in *; naive_solver.
Qed.

(** ** The written text means the same tree *)
Definition kept_edge (f : ptb_format) (e : option str) : option str := match f with TueBa => e | _ => None end.

Lemma kept_of f l lab e ann : label_of f l lab e ann -> kept_edge f e = e.
Proof. by intros []. Qed.
Lemma ast_rose_kept f a e r : ast_rose f a e r -> kept_edge f e = e.
Proof. intros []; by eapply kept_of. Qed.

Lemma reread f : forall a, hyphenless f a -> forall e r, ast_rose f a e r -> forall e2, fits f e2 r ->
  ast_rose f (ast_of f e2 r) (kept_edge f e2) r.
Proof.
  induction a as [label form|label cs IH] using ast_ind'; intros Hh e r HA e2 HF; inversion Hh as [? ? Hhy|? ? Hhy Hhs]; subst.
  - inversion HA as [? ? tag ? ann tm L F P Hl Hf|]; subst. inversion HF as [? ? [H1 H2]|]; subst. simpl.
    rewrite (esc_plain (t_form tm)) by (by apply word_noparen). unfold ptb_tok. destruct f.
    + rewrite esc_plain by (by apply word_noparen, H2). apply (ar_pre _ _ _ (t_pos tm) None None); try done. constructor. apply H2.
    + rewrite esc_plain by (by apply word_noparen, H2). apply (ar_pre _ _ _ (t_pos tm) None None); try done. constructor.
    + destruct H2 as [H2 H3]. rewrite esc_plain by (by eapply plain_noparen).
      apply (ar_pre _ _ _ (t_pos tm) e2 None); try done.
      pose proof (tueba_label (t_pos tm) None e2 H2 ltac:(done) H3) as L2. by rewrite app_nil_l in L2.
  - inversion HA as [|? ? lab ? ann nt ds L El Ef HDs]; subst. inversion HF as [|? ? ? H1 HFs]; subst. cbn [ast_of].
    apply (ar_node f _ _ (nt_label nt) _ ann); [|done|done|].
    + unfold fmt_inner. rewrite (nt_annotation_feats _ _ Ef). destruct f; simpl in H1.
      * specialize (Hhy eq_refl). inversion L as [|? Hn|? ? Hn|]; subst; [|set_solver]. rewrite app_nil_r. by constructor.
      * inversion L; subst. constructor.
      * destruct H1 as (Hp & Ha & He). apply tueba_label; [done| |done].
        intros a ->. apply Ha. by apply (annotated_feats nt (Some a) a).
    + clear Ef L HA HF Hh H1 Hhy. revert ds HDs HFs.
      induction IH as [|c cs Hc _ IHcs]; intros ds HDs HFs; inversion HDs as [|? d ? ds' Hd HDs']; subst; simpl; constructor.
      * apply Forall_cons in Hhs as [Hh1 _]. apply Forall_cons in HFs as [HF1 _].
        rewrite <- (ast_rose_kept _ _ _ _ Hd). rewrite (ast_rose_kept _ _ _ _ Hd) at 1.
        by apply (Hc Hh1 _ _ Hd).
      * apply Forall_cons in Hhs as [_ Hh2]. apply Forall_cons in HFs as [_ HF2]. by apply IHcs.
Qed.

(** ** Texts with the same meaning build the same graph *)
Definition with_edge (e : option str) (r : outcome (graph * nat * (span * nat * edgew))) : outcome (graph * nat * (span * nat * edgew)) :=
  '(g, k, (sp, n, _)) ← r; Ret (g, k, (sp, n, Primary e)).

Lemma process_label_of f l lab e ann : label_of f l lab e ann -> process_label f l = (lab, e, ann).
Proof.
  intros L. destruct (process_label f l) as [[lab' e'] ann'] eqn:E. apply process_label_spec in E.
  destruct (label_of_fun _ _ _ _ _ _ _ _ L E) as (-> & -> & ->). done.
Qed.
Lemma feats_ann_inj (ann ann' : option str) :
  match ann with Some a => Some ({[ lit "node_annotation" := Some a ]} : gmap str (option str)) | None => None end =
  match ann' with Some a => Some {[ lit "node_annotation" := Some a ]} | None => None end -> ann = ann'.
Proof.
  generalize (lit "node_annotation"). intros key. destruct ann as [a|], ann' as [b|]; try done. intros E.
  assert (H : ({[ key := Some a ]} : gmap str (option str)) = {[ key := Some b ]}) by congruence.
  assert (({[ key := Some a ]} : gmap str (option str)) !! key = Some (Some b)) as X by (rewrite H; apply lookup_singleton).
  rewrite lookup_singleton in X. congruence.
Qed.

Lemma same_graph f : forall a e r, ast_rose f a e r -> forall a' e', ast_rose f a' e' r -> forall g k,
  parse_value f a' g k = with_edge e' (parse_value f a g k) /\ with_edge e (parse_value f a g k) = parse_value f a g k.
Proof.
  induction a as [label form|label cs IH] using ast_ind'; intros e r HA a' e' HA' g k.
  - inversion HA as [? ? tag ? ann tm L F P Hl Hf|]; subst. inversion HA' as [? ? tag' ? ann' ? L' F' P' _ _|]; subst.
    cbn [parse_value]. rewrite (process_label_of _ _ _ _ _ L), (process_label_of _ _ _ _ _ L'). by destruct (add_node g _).
  - inversion HA as [|? ? lab ? ann nt ds L El Ef HDs]; subst. inversion HA' as [|? cs' lab' ? ann' ? ? L' El' Ef' HDs']; subst.
    rewrite Ef in Ef'. apply feats_ann_inj in Ef' as <-.
    cbn [parse_value]. rewrite (process_label_of _ _ _ _ _ L), (process_label_of _ _ _ _ _ L').
    match goal with |- context [add_node g ?w] => destruct (add_node g w) as [g1 n] end.
    match goal with |- context [@mbind outcome _ _ _ _ (?h cs true g1 k 0 0)] => set (go := h) end.
    assert (Hgo : forall first g k lower upper, go cs' first g k lower upper = go cs first g k lower upper).
    { clear HA HA' L L' Ef g g1 k. revert ds cs' HDs HDs'. induction IH as [|c cs Hc _ IHcs]; intros ds cs' HDs HDs' first g k lower upper.
      - inversion HDs; subst. inversion HDs'; subst. done.
      - inversion HDs as [|? d ? ds' Hd HDs1]; subst. inversion HDs' as [|c' ? cs2 ? Hd' HDs2]; subst.
        cbn. destruct (Hc _ _ Hd _ _ Hd' g k) as [E1 E2]. rewrite E1, E2.
        destruct (parse_value f c g k) as [[[g2 k2] [[sp m] w]]| |]; cbn; try done.
        destruct (add_edge g2 n m w) as [[g3 x]| |]; cbn; try done. apply (IHcs ds'); done. }
    rewrite Hgo. destruct (go cs true g1 k 0 0) as [[[[g2 k2] lo] hi]| |]; [|done|done]. cbn [mbind outcome_bind].
    destruct (span_new lo hi) as [sp| |]; [|done|done]. cbn [mbind outcome_bind].
    destruct (unwrap (g_nodes g2 !! n)) as [w| |]; [|done|done]. cbn [mbind outcome_bind].
    destruct (unwrap (node_nonterminal w)); done.
Qed.

(** ** The theorem *)
Theorem C69_stable f a s : bracketed a s -> hyphenless f a ->
  exists t s', string_to_tree f s = Ret (Ok t) /\ tree_to_string f t = Ret (Ok s') /\ string_to_tree f s' = Ret (Ok t).
Proof.
  intros HB Hh. destruct (string_to_tree_spec f s) as (res & Es & Hok & Hex).
  destruct (proj2 Hex ltac:(eauto)) as [t ->].
  destruct (Hok t eq_refl) as (a0 & Ha & W & Hp & e & r & D & HA & Hidx).
  rewrite (bracketed_unique _ _ _ Ha HB) in HA. clear a0 Ha.
  pose proof HB as (b1 & s0 & b2 & _ & _ & _ & HG0).
  pose proof (fits_none _ _ _ (fits_read f a s0 HG0 Hh e r HA)) as HF.
  exists t, (rshow f None r). split; [done|].
  rewrite (tree_to_string_spec f t r W D), Hp. split; [done|].
  pose proof (rshow_G f r None (WF_inhabited t _ r W D) (fits_printable f r None HF)) as HG.
  assert (HB' : bracketed (ast_of f None r) (rshow f None r)).
  { exists [], (rshow f None r), []. rewrite app_nil_r. split_and!; [done|constructor|constructor|done]. }
  pose proof (reread f a Hh e r HA None HF) as HA'.
  unfold string_to_tree in Es |- *.
  destruct (p_tree_spec s) as (x & E1 & H1). rewrite E1 in Es. rewrite (proj2 (H1 a) HB) in Es.
  destruct (p_tree_spec (rshow f None r)) as (y & E2 & H2). rewrite E2, (proj2 (H2 _) HB').
  cbn [mbind outcome_bind] in Es |- *.
  destruct (same_graph f a e r HA _ _ HA' graph_empty 0) as [-> _].
  destruct (parse_value f a graph_empty 0) as [[[g k] [[sp n] w]]| |]; [|done|done]. exact Es.
Qed.

(** Every text the reader accepts in the Simple and TueBa formats is stable. *)
Lemma hyphenless_other f a : f <> PTB -> hyphenless f a.
Proof. intros Hf. induction a as [label form|label cs IH] using ast_ind'; by constructor. Qed.
Corollary C69_accepted f s t : f <> PTB -> string_to_tree f s = Ret (Ok t) ->
  exists s', tree_to_string f t = Ret (Ok s') /\ string_to_tree f s' = Ret (Ok t).
Proof.
  intros Hf E. destruct (string_to_tree_spec f s) as (res & Es & Hok & _). rewrite E in Es. injection Es as <-.
  destruct (Hok t eq_refl) as (a & Ha & _).
  destruct (C69_stable f a s Ha (hyphenless_other f a Hf)) as (t' & s' & E1 & E2 & E3).
  rewrite E in E1. injection E1 as <-. eauto.
Qed.

(** ** No other text is stable in the PTB format *)

(** Counting words: characters that are no separators and follow a separator. *)
Definition sepc (c : char) : bool := bool_decide (c ∈ [32; 10; 13; 40; 41]%N).
Fixpoint nw (inside : bool) (s : str) : nat :=
  match s with
  | [] => 0
  | c :: s => if sepc c then nw false s else (if inside then 0 else 1) + nw true s
  end.
Lemma nw_blank b s : blank s -> s <> [] -> forall rest, nw b (s ++ rest) = nw false rest.
Proof.
  intros H. revert b. induction H as [|c s Hc _ IH]; intros b Hne rest; [done|]. cbn [app nw].
  unfold sepc. rewrite bool_decide_true by set_solver. destruct s as [|d s]; [done|]. by apply IH.
Qed.
Lemma nw_blank_false s rest : blank s -> nw false (s ++ rest) = nw false rest.
Proof. intros H. destruct s as [|c s]; [done|]. by apply nw_blank. Qed.
Lemma nw_inside s rest : plain [] s -> nw true (s ++ rest) = nw true rest.
Proof.
  intros H. induction H as [|c s Hc _ IH]; [done|]. cbn [app nw]. unfold sepc.
  rewrite app_nil_r in Hc. by rewrite bool_decide_false.
Qed.
Lemma nw_word s rest : word s -> nw false (s ++ rest) = 1 + nw true rest.
Proof.
  intros W. destruct (proj1 (word_plain _) W) as [Hne H]. destruct s as [|c s]; [done|]. apply Forall_cons in H as [Hc H].
  cbn [app nw]. unfold sepc. rewrite app_nil_r in Hc. rewrite bool_decide_false by done. by rewrite nw_inside.
Qed.
Lemma nw_open b rest : nw b (40%N :: rest) = nw false rest.
Proof. done. Qed.
Lemma nw_close b rest : nw b (41%N :: rest) = nw false rest.
Proof. done. Qed.

Fixpoint labels_words (a : ast) : nat :=
  match a with
  | APre _ _ => 2
  | ANode _ cs => S (list_sum (map labels_words cs))
  end.
Lemma nw_G : forall a s, G a s -> forall b rest, nw b (s ++ rest) = labels_words a + nw false rest.
Proof.
  apply (G_mut (fun a s => forall b rest, nw b (s ++ rest) = labels_words a + nw false rest)
    (fun cs s => forall b rest, nw b (s ++ 41%N :: rest) = list_sum (map labels_words cs) + nw false rest)).
  - intros label form b1 b2 b3 W1 W2 B1 B2 B2n B3 b rest. rewrite <- !(assoc_L (++)). cbn [app].
    rewrite nw_open, nw_blank_false by done. rewrite nw_word by done. rewrite (nw_blank true b2) by done.
    rewrite nw_word by done. cbn [labels_words].
    change (S (S (nw true (b3 ++ 41%N :: rest))) = S (S (nw false rest))). do 2 f_equal.
    destruct b3 as [|c b3]; [done|]. by rewrite nw_blank.
  - intros label cs b1 body W1 B1 _ _ IH b rest. rewrite <- !(assoc_L (++)). cbn [app].
    rewrite nw_open, nw_blank_false by done. rewrite nw_word by done. rewrite IH. done.
  - intros s Hs b rest. destruct s as [|c s]; [done|]. by rewrite nw_blank.
  - intros a cs s0 s s' B0 _ IH1 _ IH2 b rest. rewrite <- !(assoc_L (++)). cbn [map list_sum foldr].
    assert (nw b (s0 ++ s ++ s' ++ 41%N :: rest) = labels_words a + nw false (s' ++ 41%N :: rest)) as ->.
    { destruct s0 as [|c s0]; [by rewrite app_nil_l, IH1|]. rewrite nw_blank by done. by rewrite IH1. }
    rewrite IH2. unfold list_sum. lia.
Qed.

(** The words of a tree that has been read, in the PTB format. *)
Inductive wordy : rose -> Prop :=
| wy_leaf tm : word (t_form tm) -> plain [] (t_pos tm) -> wordy (RLeaf tm)
| wy_node nt cs : word (fmt_inner PTB nt None) -> Forall (fun c => wordy c.2) cs -> wordy (RNode nt cs).
Lemma read_wordy : forall a s, G a s -> forall e r, ast_rose PTB a e r -> wordy r.
Proof.
  apply (G_mut (fun a _ => forall e r, ast_rose PTB a e r -> wordy r)
    (fun cs _ => forall ds, Forall2 (fun c (d : option str * rose) => ast_rose PTB c d.1 d.2) cs ds -> Forall (fun d => wordy d.2) ds)).
  - intros label form b1 b2 b3 W1 W2 _ _ _ _ e r HA. inversion HA as [? ? tag ? ann tm L|]; subst. constructor; [done|].
    apply (proj1 (word_plain _)) in W1 as [_ W1]. inversion L as [|? Hn|x y Hn E1 E2|]; subst; [done|]. by apply plain_app in W1 as [W1 _].
  - intros label cs b1 body W1 _ _ _ IH e r HA. inversion HA as [|? ? lab ? ann nt ds L El Ef HDs]; subst.
    constructor; [|by apply IH]. unfold fmt_inner. rewrite (nt_annotation_feats _ _ Ef).
    inversion L as [|? Hn|x y Hn E1 E2|]; subst; [by rewrite app_nil_r|].
    apply (proj1 (word_plain _)) in W1 as [_ W1]. apply plain_app in W1 as [W1 W2].
    apply word_plain. split; [by destruct (nt_label nt)|]. apply plain_app. split; [done|].
    apply (plain_app [] [45%N]). split; [|done]. apply plain_one. set_solver.
  - intros b _ ds H. inversion H. constructor.
  - intros a cs b s s' _ _ IH1 _ IH2 ds H. inversion H; subst. constructor; [by eapply IH1|by apply IH2].
Qed.

Fixpoint tagless (r : rose) : nat :=
  match r with
  | RLeaf tm => match t_pos tm with [] => 1 | _ => 0 end
  | RNode _ cs => list_sum (map (fun c => tagless c.2) cs)
  end.
Fixpoint rose_words (r : rose) : nat :=
  match r with
  | RLeaf _ => 2
  | RNode _ cs => S (list_sum (map (fun c => rose_words c.2) cs))
  end.
Lemma ast_words f : forall a e r, ast_rose f a e r -> labels_words a = rose_words r.
Proof.
  induction a as [label form|label cs IH] using ast_ind'; intros e r HA; inversion HA as [|? ? ? ? ? ? ds ? ? ? HDs]; subst; [done|].
  cbn. f_equal. f_equal. clear HA. revert ds HDs. induction IH as [|c cs Hc _ IHcs]; intros ds HDs; inversion HDs as [|? d]; subst; [done|].
  cbn. f_equal; [by eapply Hc|by apply IHcs].
Qed.
Lemma nw_rshow : forall r, wordy r -> forall e b rest, nw b (rshow PTB e r ++ rest) + tagless r = rose_words r + nw false rest.
Proof.
  induction r as [tm|nt cs IH] using rose_ind'; intros HW e b rest; inversion HW as [? H1 H2|? ? H1 H2]; subst.
  - cbn [rshow]. unfold fmt_term. fold (esc (t_pos tm)) (esc (t_form tm)).
    rewrite (esc_plain (t_form tm)) by (by apply word_noparen). rewrite (esc_plain (t_pos tm)) by (by eapply plain_noparen).
    rewrite <- !(assoc_L (++)). cbn [app]. rewrite nw_open. cbn [tagless rose_words].
    destruct (t_pos tm) as [|c p] eqn:E.
    + cbn [app].
      change (nw false (32%N :: t_form tm ++ 41%N :: rest)) with (nw false (t_form tm ++ 41%N :: rest)).
      rewrite nw_word by done. rewrite nw_close. lia.
    + rewrite nw_word by (by apply word_plain; split).
      change (nw true (32%N :: t_form tm ++ 41%N :: rest)) with (nw false (t_form tm ++ 41%N :: rest)).
      rewrite nw_word by done. rewrite nw_close. lia.
  - cbn [rshow]. rewrite <- !(assoc_L (++)). cbn [app]. rewrite nw_open. cbn [node_sep].
    assert (Hin : fmt_inner PTB nt e = fmt_inner PTB nt None) by done. rewrite Hin.
    assert (Hj : forall l w, Base.join [32%N] (w :: l) = w ++ concat (map (fun x => 32%N :: x) l)).
    { clear. induction l as [|x l IH]; intros w; cbn; [by rewrite app_nil_r|]. f_equal. f_equal. apply IH. }
    rewrite Hj, <- (assoc_L (++)). rewrite nw_word by done. cbn [tagless rose_words].
    assert (Hc : forall b, nw b (concat (map (fun x => 32%N :: x) (map (fun c => rshow PTB c.1 c.2) cs)) ++ 41%N :: rest)
               + list_sum (map (fun c => tagless c.2) cs) = list_sum (map (fun c => rose_words c.2) cs) + nw false rest); [|exact (f_equal S (Hc true))].
    clear HW H1 Hin Hj. induction IH as [|c cs Hc _ IHcs]; intros b'; [cbn [map concat app list_sum foldr]; rewrite nw_close; unfold list_sum; cbn [foldr]; by rewrite Nat.add_0_r|].
    apply Forall_cons in H2 as [H2 H3]. cbn [map concat list_sum foldr].
    rewrite <- (assoc_L (++)). cbn [app].
    specialize (Hc H2 c.1 false (concat (map (fun x => 32%N :: x) (map (fun c => rshow PTB c.1 c.2) cs)) ++ 41%N :: rest)).
    specialize (IHcs H3 false). unfold list_sum in *.
    remember (concat (map (fun x => 32%N :: x) (map (fun c => rshow PTB c.1 c.2) cs)) ++ 41%N :: rest) as tl eqn:Etl.
    match goal with |- ?lhs + _ = _ => change lhs with (nw false (rshow PTB c.1 c.2 ++ tl)) end.
    lia.
Qed.

Lemma wordy_G : forall r e, inhabited_rose r -> wordy r -> tagless r = 0 -> G (ast_of PTB e r) (rshow PTB e r).
Proof.
  induction r as [tm|nt cs IH] using rose_ind'; intros e HI HW HT.
  - inversion HW as [? H1 H2|]; subst. apply (rshow_G PTB (RLeaf tm) e HI). constructor. split_and!.
    + apply H1.
    + by apply word_unblank.
    + by eapply plain_unblank.
    + cbn in HT. by destruct (t_pos tm).
  - inversion HW as [|? ? Hn HF]; subst. inversion HI as [|? ? Hne HI']; subst. cbn [ast_of rshow].
    assert (HGs : Forall (fun c => G (ast_of PTB c.1 c.2) (rshow PTB c.1 c.2)) cs).
    { cbn in HT. clear HW HI Hne Hn. induction IH as [|c cs Hc _ IHcs]; [constructor|].
      apply Forall_cons in HF as [HF1 HF2]. apply Forall_cons in HI' as [HI1 HI2]. cbn in HT. unfold list_sum in IHcs.
      constructor; [apply Hc; [done|done|lia]|apply IHcs; [lia|done|done]]. }
    pose proof (GS_join PTB cs HGs Hne) as HB.
    assert (Hmne : map (fun c : option str * rose => ast_of PTB c.1 c.2) cs <> []) by (by destruct cs).
    pose proof (G_node (fmt_inner PTB nt e) _ [] _ Hn ltac:(constructor) Hmne HB) as HG.
    destruct cs as [|c cs]; [done|].
    change (Base.join (node_sep PTB) (fmt_inner PTB nt e :: map (fun c => rshow PTB c.1 c.2) (c :: cs)))
      with (fmt_inner PTB nt e ++ node_sep PTB ++ Base.join (node_sep PTB) (map (fun c => rshow PTB c.1 c.2) (c :: cs))).
    rewrite app_nil_l in HG. rewrite <- !(assoc_L (++)) in HG. rewrite <- !(assoc_L (++)). exact HG.
Qed.

Lemma stable_hyphenless : forall a e r, ast_rose PTB a e r -> tagless r = 0 -> forall e2 e', ast_rose PTB (ast_of PTB e2 r) e' r ->
  hyphenless PTB a.
Proof.
  induction a as [label form|label cs IH] using ast_ind'; intros e r HA HT e2 e' HA'.
  - inversion HA as [? ? tag ? ann tm L|]; subst. constructor. intros _ Hh. cbn in HT.
    inversion L as [|? Hn E1 E2|x y Hn E1 E2|]; subst.
    + destruct (t_pos tm); [done|]. injection Hh as ->. set_solver.
    + destruct (t_pos tm); [done|]. injection Hh as ->. set_solver.
  - inversion HA as [|? ? lab ? ann nt ds L El Ef HDs]; subst. cbn [ast_of] in HA'.
    inversion HA' as [|? ? lab' ? ann' ? ? L' El' Ef' HDs']; subst. constructor.
    + intros _. inversion L as [|? Hn E1 E2|x y Hn E1 E2|]; subst; [done|]. exfalso.
      unfold fmt_inner in L'. rewrite (nt_annotation_feats nt (Some (45%N :: y)) Ef) in L'.
      pose proof (lo_ptb_ann (nt_label nt) (45%N :: y) Hn) as L2.
      destruct (label_of_fun _ _ _ _ _ _ _ _ L' L2) as (_ & _ & ->).
      rewrite Ef in Ef'. apply (feats_ann_inj (Some _) (Some _)) in Ef'. injection Ef' as Ef'.
      apply (f_equal length) in Ef'. cbn in Ef'. lia.
    + clear HA HA' L L' Ef Ef'. cbn in HT. revert ds HDs HDs' HT. induction IH as [|c cs Hc _ IHcs]; intros ds HDs HDs' HT; [constructor|].
      inversion HDs as [|? d ? ds' Hd HDs1]; subst. cbn in HDs', HT. inversion HDs' as [|? ? ? ? Hd' HDs2]; subst.
      unfold list_sum in IHcs. constructor; [eapply Hc; [done|lia|done]|]. eapply IHcs; [done|done|lia].
Qed.

Theorem C69_exact f a s : bracketed a s ->
  (exists t s', string_to_tree f s = Ret (Ok t) /\ tree_to_string f t = Ret (Ok s') /\ string_to_tree f s' = Ret (Ok t)) <->
  hyphenless f a.
Proof.
  intros HB. split; [|by apply C69_stable]. intros (t & s' & E1 & E2 & E3).
  destruct f; [|by apply hyphenless_other|by apply hyphenless_other].
  destruct (string_to_tree_spec PTB s) as (res & Es & Hok & _). rewrite E1 in Es. injection Es as <-.
  destruct (Hok t eq_refl) as (a0 & Ha & W & Hp & e & r & D & HA & _).
  rewrite (bracketed_unique _ _ _ Ha HB) in HA. clear a0 Ha Hok.
  rewrite (tree_to_string_spec PTB t r W D), Hp in E2. injection E2 as <-.
  destruct (string_to_tree_spec PTB (rshow PTB None r)) as (res & Es & Hok & _). rewrite E3 in Es. injection Es as <-.
  destruct (Hok t eq_refl) as (a' & HB' & _ & _ & e' & r' & D' & HA' & _).
  rewrite <- (Den_fun _ _ _ _ D _ D') in HA'. clear r' D' Hok.
  pose proof HB as (b1 & s0 & b2 & _ & _ & _ & HG).
  pose proof (read_wordy _ _ HG _ _ HA) as HW.
  pose proof (nw_rshow r HW None false []) as N1. rewrite app_nil_r in N1.
  pose proof HB' as (c1 & s1 & c2 & Ec & C1 & C2 & HG').
  assert (HT : tagless r = 0).
  { rewrite Ec in N1. rewrite nw_blank_false in N1 by done. rewrite (nw_G _ _ HG') in N1.
    rewrite <- (app_nil_r c2), nw_blank_false in N1 by done. rewrite (ast_words _ _ _ _ HA') in N1. lia. }
  pose proof (wordy_G r None (WF_inhabited t _ r W D) HW HT) as HG2.
  assert (HB2 : bracketed (ast_of PTB None r) (rshow PTB None r)).
  { exists [], (rshow PTB None r), []. rewrite app_nil_r. split_and!; [done|constructor|constructor|done]. }
  rewrite (bracketed_unique _ _ _ HB' HB2) in HA'. by eapply stable_hyphenless.
Qed.

(** ** Cases *)
Definition stable_text f s : option str :=
  match string_to_tree f s with
  | Ret (Ok t) => match tree_to_string f t with Ret (Ok s') => Some s' | _ => None end
  | _ => None
  end.
Definition ex_tag_ast : ast := ANode (lit "S") [APre (lit "PP-x") (lit "I"); ANode (lit "VP") [APre (lit "V") (lit "ran-on")]].
Example C69_ex :
  bracketed ex_tag_ast (lit "(S  (PP-x I)(VP (V ran-on )) )") /\ hyphenless PTB ex_tag_ast /\
  stable_text PTB (lit "(S  (PP-x I)(VP (V ran-on )) )") = Some (lit "(S (PP I) (VP (V ran-on)))").
Proof.
  split_and!; [|repeat constructor; intros _; vm_compute; try discriminate; set_solver|by vm_compute].
  destruct (p_tree_spec (lit "(S  (PP-x I)(VP (V ran-on )) )")) as (r & E & H). apply H.
  assert (p_tree (lit "(S  (PP-x I)(VP (V ran-on )) )") = Ret (Some ex_tag_ast)) as E2 by (by vm_compute). congruence.
Qed.
Example C69_tueba_ex : exists t, string_to_tree TueBa (lit "(NX=ORG:SUBJ:x (:HD a)( B=c b ))") = Ret (Ok t) /\
  tree_to_string TueBa t = Ret (Ok (lit "(NX=ORG:--(:HD a)(B:-- b))")).
Proof.
  eexists. split; [by vm_compute|by vm_compute].
Qed.
(** The format in which it fails: an annotation gains a hyphen with every pass, and a tag that begins
    with a hyphen (like the one of empty categories) is written as nothing, which cannot be read. *)
Theorem C69_ptb_refuted :
  (exists s t s' t' s'', string_to_tree PTB s = Ret (Ok t) /\ tree_to_string PTB t = Ret (Ok s') /\
     string_to_tree PTB s' = Ret (Ok t') /\ tree_to_string PTB t' = Ret (Ok s'') /\
     s = lit "(NP-SBJ (N dogs))" /\ s' = lit "(NP--SBJ (N dogs))" /\ s'' = lit "(NP---SBJ (N dogs))") /\
  (exists s t s', string_to_tree PTB s = Ret (Ok t) /\ tree_to_string PTB t = Ret (Ok s') /\
     string_to_tree PTB s' = Ret Err /\ s = lit "(NP (-NONE- *))" /\ s' = lit "(NP ( *))").
Proof.
  split.
  - exists (lit "(NP-SBJ (N dogs))"), (ex_parsed PTB (lit "(NP-SBJ (N dogs))")), (lit "(NP--SBJ (N dogs))"),
      (ex_parsed PTB (lit "(NP--SBJ (N dogs))")), (lit "(NP---SBJ (N dogs))").
    split_and!; [by vm_compute|by vm_compute|by vm_compute|by vm_compute|done|done|done].
  - exists (lit "(NP (-NONE- *))"), (ex_parsed PTB (lit "(NP (-NONE- *))")), (lit "(NP ( *))").
    split_and!; [by vm_compute|by vm_compute|by vm_compute|done|done].
Qed.

Print Assumptions C69_stable.
Print Assumptions C69_accepted.
Print Assumptions C69_exact.
Print Assumptions C69_ptb_refuted.
