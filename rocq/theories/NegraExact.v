(** C38: the result of one sentence, case by case. *)
From Coq Require Import Lia.
From Verif Require Import NegraModel TreeSpec BaseProofs SpanProofs ShapeProofs GraphProofs SortProofs TreeOps PtbSpec PtbBuild NegraSpec NegraStep NegraRead NegraWF NegraAccept PropsNegra PropsRead.
Local Arguments lit : simpl never.

(** ** Specification *)
(** Every line can be read after the previous ones: words come before nonterminals, the first line is
    a word, and the number of a nonterminal has been named as a parent by an earlier line (the line
    with number 0 may name itself). *)
Inductive accepted : list str -> Prop :=
| accepted_nil : accepted []
| accepted_word body l : accepted body -> readable l -> own_id l = None ->
    (forall l', l' ∈ body -> own_id l' = None) -> accepted (body ++ [l])
| accepted_nt body l id : accepted body -> readable l -> own_id l = Some id -> body <> [] ->
    ((exists l', l' ∈ body /\ parent_id l' = Some id) \/ id = 0 /\ parent_id l = Some 0) -> accepted (body ++ [l]).
(** Secondary edges start at the root or at a node that is the parent of a line. *)
Definition sec_known (body : list str) : Prop :=
  forall l id, l ∈ body -> sec_id l = Some id -> id = 0 \/ exists l', l' ∈ body /\ parent_id l' = Some id.
(** There are as many lines of nonterminals as numbers of parents besides 0. *)
Definition balanced (body : list str) : Prop :=
  exists ids, NoDup ids /\ (forall id, id ∈ ids <-> id <> 0 /\ exists l, l ∈ body /\ parent_id l = Some id) /\
    length ids = length (filter (fun l => own_id l <> None) body).

(** ** Lines *)
Lemma parse_readable k l a : parse_line k (trim l) = Some a -> readable l.
Proof.
  intros H. pose proof (parse_line_pid _ _ _ H) as H1. pose proof (parse_line_sec _ _ _ H) as H2. pose proof (parse_line_own _ _ _ H) as H3.
  split; [rewrite H1; eauto|]. split.
  - assert (P : parsed l a) by (by exists k). destruct (parsed_edge _ _ P) as (e & p & sec & He & _ & Hs). rewrite H2, Hs. clear H1 H2 H3 P.
    unfold edge_part in He. destruct (fields_of l !! 4) as [f4|]; [|done]. destruct (fields_of l !! 5) as [f5|]; [|done].
    destruct (parse_usize f5); [|done]. destruct (opt_fields _) as [sec'|] eqn:E; [|done]. injection He as _ _ <-.
    assert (H6 : fields_of l !! 6 = drop 6 (fields_of l) !! 0) by (by rewrite lookup_drop).
    destruct (drop 6 (fields_of l)) as [|x xs]; simpl in *; [by left|right].
    destruct (starts_percent x) eqn:Ex.
    + left. destruct x as [|c x]; [done|]. simpl in Ex. apply N.eqb_eq in Ex as ->. exists x. exact H6.
    + right. destruct (head xs); [|done]. destruct (parse_usize _); [|done]. injection E as <-. simpl. eauto.
  - intros [s Hs]. rewrite H3. unfold parse_line, parse_fields in H.
    assert (starts_with (lit "#") (trim l) = true) as E. { rewrite Hs. apply is_prefix_spec. by exists s. }
    rewrite E in H. destruct (split_whitespace (trim l) !! 0); [|done]. destruct (split_whitespace (trim l) !! 1); [|done].
    destruct (split_whitespace (trim l) !! 2); [|done]. destruct (split_whitespace (trim l) !! 3); [|done]. destruct (edge_part _) as [[[edge pid] sec]|]; [|done].
    destruct (parse_usize _); [|done]. destruct (split_char _ _); [done|]. injection H as <-. simpl. eauto.
Qed.
Record acx (b : builder) (body : list str) : Prop := {
  ax_acc : acc b body;
  ax_fin : forall l, l ∈ body -> is_Some (own_id l) -> b_fin b = true;
  ax_root : (exists c, PE (bedges b) 0 c) <-> exists l, l ∈ body /\ parent_id l = Some 0;
  ax_sec : forall l id, l ∈ body -> sec_id l = Some id -> exists lab n, (id, lab, n) ∈ b_sec b;
  ax_nil : body = [] -> b_nterm b = 0;
  ax_inj : forall i j n, b_idx b !! i = Some n -> b_idx b !! j = Some n -> i = j
}.
Lemma acx_fresh id meta b : fresh id meta b -> acx b [].
Proof.
  intros F. split; [by eapply acc_fresh|set_solver| |set_solver| |].
  - rewrite (fr_edges _ _ _ F). split; [intros (c & r & Hr & _); by apply elem_of_nil in Hr|intros (l & Hl & _); by apply elem_of_nil in Hl].
  - by destruct (fr_rest _ _ _ F) as (-> & _).
  - rewrite (fr_idx _ _ _ F). intros i j n [<- <-]%lookup_singleton_Some [<- _]%lookup_singleton_Some. done.
Qed.
Lemma acx_step b body l a b' :
  acx b body -> parse_line (b_nterm b) (trim l) = Some a -> stepped b a b' -> acx b' (body ++ [l]).
Proof.
  intros [A Hf Hr Hs Hn Hi] Hp Hst. pose proof (af_B0 _ _ (ac_after _ _ A)) as B.
  pose proof (acc_step _ _ _ _ _ A Hp Hst) as A'. pose proof (parse_line_own _ _ _ Hp) as Eo.
  pose proof (parse_line_pid _ _ _ Hp) as Ep. pose proof (parse_line_sec _ _ _ Hp) as Es.
  assert (G : exists N N' n p e, (forall i m, b_idx b !! i = Some m -> exists nt0, N !! m = Some (NT nt0)) /\
    grown b N (line_pid a) p (b_idx b') N' /\ bedges b' = mk_e e p n (Primary (line_edge a)) :: bedges b /\
    b_sec b' = add_sec (b_sec b) (line_sec a) n).
  { destruct Hst as (_ & _ & Hst). destruct a as [tm edge pid sec|id label ann edge pid sec].
    - destruct Hst as (_ & _ & _ & _ & _ & _ & n & p & e & Hx & Hgr & HE & HS). exists (<[n:=T tm]> (bnodes b)), (bnodes b'), n, p, e.
      split_and!; try done. intros i m Hm. destruct (b0_idx _ B _ _ Hm) as [nt Hnt]. exists nt. rewrite lookup_insert_ne; [done|congruence].
    - destruct Hst as (_ & _ & _ & _ & n & nt & p & e & sp & N' & Hid & Hx & Hgr & HE & HS & _).
      exists (<[n:=NT (named nt label ann)]> (bnodes b)), N', n, p, e. split_and!; try done.
      intros i m Hm. destruct (decide (m = n)) as [->|Hne]; [rewrite lookup_insert; eauto|]. rewrite lookup_insert_ne by done. by eapply b0_idx. }
  destruct G as (N & N' & n & p & e & HN & Hgr & HE & HS). destruct (grown_live b _ _ p _ _ HN Hgr) as (_ & _ & G3 & G4 & G5).
  assert (Hi' : forall i j m, b_idx b' !! i = Some m -> b_idx b' !! j = Some m -> i = j).
  { destruct Hgr as [(_ & -> & _)|(H1 & H2 & -> & _)]; [done|].
    intros i j m. rewrite !lookup_insert_Some. intros [[<- <-]|[_ Hx]] [[<- E]|[_ Hy]]; [done| | |by eapply Hi].
    - destruct (HN _ _ Hy) as [nt ?]. congruence.
    - subst m. destruct (HN _ _ Hx) as [nt ?]. congruence. }
  split; [done| | | |intros E; by destruct body|done].
  - intros l' [Hl'|Hl'%elem_of_list_singleton]%elem_of_app Ho.
    + pose proof (Hf _ Hl' Ho) as E. destruct Hst as (_ & _ & Hst). destruct a; [destruct Hst as (_ & E' & _); congruence|by destruct Hst as (_ & -> & _)].
    + subst l'. rewrite Eo in Ho. destruct Hst as (_ & _ & Hst). destruct a; [by destruct Ho|by destruct Hst as (_ & -> & _)].
  - split.
    + intros (c & r & Hin & Hpr & Hsrc & Ht). rewrite HE in Hin. apply elem_of_cons in Hin as [->|Hin].
      * simpl in Hsrc. subst p. exists l. split; [set_solver|]. rewrite Ep. f_equal. eapply Hi'; [exact G3|]. apply G4, (b0_root _ B).
      * destruct (proj1 Hr) as (l' & Hl' & E); [exists c, r; done|]. exists l'. set_solver.
    + intros (l' & Hl' & E). apply elem_of_app in Hl' as [Hl'|Hl'%elem_of_list_singleton].
      * destruct (proj2 Hr) as (c & r & Hin & Hx); [eauto|]. exists c, r. rewrite HE. split; [by right|done].
      * subst l'. rewrite Ep in E. injection E as E. exists n, (mk_e e p n (Primary (line_edge a))). rewrite HE. split; [by left|].
        split_and!; [done| |done]. simpl. rewrite E in G3. pose proof (G4 _ _ (b0_root _ B)). congruence.
  - intros l' id Hl' E. rewrite HS. unfold add_sec. apply elem_of_app in Hl' as [Hl'|Hl'%elem_of_list_singleton].
    + destruct (Hs _ _ Hl' E) as (lab & m & Hin). exists lab, m. destruct (line_sec a) as [[lb i]|]; [apply elem_of_app; by left|done].
    + subst l'. rewrite Es in E. destruct (line_sec a) as [[lb i]|]; [|done]. injection E as ->. exists lb, n. apply elem_of_app. right. by left.
Qed.
Lemma span_ok_child b a b' n id label ann e p s : stepped b a b' -> a = NLine id label ann e p s -> b_idx b !! id = Some n ->
  exists c, PE (bedges b') n c.
Proof.
  intros (_ & _ & Hst) -> Hid. destruct Hst as (_ & _ & _ & _ & m & nt & q & e0 & sp & N' & Hm & _ & _ & _ & _ & Hok & Hcov & _).
  rewrite Hid in Hm. injection Hm as <-. destruct (proj1 (Hcov (sp_start sp))) as (c & w & Hc & _); [by apply span_ok_start|]. eauto.
Qed.
Lemma accepted_snoc b body l a b' : acx b body -> accepted body -> parse_line (b_nterm b) (trim l) = Some a -> stepped b a b' ->
  accepted (body ++ [l]).
Proof.
  intros X Y Hp Hst. pose proof (acx_step _ _ _ _ _ X Hp Hst) as X'.
  pose proof (parse_readable _ _ _ Hp) as R. pose proof (parse_line_own _ _ _ Hp) as Eo. pose proof (parse_line_pid _ _ _ Hp) as Ep.
  pose proof (af_B0 _ _ (ac_after _ _ (ax_acc _ _ X))) as B.
  destruct a as [tm edge pid sec|k label ann edge pid sec].
  - apply accepted_word; try done. intros l' Hl'. destruct (own_id l') eqn:E; [|done]. exfalso.
    pose proof (ax_fin _ _ X l' Hl') as Hfin. rewrite E in Hfin. destruct Hst as (_ & _ & _ & Hf & _). rewrite Hfin in Hf; eauto; done.
  - assert (Hc : exists n, b_idx b !! k = Some n) by (destruct Hst as (_ & _ & _ & _ & _ & _ & n & ? & ? & ? & ? & ? & H & _); eauto).
    destruct Hc as [n Hid]. apply (accepted_nt _ _ k); try done.
    + intros ->. pose proof (ax_nil _ _ X eq_refl) as E. destruct Hst as (_ & _ & Hk & _). lia.
    + destruct (proj1 (ac_dom _ _ (ax_acc _ _ X) k)) as [->|?]; [eauto| |by left].
      destruct (span_ok_child _ _ _ n _ _ _ _ _ _ Hst eq_refl Hid) as [c Hc].
      rewrite (b0_root _ B) in Hid. injection Hid as <-. destruct (proj1 (ax_root _ _ X')) as (l' & Hl' & E); [eauto|].
      apply elem_of_app in Hl' as [Hl'|Hl'%elem_of_list_singleton]; [left; eauto|right]. by subst l'.
Qed.
Lemma steps_accepted id meta b0 body als b : fresh id meta b0 -> steps b0 body als b -> acx b body /\ accepted body.
Proof.
  intros F Hs. induction Hs as [b|b body b1 als l a b2 Hs IH Hp Hst]; [split; [by eapply acx_fresh|constructor]|].
  destruct (IH F) as [X Y]. split; [by eapply acx_step|by eapply accepted_snoc].
Qed.
Lemma accepted_steps id meta b0 body : fresh id meta b0 -> accepted body -> Forall plain_line body ->
  exists b, acx b body /\ b_sid b = print_nat id /\ forall rest, run (Some b0) (map Some body ++ rest) = run (Some b) rest.
Proof.
  intros F H. assert (Hone : forall body l b a, acx b body -> plain_line l -> parse_line (b_nterm b) (trim l) = Some a -> enabled b a ->
    exists b', acx b' (body ++ [l]) /\ b_sid b' = b_sid b /\ forall rest, run (Some b) (Some l :: rest) = run (Some b') rest).
  { clear. intros body l b a X Hl Hp Hen. pose proof (af_B0 _ _ (ac_after _ _ (ax_acc _ _ X))) as B.
    destruct (process_line_spec b (trim l) B) as (r & E & HP). rewrite Hp in HP. destruct HP as [H1 H2]. destruct (H1 Hen) as [b' ->].
    specialize (H2 b' eq_refl). exists b'. split; [by eapply acx_step|]. split; [by destruct H2 as [-> _]|].
    intros rest. destruct (plain_starts l Hl) as [E1 E2]. cbn [run]. by rewrite E1, E2, E. }
  induction H as [|body l Ha IH R Ho Hw|body l k Ha IH R Ho Hne Hk]; intros Hpl.
  - exists b0. split; [by eapply acx_fresh|]. split; [by apply F|done].
  - apply Forall_app in Hpl as [Hpl Hl]. apply Forall_cons in Hl as [Hl _]. destruct (IH Hpl) as (b & X & Hsid & Hrun).
    destruct (readable_parse (b_nterm b) l R) as [a Hp]. pose proof (parse_line_own _ _ _ Hp) as Eo.
    destruct (Hone body l b a X Hl Hp) as (b' & X' & Hs' & Hr').
    { rewrite Ho in Eo. destruct a as [tm e p s|]; [|done]. simpl. destruct (b_fin b) eqn:E; [|done]. exfalso.
      destruct (ac_fin _ _ (ax_acc _ _ X) E) as (l' & Hl' & Ho'). rewrite (Hw _ Hl') in Ho'. by destruct Ho'. }
    exists b'. split; [done|]. split; [congruence|]. intros rest. rewrite map_app, <- (assoc_L (++)), Hrun. exact (Hr' rest).
  - apply Forall_app in Hpl as [Hpl Hl]. apply Forall_cons in Hl as [Hl _]. destruct (IH Hpl) as (b & X & Hsid & Hrun).
    destruct (readable_parse (b_nterm b) l R) as [a Hp]. pose proof (parse_line_own _ _ _ Hp) as Eo. pose proof (parse_line_pid _ _ _ Hp) as Ep.
    destruct (Hone body l b a X Hl Hp) as (b' & X' & Hs' & Hr').
    { rewrite Ho in Eo. destruct a as [|k' lab ann e p s]; [done|]. injection Eo as <-. simpl in *. split_and!.
      - by apply (af_term _ _ (ac_after _ _ (ax_acc _ _ X))).
      - destruct (decide (k = 0)) as [->|]; [right|by left]. destruct Hk as [Hk|[_ Hk]]; [right; by apply (ax_root _ _ X)|left].
        rewrite Hk in Ep. by injection Ep.
      - apply (ac_dom _ _ (ax_acc _ _ X)). destruct Hk as [?|[? _]]; [by right|by left]. }
    exists b'. split; [done|]. split; [congruence|]. intros rest. rewrite map_app, <- (assoc_L (++)), Hrun. exact (Hr' rest).
Qed.

(** ** The footer *)
Lemma sec_fold_unknown (idx : gmap nat nat) sec : Exists (fun e : nat * str * nat => idx !! e.1.1 = None) sec ->
  forall g, foldM (fun g (e : nat * str * nat) => let '(source, label, target) := e in
                 p ← unwrap (idx !! source); '(g, _) ← add_edge g p target (Secondary (Some label)); Ret g) sec g = Panic.
Proof.
  intros H. induction sec as [|[[i l] n] sec IH]; [by inversion H|]. intros g. cbn [foldM].
  destruct (idx !! i) as [p|] eqn:E; [|done]. cbn [unwrap mbind outcome_bind].
  inversion H as [? ? Hx|? ? Hx]; subst; [simpl in Hx; congruence|].
  unfold add_edge. destruct (_ && _)%bool; cbn [assert mbind outcome_bind]; [|done]. repeat case_match; cbn [mbind outcome_bind]; try done; by apply IH.
Qed.
Lemma try_exact b footer : B0 b -> starts_with (lit "#EOS") footer = true ->
  (split_whitespace footer !! 1 <> Some (b_sid b) -> try_into_tree b footer = Ret Err) /\
  (split_whitespace footer !! 1 = Some (b_sid b) ->
     (Exists (fun e : nat * str * nat => b_idx b !! e.1.1 = None) (b_sec b) -> try_into_tree b footer = Panic) /\
     ((forall id l n, (id, l, n) ∈ b_sec b -> is_Some (b_idx b !! id)) ->
        (b_done b <> size (b_idx b) -> try_into_tree b footer = Ret Err) /\
        (b_done b = size (b_idx b) -> b_nterm b = 0 -> try_into_tree b footer = Panic) /\
        (b_done b = size (b_idx b) -> 0 < b_nterm b -> exists t, try_into_tree b footer = Ret (Ok t)))).
Proof.
  intros B Hf. destruct (try_into_tree_spec b footer B Hf) as [HT _]. pose proof (b0_graph _ B) as G.
  assert (Hidx : forall id n, b_idx b !! id = Some n -> is_Some (bnodes b !! n)).
  { intros id n (nt & ->)%(b0_idx _ B). eauto. }
  split; [|intros Hs; split; [|intros Hk; split_and!]].
  - unfold try_into_tree. rewrite Hf. cbn [assert mbind outcome_bind]. destruct (split_whitespace footer !! 1) as [eos|]; cbn [NegraModel.field]; [|done].
    intros Hne. unfold str_eqb. rewrite bool_decide_eq_false_2; [done|]. congruence.
  - intros Hu. unfold try_into_tree. rewrite Hf, Hs. cbn [assert mbind outcome_bind NegraModel.field]. unfold str_eqb.
    rewrite bool_decide_eq_true_2 by done. cbn [negb]. by rewrite sec_fold_unknown.
  - intros Hd. unfold try_into_tree. rewrite Hf, Hs. cbn [assert mbind outcome_bind NegraModel.field]. unfold str_eqb.
    rewrite bool_decide_eq_true_2 by done. cbn [negb].
    destruct (sec_fold (b_idx b) (b_sec b) (b_graph b) G (b0_sec _ B) Hidx Hk) as (g & new & -> & _).
    cbn [mbind outcome_bind]. rewrite (b0_root _ B). cbn [unwrap mbind outcome_bind].
    destruct (Nat.eqb_spec (b_done b) (size (b_idx b))); [done|]. done.
  - intros Hd Hz. unfold try_into_tree. rewrite Hf, Hs. cbn [assert mbind outcome_bind NegraModel.field]. unfold str_eqb.
    rewrite bool_decide_eq_true_2 by done. cbn [negb].
    destruct (sec_fold (b_idx b) (b_sec b) (b_graph b) G (b0_sec _ B) Hidx Hk) as (g & new & -> & _).
    cbn [mbind outcome_bind]. rewrite (b0_root _ B). cbn [unwrap mbind outcome_bind].
    rewrite (proj2 (Nat.eqb_eq _ _) Hd), Hz. done.
  - intros Hd Hk0. destruct (HT Hk0 Hk) as (r & -> & Hr). destruct (Hr Hs Hd) as [t ->]. eauto.
Qed.
Lemma acx_balanced b body : acx b body -> balanced body <-> b_done b = size (b_idx b).
Proof.
  intros X. pose proof (ax_acc _ _ X) as A. pose proof (af_B0 _ _ (ac_after _ _ A)) as B.
  assert (Hc : length (omap own_id body) = length (filter (fun l => own_id l <> None) body)).
  { clear. induction body as [|l body IH]; [done|]. rewrite filter_cons. simpl. destruct (own_id l); simpl; [f_equal; exact IH|exact IH]. }
  rewrite (ac_done _ _ A), Hc, <- size_dom.
  assert (G : forall ids, NoDup ids -> (forall id, id ∈ ids <-> id <> 0 /\ exists l, l ∈ body /\ parent_id l = Some id) ->
    size (dom (b_idx b) : gset nat) = 1 + length ids).
  { intros ids ND H. assert (dom (b_idx b) = list_to_set (0 :: ids) :> gset nat) as ->.
    { apply set_eq. intros i. rewrite elem_of_dom, elem_of_list_to_set, elem_of_cons, (ac_dom _ _ A), H.
      destruct (decide (i = 0)) as [->|]; naive_solver. }
    rewrite size_list_to_set; [done|]. constructor; [|done]. intros [? _]%H. done. }
  split.
  - intros (ids & ND & H & E). rewrite (G ids ND H), E. lia.
  - intros E. exists (elements (dom (b_idx b) ∖ {[0]} : gset nat)).
    assert (ND : NoDup (elements (dom (b_idx b) ∖ {[0]} : gset nat))) by apply NoDup_elements.
    assert (H : forall id, id ∈ elements (dom (b_idx b) ∖ {[0]} : gset nat) <-> id <> 0 /\ exists l, l ∈ body /\ parent_id l = Some id).
    { intros i. rewrite elem_of_elements, elem_of_difference, elem_of_dom, elem_of_singleton, (ac_dom _ _ A). naive_solver. }
    split; [done|]. split; [done|]. pose proof (G _ ND H). lia.
Qed.
Lemma header_says_of bos k meta : header_says bos k meta -> header_of (trim bos) = Some (k, meta).
Proof.
  intros (h & num & rest & E & (h' & w & -> & Hw & Hh) & Hnum & Hk & Hr). unfold header_of. rewrite E, <- (assoc_L (++)).
  rewrite cut_white_app by done. cbn [app cut_white]. rewrite Hw. cbn [fst snd]. rewrite cut_white_app by done.
  destruct rest as [|w' m].
  - subst meta. cbn [cut_white fst snd]. by rewrite (right_id_L [] (++)), Hk.
  - destruct Hr as [Hw' ->]. cbn [cut_white]. rewrite Hw'. cbn [fst snd]. by rewrite (right_id_L [] (++)), Hk.
Qed.

(** ** C38 *)
(** One sentence, all cases.  Two errors: the header has no number or a line cannot be read.  One
    error: the footer does not repeat the number, or the numbers of lines and of parents do not
    match.  Panic: an unknown secondary parent or no line at all.  One tree: otherwise. *)
Theorem C38_sentence bos body eos : is_bos bos -> Forall plain_line body -> is_eos eos ->
  let r := negra_read (Some bos :: map Some body ++ [Some eos]) in
  (forall k meta, header_says bos k meta -> accepted body ->
     (fields_of eos !! 1 <> Some (print_nat k) -> r = Ret [Err]) /\
     (fields_of eos !! 1 = Some (print_nat k) ->
        (~ sec_known body \/ body = [] -> r = Panic) /\
        (sec_known body -> body <> [] -> ~ balanced body -> r = Ret [Err]) /\
        (sec_known body -> body <> [] -> balanced body -> exists t, r = Ret [Ok t]))) /\
  (~ ((exists k meta, header_says bos k meta) /\ accepted body) -> r = Ret [Err; Err]).
Proof.
  intros Hb Hp He r. unfold r. clear r. rewrite negra_read_run. split.
  - intros k meta Hh%header_says_of Ha.
    assert (Eb : starts_with (lit "#BOS") (trim bos) = true) by (by apply starts_bos).
    assert (Ee : starts_with (lit "#EOS") (trim eos) = true) by (by apply starts_eos).
    assert (En : starts_with (lit "#BOS") (trim eos) = false). { apply not_true_iff_false. rewrite starts_bos. intros Hx. by apply bos_eos in Hx. }
    pose proof (from_header_spec _ Eb) as Hf. rewrite Hh in Hf. destruct Hf as (b0 & E0 & Hf).
    destruct (accepted_steps _ _ _ _ Hf Ha Hp) as (b & X & Hsid & Hrun). pose proof (ax_acc _ _ X) as A. pose proof (af_B0 _ _ (ac_after _ _ A)) as B.
    assert (Hr : run None (Some bos :: map Some body ++ [Some eos]) = (r ← try_into_tree b (trim eos); Ret [r])).
    { cbn [run]. rewrite Eb, E0. cbn [mbind outcome_bind]. rewrite Hrun. cbn [run]. rewrite En, Ee. done. }
    rewrite Hr. destruct (try_exact b (trim eos) B Ee) as [T1 T2]. rewrite Hsid in T1, T2. change (split_whitespace (trim eos)) with (fields_of eos) in T1, T2.
    assert (Hsk : sec_known body -> forall id l n, (id, l, n) ∈ b_sec b -> is_Some (b_idx b !! id)).
    { intros Hsk id l n (l' & Hl' & E)%(af_sec _ _ (ac_after _ _ A)). apply (ac_dom _ _ A). by apply (Hsk l'). }
    split; [intros Hne; by rewrite (T1 Hne)|]. intros Heq. destruct (T2 Heq) as [T3 T4]. split_and!.
    + intros Hbad. destruct (decide (Exists (fun e : nat * str * nat => b_idx b !! e.1.1 = None) (b_sec b))) as [HX|HX]; [by rewrite (T3 HX)|].
      assert (Hall : forall id l n, (id, l, n) ∈ b_sec b -> is_Some (b_idx b !! id)).
      { intros id l n Hin. destruct (b_idx b !! id) eqn:E; [eauto|]. exfalso. apply HX, Exists_exists. by exists (id, l, n). }
      destruct Hbad as [Hbad| ->].
      * exfalso. apply Hbad. intros l id Hl E. apply (ac_dom _ _ A). destruct (ax_sec _ _ X l id Hl E) as (lab & n & Hin). by eapply Hall.
      * destruct (T4 Hall) as (_ & T5 & _). rewrite T5; [done| |by apply (ax_nil _ _ X)]. apply (acx_balanced _ _ X).
        exists []. split; [constructor|]. split; [|done]. intros id. split; [intros H; by apply elem_of_nil in H|intros (_ & l & Hl & _); by apply elem_of_nil in Hl].
    + intros Hk Hne Hnb. destruct (T4 (Hsk Hk)) as (T5 & _). rewrite T5; [done|]. intros E. by apply Hnb, (acx_balanced _ _ X).
    + intros Hk Hne Hbal. destruct (T4 (Hsk Hk)) as (_ & _ & T5). destruct T5 as [t ->]; [by apply (acx_balanced _ _ X)| |by exists t].
      by apply (af_term _ _ (ac_after _ _ A)).
  - intros Hno. destruct (run_sentence bos body eos Hb Hp He) as [->|(als & b & Hs & _)]; [done|]. exfalso. apply Hno.
    destruct Hs as (_ & _ & k & meta & b0 & Hh & Hf & Hs). split; [exists k, meta; by apply header_of_says|].
    by eapply steps_accepted.
Qed.

(** Deciding [accepted] on concrete sentences. *)
Fixpoint acceptedb (before todo : list str) : bool :=
  match todo with
  | [] => true
  | l :: todo =>
      (readableb l &&
       match own_id l with
       | None => forallb (fun l' => negb (someb (own_id l'))) before
       | Some k => negb (match before with [] => true | _ => false end) &&
           (existsb (fun l' => bool_decide (parent_id l' = Some k)) before || (Nat.eqb k 0 && bool_decide (parent_id l = Some 0)))
       end && acceptedb (before ++ [l]) todo)%bool
  end.
Lemma acceptedb_spec todo : forall before, accepted before -> acceptedb before todo = true -> accepted (before ++ todo).
Proof.
  induction todo as [|l todo IH]; intros before Ha H; [by rewrite (right_id_L [] (++))|]. cbn [acceptedb] in H.
  apply andb_true_iff in H as [H H3]. apply andb_true_iff in H as [H1 H2].
  assert (R : readable l). { assert (HF : Forall readable [l]); [apply readable_all; simpl; by rewrite H1|]. by apply Forall_cons in HF as [? _]. }
  assert (E : before ++ l :: todo = (before ++ [l]) ++ todo) by (by rewrite <- (assoc_L (++))). rewrite E. apply IH; [|done].
  destruct (own_id l) as [k|] eqn:Eo.
  - apply andb_true_iff in H2 as [H2 H4]. apply (accepted_nt _ _ k); try done; [by destruct before|].
    apply orb_true_iff in H4 as [H4|H4].
    + left. apply existsb_exists in H4 as (l' & Hl' & Hp). exists l'. split; [by apply elem_of_list_In|]. by apply bool_decide_eq_true in Hp.
    + right. apply andb_true_iff in H4 as [H4 H5]. split; [by apply Nat.eqb_eq|by apply bool_decide_eq_true in H5].
  - apply accepted_word; try done. intros l' Hl'%elem_of_list_In. rewrite forallb_forall in H2. specialize (H2 _ Hl'). by destruct (own_id l').
Qed.
Lemma ex_header s : trim s = lit "#BOS 1" -> header_says s 1 None.
Proof.
  intros E. exists (lit "#BOS "), (lit "1"), []. split; [by rewrite E|]. split.
  { exists (lit "#BOS"), 32%N. split; [done|]. split; [done|]. repeat constructor. }
  split; [repeat constructor|]. split; [by vm_compute|done].
Qed.
(** All four cases occur: a tree, a panic, one error, two errors. *)
Definition four_bodies : list (list str) :=
  [[lit "a -- A -- -- 500"; lit "#500 -- X -- -- 0"]; [lit "a -- A -- -- 500 s 7"; lit "#500 -- X -- -- 0"];
   [lit "a -- A -- -- 500"]; [lit "a -- A -- -- 500"; lit "#501 -- X -- -- 0"]].
Example C38_sentence_ex :
  Forall accepted (take 3 four_bodies) /\ header_says (lit "#BOS 1") 1 None /\
  map (fun body => match negra_read (map Some (lit "#BOS 1" :: body ++ [lit "#EOS 1"])) with
                   | Ret [Ok _] => 0 | Panic => 1 | Ret [Err] => 2 | Ret [Err; Err] => 3 | _ => 4 end) four_bodies = [0; 1; 2; 3].
Proof.
  split; [|split; [apply ex_header; by vm_compute|by vm_compute]].
  repeat constructor; apply (acceptedb_spec _ []); (constructor || by vm_compute).
Qed.

(** ** C65: any stream *)
(** The result of a closed sentence: a tree or one error. *)
Definition sentence_gives (bos : str) (body : list str) (eos : str) (r : result tree) : Prop :=
  exists k meta, header_says bos k meta /\
  match r with
  | Ok t => fields_of eos !! 1 = Some (print_nat k) /\ sec_known body /\ body <> [] /\ balanced body /\
      negra_read (Some bos :: map Some body ++ [Some eos]) = Ret [Ok t]
  | Err => fields_of eos !! 1 <> Some (print_nat k) \/ sec_known body /\ body <> [] /\ ~ balanced body
  end.
(** [stream c ls rs c']: reading the lines [ls] gives the results [rs]; [c] is the header and the lines of
    the current sentence before, [c'] after them.  [None] in [ls] is a line that cannot be read. *)
Inductive stream : option (str * list str) -> list (option str) -> list (result tree) -> option (str * list str) -> Prop :=
| stream_end c : stream c [] [] c
| stream_io c ls rs c' : stream None ls rs c' -> stream c (None :: ls) (Err :: rs) c'
| stream_text l ls rs c' : plain_line l -> stream None ls rs c' -> stream None (Some l :: ls) rs c'
| stream_stray l ls rs c' : is_eos l -> stream None ls rs c' -> stream None (Some l :: ls) (Err :: rs) c'
| stream_open l k meta ls rs c' : is_bos l -> header_says l k meta -> stream (Some (l, [])) ls rs c' ->
    stream None (Some l :: ls) rs c'
| stream_nohead l ls rs c' : is_bos l -> (forall k meta, ~ header_says l k meta) -> stream None ls rs c' ->
    stream None (Some l :: ls) (Err :: rs) c'
| stream_nested x l ls rs c' : is_bos l -> stream None ls rs c' -> stream (Some x) (Some l :: ls) (Err :: rs) c'
| stream_line bos body l ls rs c' : plain_line l -> accepted (body ++ [l]) -> stream (Some (bos, body ++ [l])) ls rs c' ->
    stream (Some (bos, body)) (Some l :: ls) rs c'
| stream_bad bos body l ls rs c' : plain_line l -> ~ accepted (body ++ [l]) -> stream None ls rs c' ->
    stream (Some (bos, body)) (Some l :: ls) (Err :: rs) c'
| stream_close bos body l r ls rs c' : is_eos l -> sentence_gives bos body l r -> stream None ls rs c' ->
    stream (Some (bos, body)) (Some l :: ls) (r :: rs) c'.
(** A footer at which the reader panics. *)
Definition fatal (bos : str) (body : list str) (eos : str) : Prop :=
  is_eos eos /\ (~ sec_known body \/ body = []) /\
  exists k meta, header_says bos k meta /\ fields_of eos !! 1 = Some (print_nat k).

(** What the builder knows about the current sentence. *)
Definition current (c : option (str * list str)) (cur : option builder) : Prop :=
  match c, cur with
  | None, None => True
  | Some (bos, body), Some b => is_bos bos /\ Forall plain_line body /\ accepted body /\ acx b body /\
      exists k meta b0, header_says bos k meta /\ fresh k meta b0 /\ b_sid b = print_nat k /\
        from_header (trim bos) = Ret (Ok b0) /\ forall rest, run (Some b0) (map Some body ++ rest) = run (Some b) rest
  | _, _ => False
  end.
Lemma line_cases bos body b l : current (Some (bos, body)) (Some b) -> plain_line l ->
  (accepted (body ++ [l]) /\ exists b', process_line b (trim l) = Ret (Ok b') /\ current (Some (bos, body ++ [l])) (Some b')) \/
  (~ accepted (body ++ [l]) /\ process_line b (trim l) = Ret Err).
Proof.
  intros (Hb & Hpl & Ha & X & k & meta & b0 & Hh & Hf & Hsid & Hhd & Hrun) Hl.
  pose proof (af_B0 _ _ (ac_after _ _ (ax_acc _ _ X))) as B. destruct (plain_starts l Hl) as [E1 E2].
  destruct (process_line_spec b (trim l) B) as (r & E & HP). destruct r as [b'|].
  - left. destruct (parse_line (b_nterm b) (trim l)) as [a|] eqn:Hp; [|done]. destruct HP as [_ HP]. specialize (HP b' eq_refl).
    pose proof (accepted_snoc _ _ _ _ _ X Ha Hp HP) as Ha'. split; [done|]. exists b'. split; [done|].
    split; [done|]. split; [apply Forall_app; split; [done|by constructor]|]. split; [done|]. split; [by eapply acx_step|].
    exists k, meta, b0. split; [done|]. split; [done|]. split; [by destruct HP as [-> _]|]. split; [done|].
    intros rest. rewrite map_app, <- (assoc_L (++)), Hrun. cbn [map app run]. by rewrite E1, E2, E.
  - right. split; [|done]. intros Ha'.
    destruct (accepted_steps k meta b0 (body ++ [l]) Hf Ha') as (b' & X' & _ & Hrun'); [apply Forall_app; split; [done|by constructor]|].
    pose proof (Hrun' []) as H1. rewrite map_app, <- (assoc_L (++)), Hrun in H1. cbn [map app run] in H1. rewrite E1, E2, E in H1. done.
Qed.
Lemma acx_sec_known b body : acx b body ->
  sec_known body <-> ~ Exists (fun e : nat * str * nat => b_idx b !! e.1.1 = None) (b_sec b).
Proof.
  intros X. pose proof (ax_acc _ _ X) as A. split.
  - intros Hk HX. apply Exists_exists in HX as ([[id lab] n] & Hin & E). simpl in E.
    destruct (af_sec _ _ (ac_after _ _ A) _ _ _ Hin) as (l & Hl & Hs). destruct (proj2 (ac_dom _ _ A id)) as [m Hm]; [by apply (Hk l)|]. congruence.
  - intros HX l id Hl E. apply (ac_dom _ _ A). destruct (ax_sec _ _ X l id Hl E) as (lab & n & Hin).
    destruct (b_idx b !! id) eqn:E'; [eauto|]. exfalso. apply HX, Exists_exists. by exists (id, lab, n).
Qed.
Lemma close_cases bos body b eos : current (Some (bos, body)) (Some b) -> is_eos eos ->
  (forall r, sentence_gives bos body eos r -> try_into_tree b (trim eos) = Ret r) /\
  (fatal bos body eos -> try_into_tree b (trim eos) = Panic) /\
  ((exists r, sentence_gives bos body eos r) \/ fatal bos body eos).
Proof.
  intros (Hb & Hpl & Ha & X & k & meta & b0 & Hh & Hf & Hsid & Hhd & Hrun) He.
  destruct (C38_sentence bos body eos Hb Hpl He) as [HC _]. destruct (HC k meta Hh Ha) as [HC1 HC2].
  assert (HR : negra_read (Some bos :: map Some body ++ [Some eos]) = (r ← try_into_tree b (trim eos); Ret [r])).
  { rewrite negra_read_run. assert (Eb : starts_with (lit "#BOS") (trim bos) = true) by (by apply starts_bos).
    assert (Ee : starts_with (lit "#EOS") (trim eos) = true) by (by apply starts_eos).
    assert (En : starts_with (lit "#BOS") (trim eos) = false). { apply not_true_iff_false. rewrite starts_bos. intros Hx. by apply bos_eos in Hx. }
    cbn [run]. rewrite Eb, Hhd. cbn [mbind outcome_bind]. rewrite Hrun. cbn [run]. rewrite En, Ee. done. }
  assert (HR' : forall r, negra_read (Some bos :: map Some body ++ [Some eos]) = Ret [r] -> try_into_tree b (trim eos) = Ret r).
  { intros r. rewrite HR. destruct (try_into_tree b (trim eos)); cbn [mbind outcome_bind]; naive_solver. }
  assert (HP : negra_read (Some bos :: map Some body ++ [Some eos]) = Panic -> try_into_tree b (trim eos) = Panic).
  { rewrite HR. by destruct (try_into_tree b (trim eos)). }
  assert (Dk : sec_known body \/ ~ sec_known body).
  { destruct (decide (Exists (fun e : nat * str * nat => b_idx b !! e.1.1 = None) (b_sec b))) as [HX|HX].
    - right. intros Hs. by apply (acx_sec_known _ _ X) in Hs.
    - left. by apply (acx_sec_known _ _ X). }
  assert (Db : balanced body \/ ~ balanced body).
  { destruct (decide (b_done b = size (b_idx b))) as [E|E]; [left|right]; by rewrite (acx_balanced _ _ X). }
  assert (Hnil : body = [] \/ body <> []) by (destruct body; [by left|by right]).
  assert (Hk : forall k' meta', header_says bos k' meta' -> k' = k).
  { intros k' meta' Hh'%header_says_of. apply header_says_of in Hh. congruence. }
  split_and!.
  - intros r (k' & meta' & Hh' & Hr). apply HR'. apply Hk in Hh' as ->. destruct r as [t|]; [by destruct Hr as (_ & _ & _ & _ & ?)|].
    destruct Hr as [Hr|(H1 & H2 & H3)]; [by apply HC1|].
    destruct (decide (fields_of eos !! 1 = Some (print_nat k))) as [Hft|Hft]; [|by apply HC1]. by apply HC2.
  - intros (_ & Hbad & k' & meta' & Hh' & Hft). apply Hk in Hh' as ->. apply HP. by apply (HC2 Hft).
  - destruct (decide (fields_of eos !! 1 = Some (print_nat k))) as [Hft|Hft]; cycle 1.
    { left. exists Err, k, meta. split; [done|by left]. }
    destruct (HC2 Hft) as (P1 & P2 & P3).
    assert (HF : ~ sec_known body \/ body = [] -> fatal bos body eos).
    { intros H. split; [done|]. split; [done|]. by exists k, meta. }
    destruct Dk as [Dk|Dk]; [|right; apply HF; by left].
    destruct Hnil as [Hn|Hn]; [right; apply HF; by right|]. left. destruct Db as [Db|Db].
    + destruct (P3 Dk Hn Db) as [t Et]. exists (Ok t), k, meta. done.
    + exists Err, k, meta. split; [done|by right].
Qed.
Lemma kind_of l : plain_line l \/ is_bos l \/ is_eos l.
Proof.
  destruct (starts_with (lit "#BOS") (trim l)) eqn:E1; [right; left; by apply starts_bos|].
  destruct (starts_with (lit "#EOS") (trim l)) eqn:E2; [right; right; by apply starts_eos|].
  left. split; [intros H%starts_bos|intros H%starts_eos]; congruence.
Qed.
Lemma eos_starts l : is_eos l -> starts_with (lit "#BOS") (trim l) = false /\ starts_with (lit "#EOS") (trim l) = true.
Proof.
  intros H. split; [|by apply starts_eos]. apply not_true_iff_false. rewrite starts_bos. intros Hx. by apply bos_eos in Hx.
Qed.
Lemma current_open l k meta : is_bos l -> header_says l k meta -> exists b, from_header (trim l) = Ret (Ok b) /\ current (Some (l, [])) (Some b).
Proof.
  intros Hl Hh. assert (E1 : starts_with (lit "#BOS") (trim l) = true) by (by apply starts_bos).
  pose proof (from_header_spec _ E1) as Hf. rewrite (header_says_of _ _ _ Hh) in Hf. destruct Hf as (b & Eb & Hf). exists b. split; [done|].
  split; [done|]. split; [constructor|]. split; [constructor|]. split; [by eapply acx_fresh|]. exists k, meta, b.
  split; [done|]. split; [done|]. split; [apply Hf|]. done.
Qed.
Lemma current_nohead l : is_bos l -> (forall k meta, ~ header_says l k meta) -> from_header (trim l) = Ret Err.
Proof.
  intros Hl Hh. assert (E1 : starts_with (lit "#BOS") (trim l) = true) by (by apply starts_bos).
  pose proof (from_header_spec _ E1) as Hf. destruct (header_of (trim l)) as [[k meta]|] eqn:E; [|done].
  exfalso. apply (Hh k meta). by apply header_of_says.
Qed.
Definition after_results (rs : list (result tree)) (m : outcome (list (result tree))) : outcome (list (result tree)) := xs ← m; Ret (rs ++ xs).
Lemma after_cons r rs m : after_results (r :: rs) m = emit r (after_results rs m).
Proof. unfold after_results, emit. by destruct m. Qed.
Lemma stream_run c ls rs c' : stream c ls rs c' -> forall cur, current c cur ->
  exists cur', current c' cur' /\ forall rest, run cur (ls ++ rest) = after_results rs (run cur' rest).
Proof.
  induction 1 as [c|c ls rs c' Hs IH|l ls rs c' Hl Hs IH|l ls rs c' Hl Hs IH|l k meta ls rs c' Hl Hh Hs IH|l ls rs c' Hl Hh Hs IH|
    x l ls rs c' Hl Hs IH|bos body l ls rs c' Hl Ha Hs IH|bos body l ls rs c' Hl Ha Hs IH|bos body l r ls rs c' Hl Hg Hs IH]; intros cur C.
  - exists cur. split; [done|]. intros rest. change ([] ++ rest) with rest. unfold after_results. by destruct (run cur rest).
  - destruct (IH None I) as (cur' & C' & HR). exists cur'. split; [done|]. intros rest. cbn [app run]. by rewrite HR, after_cons.
  - destruct cur; [done|]. destruct (IH None I) as (cur' & C' & HR). exists cur'. split; [done|]. intros rest. cbn [app run].
    destruct (plain_starts l Hl) as [-> ->]. by rewrite HR.
  - destruct cur; [done|]. destruct (IH None I) as (cur' & C' & HR). exists cur'. split; [done|]. intros rest. cbn [app run].
    destruct (eos_starts l Hl) as [-> ->]. by rewrite HR, after_cons.
  - destruct cur; [done|]. destruct (current_open l k meta Hl Hh) as (b & Eb & Cb). destruct (IH (Some b) Cb) as (cur' & C' & HR).
    exists cur'. split; [done|]. intros rest. cbn [app run]. assert (starts_with (lit "#BOS") (trim l) = true) as -> by (by apply starts_bos).
    rewrite Eb. cbn [mbind outcome_bind]. apply HR.
  - destruct cur; [done|]. destruct (IH None I) as (cur' & C' & HR). exists cur'. split; [done|]. intros rest. cbn [app run].
    assert (starts_with (lit "#BOS") (trim l) = true) as -> by (by apply starts_bos).
    rewrite (current_nohead l Hl Hh). cbn [mbind outcome_bind]. by rewrite HR, after_cons.
  - destruct cur; [|by destruct x]. destruct (IH None I) as (cur' & C' & HR). exists cur'. split; [done|]. intros rest. cbn [app run].
    assert (starts_with (lit "#BOS") (trim l) = true) as -> by (by apply starts_bos). by rewrite HR, after_cons.
  - destruct cur as [b|]; [|done]. destruct (line_cases _ _ _ l C Hl) as [(_ & b' & Eb & Cb)|[Hno _]]; [|done].
    destruct (IH (Some b') Cb) as (cur' & C' & HR). exists cur'. split; [done|]. intros rest. cbn [app run].
    destruct (plain_starts l Hl) as [-> ->]. rewrite Eb. cbn [mbind outcome_bind]. apply HR.
  - destruct cur as [b|]; [|done]. destruct (line_cases _ _ _ l C Hl) as [(Hyes & _)|[_ Eb]]; [done|].
    destruct (IH None I) as (cur' & C' & HR). exists cur'. split; [done|]. intros rest. cbn [app run].
    destruct (plain_starts l Hl) as [-> ->]. rewrite Eb. cbn [mbind outcome_bind]. by rewrite HR, after_cons.
  - destruct cur as [b|]; [|done]. destruct (close_cases _ _ _ l C Hl) as (Hc & _ & _). apply Hc in Hg.
    destruct (IH None I) as (cur' & C' & HR). exists cur'. split; [done|]. intros rest. cbn [app run].
    destruct (eos_starts l Hl) as [-> ->]. rewrite Hg. cbn [mbind outcome_bind]. by rewrite HR, after_cons.
Qed.
Definition stuck (c : option (str * list str)) (ls : list (option str)) : Prop :=
  exists pre eos post rs bos body, ls = pre ++ Some eos :: post /\ stream c pre rs (Some (bos, body)) /\ fatal bos body eos.
Lemma stuck_cons c c1 o ls : (forall ls0 rs c', stream c1 ls0 rs c' -> exists rs', stream c (o :: ls0) rs' c') -> stuck c1 ls -> stuck c (o :: ls).
Proof.
  intros H (pre & eos & post & rs & bos & body & -> & Hs & Hf). destruct (H _ _ _ Hs) as [rs' Hs']. by exists (o :: pre), eos, post, rs', bos, body.
Qed.
Lemma stream_total ls : forall c cur, current c cur -> (exists rs c', stream c ls rs c') \/ stuck c ls.
Proof.
  induction ls as [|o ls IH]; intros c cur C; [left; eexists _, _; constructor|].
  assert (K : forall c1 cur1, current c1 cur1 -> (forall ls0 rs c', stream c1 ls0 rs c' -> exists rs', stream c (o :: ls0) rs' c') ->
    (exists rs c', stream c (o :: ls) rs c') \/ stuck c (o :: ls)).
  { intros c1 cur1 C1 HK. destruct (IH c1 cur1 C1) as [(rs & c' & Hs)|Hs]; [left; destruct (HK _ _ _ Hs) as [rs' ?]; eauto|right; by eapply stuck_cons]. }
  destruct o as [l|]; [|apply (K None None I); intros; eexists; by constructor].
  destruct (kind_of l) as [Hl|[Hl|Hl]], c as [[bos body]|], cur as [b|]; try done.
  - destruct (line_cases _ _ _ l C Hl) as [(Ha & b' & _ & Cb)|[Hno _]].
    + apply (K _ _ Cb). intros. eexists. by constructor.
    + apply (K None None I). intros. eexists. by apply stream_bad.
  - apply (K None None I). intros. eexists. by constructor.
  - apply (K None None I). intros. eexists. by apply stream_nested.
  - destruct (header_of (trim l)) as [[k meta]|] eqn:E.
    + apply header_of_says in E. destruct (current_open l k meta Hl E) as (b & _ & Cb). apply (K _ _ Cb). intros. eexists. by eapply stream_open.
    + apply (K None None I). intros. eexists. apply stream_nohead; [done| |done]. intros k meta Hh%header_says_of. congruence.
  - destruct (close_cases _ _ _ l C Hl) as (_ & _ & [[r Hr]|Hf]).
    + apply (K None None I). intros. eexists. by apply stream_close.
    + right. exists [], l, ls, [], bos, body. split; [done|]. split; [constructor|done].
  - apply (K None None I). intros. eexists. by apply stream_stray.
Qed.
(** The results of the NEGRA reader for any stream of lines are those of [stream]; it panics exactly
    at a [fatal] footer; it always ends. *)
Theorem C65_stream ls :
  (forall rs, negra_read ls = Ret rs <-> exists c', stream None ls rs c') /\
  (negra_read ls = Panic <->
     exists pre eos post rs bos body, ls = pre ++ Some eos :: post /\ stream None pre rs (Some (bos, body)) /\ fatal bos body eos) /\
  negra_read ls <> Diverge.
Proof.
  rewrite negra_read_run.
  assert (HO : forall rs c', stream None ls rs c' -> run None ls = Ret rs).
  { intros rs c' Hs. destruct (stream_run _ _ _ _ Hs None I) as (cur' & _ & HR). specialize (HR []). rewrite (right_id_L [] (++)) in HR.
    rewrite HR. unfold after_results. cbn [run mbind outcome_bind]. by rewrite (right_id_L [] (++)). }
  assert (HP : stuck None ls -> run None ls = Panic).
  { intros (pre & eos & post & rs & bos & body & -> & Hs & Hf). destruct (stream_run _ _ _ _ Hs None I) as (cur' & C' & HR). rewrite HR.
    destruct cur' as [b|]; [|done]. pose proof Hf as (He & _). destruct (close_cases _ _ _ eos C' He) as (_ & Hp & _). apply Hp in Hf.
    cbn [run]. destruct (eos_starts eos He) as [-> ->]. by rewrite Hf. }
  destruct (stream_total ls None None I) as [(rs0 & c0 & Hs)|Hs].
  - pose proof (HO _ _ Hs) as E. split_and!.
    + intros rs. split; [rewrite E; intros [= <-]; eauto|]. intros [c' Hs']. by eapply HO.
    + split; [by rewrite E|]. intros HS%HP. done.
    + by rewrite E.
  - pose proof (HP Hs) as E. split_and!.
    + intros rs. split; [by rewrite E|]. intros [c' Hs']. by eapply HO.
    + split; [done|]. by rewrite E.
    + by rewrite E.
Qed.
(** Text outside sentences, a nested header, a footer without sentence and a tree. *)
Example C65_stream_ex : exists t c',
  stream None (map Some [lit "text"; lit "#BOS 1"; lit "a -- A -- -- 0"; lit "#BOS 2"; lit "b -- B -- -- 0"; lit "#EOS 2"] ++
               None :: map Some [lit "#BOS 1"; lit "a -- A -- -- 500"; lit "#500 -- X -- -- 0"; lit "#EOS 1"; lit "#BOS 3"])
    [Err; Err; Err; Ok t] c'.
Proof. eexists. apply (proj1 (C65_stream _)). vm_compute. reflexivity. Qed.
(** A panic: the second sentence has no line. *)
Example C65_panic_ex : exists pre eos post rs bos body,
  map Some [lit "#BOS 1"; lit "a -- A -- -- 0"; lit "#EOS 1"; lit "#BOS 2"; lit "#EOS 2"] = pre ++ Some eos :: post /\
  stream None pre rs (Some (bos, body)) /\ fatal bos body eos.
Proof. apply (proj1 (proj2 (C65_stream _))). by vm_compute. Qed.
