(** C62: what the tree delivered by the NEGRA reader contains, line by line. *)
From Coq Require Import Lia.
From Verif Require Import NegraModel TreeSpec BaseProofs SpanProofs ShapeProofs GraphProofs SortProofs TreeOps PtbSpec PtbBuild NegraSpec NegraStep NegraRead NegraAccept PropsNegra.
Local Arguments lit : simpl never.

(** ** Specification *)
(** "--" is a missing value. *)
Definition gives (s : str) (v : option str) : Prop := (s = lit "--" /\ v = None) \/ (s <> lit "--" /\ v = Some s).
(** Line [i] of a sentence, a word: form, lemma, tag, morphology. *)
Definition says_word (l : str) (i : nat) (tm : terminal) : Prop :=
  exists form lemma pos morph, take 4 (fields_of l) = [form; lemma; pos; morph] /\
    t_form tm = form /\ gives lemma (t_lemma tm) /\ t_pos tm = pos /\
    (exists m, gives morph m /\ t_feats tm = match m with Some m => Some {[ lit "morph" := Some m ]} | None => None end) /\
    t_span tm = span_of i.
(** The line of a nonterminal: label and annotation. *)
Definition says_nt (l : str) (nt : nonterminal) : Prop :=
  exists s q ann, fields_of l !! 2 = Some s /\ cut 61%N s (nt_label nt) q /\ PtbSpec.field 61%N q ann /\
    nt_feats nt = match ann with Some a => Some {[ lit "node_annotation" := Some a ]} | None => None end.
(** [number_of body ns k n]: the node with number [k] is [n], where [ns] are the nodes of the lines. *)
Definition number_of (body : list str) (ns : list nat) (root k n : nat) : Prop :=
  k = 0 /\ n = root \/ exists j l, body !! j = Some l /\ ns !! j = Some n /\ own_id l = Some k.
(** The edge label of a line and its secondary edge. *)
Definition says_edge (l : str) (e : option str) : Prop := exists s, fields_of l !! 4 = Some s /\ gives s e.
Definition says_sec (l : str) (lab : str) (k : nat) : Prop := fields_of l !! 6 = Some lab /\ sec_id l = Some k.

(** The tree of a sentence. *)
Record tree_of_lines (body : list str) (t : tree) (ns : list nat) : Prop := {
  tl_len : length ns = length body;
  tl_nodes : forall n, is_Some (nodes t !! n) <-> n = tr_root t \/ n ∈ ns;
  tl_nodup : NoDup (tr_root t :: ns);
  tl_word : forall i l n, body !! i = Some l -> ns !! i = Some n -> own_id l = None ->
    exists tm, nodes t !! n = Some (T tm) /\ says_word l i tm;
  tl_nt : forall i l n k, body !! i = Some l -> ns !! i = Some n -> own_id l = Some k ->
    exists nt, nodes t !! n = Some (NT nt) /\ says_nt l nt;
  tl_prim : forall p n e, (exists r, r ∈ edges t /\ e_src r = p /\ e_tgt r = n /\ e_w r = Primary e) <->
    exists i l k, body !! i = Some l /\ ns !! i = Some n /\ says_edge l e /\ parent_id l = Some k /\ number_of body ns (tr_root t) k p;
  tl_sec : forall p n e, (exists r, r ∈ edges t /\ e_src r = p /\ e_tgt r = n /\ e_w r = Secondary e) <->
    exists i l lab k, body !! i = Some l /\ ns !! i = Some n /\ e = Some lab /\ says_sec l lab k /\ number_of body ns (tr_root t) k p;
  tl_nterm : tr_nterm t = length (filter (fun l => own_id l = None) body)
}.
(** The root: sentence number and the rest of the header line. *)
Definition header_says (bos : str) (k : nat) (meta : option str) : Prop :=
  exists h num rest, trim bos = h ++ num ++ rest /\
    (exists h' w, h = h' ++ [w] /\ is_white w = true /\ Forall (fun c => is_white c = false) h') /\
    Forall (fun c => is_white c = false) num /\ parse_usize num = Some k /\
    match rest with [] => meta = None | w :: m => is_white w = true /\ meta = Some (trim m) end.
Definition root_says (nt : nonterminal) (k : nat) (meta : option str) : Prop :=
  nt_label nt = lit "VROOT" /\
  exists f, nt_feats nt = Some f /\
    forall key v, f !! key = Some v <->
      key = lit "sentence_id" /\ v = Some (print_nat k) \/ key = lit "metadata" /\ exists m, meta = Some m /\ v = Some m.
(** Numbers of nonterminals are used once, and 0 is not used. *)
Definition own_ids_ok (body : list str) : Prop :=
  (forall i j l l' k, body !! i = Some l -> body !! j = Some l' -> own_id l = Some k -> own_id l' = Some k -> i = j) /\
  (forall l, l ∈ body -> own_id l <> Some 0).

(** ** The state after some lines *)
Definition ann_feats' (ann : option str) : option features :=
  match ann with Some a => Some {[ lit "node_annotation" := Some a ]} | None => None end.
Record CI (r0 : nonterminal) (b : builder) (als : list nline) (ns : list nat) : Prop := {
  ci_B0 : B0 b;
  ci_len : length ns = length als;
  ci_inj : forall i j n, b_idx b !! i = Some n -> b_idx b !! j = Some n -> i = j;
  ci_T : forall i tm e p s n, als !! i = Some (TLine tm e p s) -> ns !! i = Some n ->
    bnodes b !! n = Some (T tm) /\ t_span tm = span_of i;
  ci_N : forall i id label ann e p s n, als !! i = Some (NLine id label ann e p s) -> ns !! i = Some n ->
    b_idx b !! id = Some n /\ exists nt, bnodes b !! n = Some (NT nt) /\ nt_label nt = label /\ nt_feats nt = ann_feats' ann;
  ci_edges : forall p n w, (exists r, r ∈ bedges b /\ e_src r = p /\ e_tgt r = n /\ e_w r = w) <->
    exists i a, als !! i = Some a /\ ns !! i = Some n /\ w = Primary (line_edge a) /\ b_idx b !! line_pid a = Some p;
  ci_pid : forall a, a ∈ als -> is_Some (b_idx b !! line_pid a);
  ci_sec : forall id l n, (id, l, n) ∈ b_sec b <-> exists i a, als !! i = Some a /\ ns !! i = Some n /\ line_sec a = Some (l, id);
  ci_nodes : forall m, is_Some (bnodes b !! m) -> m ∈ ns \/ exists id, b_idx b !! id = Some m;
  ci_new : forall id n, b_idx b !! id = Some n -> id <> 0 -> (forall a, a ∈ als -> line_own a <> Some id) ->
    exists nt, bnodes b !! n = Some (NT nt) /\ nt_feats nt = None;
  ci_root : bnodes b !! 0 = Some (NT r0);
  ci_fin : b_fin b = false -> forall a, a ∈ als -> line_own a = None;
  ci_nterm : b_nterm b = length (filter (fun a => line_own a = None) als);
  ci_done : b_done b = 1 + length (filter (fun a => line_own a <> None) als)
}.
Definition own_ok (als : list nline) : Prop :=
  (forall i j a a' k, als !! i = Some a -> als !! j = Some a' -> line_own a = Some k -> line_own a' = Some k -> i = j) /\
  (forall a, a ∈ als -> line_own a <> Some 0).
Lemma own_ok_snoc als a : own_ok (als ++ [a]) -> own_ok als /\ (forall a' k, a' ∈ als -> line_own a = Some k -> line_own a' <> Some k) /\ line_own a <> Some 0.
Proof.
  intros [H1 H2]. split_and!.
  - split; [|intros a' Ha; apply H2; set_solver]. intros i j x y k Hi Hj. apply (H1 i j x y k); by apply lookup_app_l_Some.
  - intros a' k [i Hi]%elem_of_list_lookup Ha Ha'. pose proof (lookup_lt_Some _ _ _ Hi).
    assert (i = length als); [|lia]. eapply H1; [by apply lookup_app_l_Some| |exact Ha'|exact Ha]. by rewrite lookup_app_r, Nat.sub_diag by lia.
  - apply H2. set_solver.
Qed.
Lemma CI_fresh id meta b : fresh id meta b -> CI (root_nt id meta) b [] [].
Proof.
  intros F. pose proof (fresh_B0 _ _ _ F) as B. destruct F as [H1 H2 H3 H4 (H5 & H6 & H7 & H8 & H9 & H10)].
  split; try done.
  - rewrite H1. intros i j n [<- <-]%lookup_singleton_Some [<- _]%lookup_singleton_Some. done.
  - rewrite H3. intros p n w. split; [intros (r & Hr & _); by apply elem_of_nil in Hr|intros (i & a & Ha & _); done].
  - intros a Ha. by apply elem_of_nil in Ha.
  - rewrite H10. intros i l n. split; [intros Hr; by apply elem_of_nil in Hr|intros (j & a & Ha & _); done].
  - rewrite H2, H1. intros m [w [<- _]%lookup_singleton_Some]. right. exists 0. by rewrite lookup_singleton.
  - rewrite H1. intros i n [<- <-]%lookup_singleton_Some. done.
  - by rewrite H2, lookup_singleton.
  - intros _ a Ha. by apply elem_of_nil in Ha.
Qed.
Lemma lookup_snoc_Some {A} (l : list A) x i y : (l ++ [x]) !! i = Some y -> (i < length l /\ l !! i = Some y) \/ (i = length l /\ x = y).
Proof.
  intros H. destruct (decide (i < length l)) as [Hlt|Hge]; [left; by rewrite lookup_app_l in H|right].
  rewrite lookup_app_r in H by lia. destruct (i - length l) as [|k] eqn:E; [|by destruct k]. injection H as <-. split; [lia|done].
Qed.
(** Adding a line: the parts that do not depend on the kind of line. *)
Lemma edges_snoc b b' als ns a n p e :
  length ns = length als ->
  (forall i m, b_idx b !! i = Some m -> b_idx b' !! i = Some m) -> b_idx b' !! line_pid a = Some p ->
  (forall a, a ∈ als -> is_Some (b_idx b !! line_pid a)) ->
  (forall p n w, (exists r, r ∈ bedges b /\ e_src r = p /\ e_tgt r = n /\ e_w r = w) <->
    exists i a, als !! i = Some a /\ ns !! i = Some n /\ w = Primary (line_edge a) /\ b_idx b !! line_pid a = Some p) ->
  bedges b' = mk_e e p n (Primary (line_edge a)) :: bedges b ->
  forall q m w, (exists r, r ∈ bedges b' /\ e_src r = q /\ e_tgt r = m /\ e_w r = w) <->
    exists i a', (als ++ [a]) !! i = Some a' /\ (ns ++ [n]) !! i = Some m /\ w = Primary (line_edge a') /\ b_idx b' !! line_pid a' = Some q.
Proof.
  intros HL Hi Hp Hpid H HE q m w. split.
  - intros (r & Hr & E1 & E2 & E3). rewrite HE in Hr. apply elem_of_cons in Hr as [->|Hr].
    + simpl in *. subst. exists (length als), a. split; [by apply list_lookup_middle|]. split; [by apply list_lookup_middle|done].
    + destruct (proj1 (H q m w)) as (i & a' & Ha & Hn & Hw & Hq); [eauto|]. exists i, a'.
      split; [by apply lookup_app_l_Some|]. split; [by apply lookup_app_l_Some|]. auto.
  - intros (i & a' & Ha & Hn & -> & Hq). apply lookup_snoc_Some in Ha as [[Hlt Ha]|[-> <-]].
    + rewrite lookup_app_l in Hn by lia. assert (Hq0 : b_idx b !! line_pid a' = Some q).
      { destruct (Hpid a') as [q0 Hq0]; [by eapply elem_of_list_lookup_2|]. rewrite Hq0. rewrite (Hi _ _ Hq0) in Hq. done. }
      destruct (proj2 (H q m (Primary (line_edge a')))) as (r & Hr & Hx); [by exists i, a'|]. exists r. split; [|done]. rewrite HE. by right.
    + rewrite lookup_app_r in Hn by lia. rewrite HL, Nat.sub_diag in Hn. injection Hn as <-.
      exists (mk_e e p n (Primary (line_edge a))). rewrite HE. split; [by left|]. simpl. split_and!; [congruence|done|done].
Qed.
Lemma sec_snoc b b' als ns a n :
  length ns = length als ->
  (forall id l n, (id, l, n) ∈ b_sec b <-> exists i a, als !! i = Some a /\ ns !! i = Some n /\ line_sec a = Some (l, id)) ->
  b_sec b' = add_sec (b_sec b) (line_sec a) n ->
  forall id l m, (id, l, m) ∈ b_sec b' <-> exists i a', (als ++ [a]) !! i = Some a' /\ (ns ++ [n]) !! i = Some m /\ line_sec a' = Some (l, id).
Proof.
  intros HL H HE id l m. rewrite HE. unfold add_sec. split.
  - assert (HO : (id, l, m) ∈ b_sec b -> exists i a', (als ++ [a]) !! i = Some a' /\ (ns ++ [n]) !! i = Some m /\ line_sec a' = Some (l, id)).
    { intros (i & a' & Ha & Hn & Hs)%H. exists i, a'. split; [by apply lookup_app_l_Some|]. split; [by apply lookup_app_l_Some|done]. }
    destruct (line_sec a) as [[l' id']|] eqn:E; [|done]. intros [Hin|Hin]%elem_of_app; [auto|]. apply elem_of_list_singleton in Hin as [= -> -> ->].
    exists (length als), a. split; [by apply list_lookup_middle|]. split; [by apply list_lookup_middle|done].
  - intros (i & a' & Ha & Hn & Hs). apply lookup_snoc_Some in Ha as [[Hlt Ha]|[-> <-]].
    + rewrite lookup_app_l in Hn by lia. assert (Hin : (id, l, m) ∈ b_sec b) by (apply H; by exists i, a').
      destruct (line_sec a) as [[l' id']|]; [|done]. apply elem_of_app. by left.
    + rewrite lookup_app_r in Hn by lia. rewrite HL, Nat.sub_diag in Hn. injection Hn as <-. rewrite Hs. apply elem_of_app. right. by apply elem_of_list_singleton.
Qed.
Lemma filter_snoc {A} (P : A -> Prop) `{!forall x, Decision (P x)} l a : length (filter P (l ++ [a])) = length (filter P l) + (if decide (P a) then 1 else 0).
Proof. rewrite filter_app, app_length, filter_cons. destruct (decide (P a)); done. Qed.
Lemma CI_step r0 b als ns a b' : CI r0 b als ns -> own_ok (als ++ [a]) -> stepped b a b' -> exists n, CI r0 b' (als ++ [a]) (ns ++ [n]).
Proof.
  intros I O Hst. apply own_ok_snoc in O as (O & Onew & Ozero). pose proof (ci_B0 _ _ _ _ I) as B. pose proof (stepped_B0 b a b' B Hst) as B'.
  pose proof (ci_len _ _ _ _ I) as HL. destruct Hst as (_ & _ & Hst). destruct a as [tm edge pid sec|id label ann edge pid sec].
  - destruct Hst as (Htm & Hf & Hf' & Hk & _ & Hd & n & p & e & Hn & Hgr & HE & HS).
    assert (Hnt : forall i m, b_idx b !! i = Some m -> exists nt0, <[n:=T tm]> (bnodes b) !! m = Some (NT nt0)).
    { intros i m Hi. destruct (b0_idx _ B _ _ Hi) as [nt Hm]. exists nt. rewrite lookup_insert_ne; [done|congruence]. }
    destruct (grown_live b _ pid p _ _ Hnt Hgr) as (G1 & (ntp & G2) & G3 & G4 & G5).
    assert (Hold : forall m w, bnodes b !! m = Some w -> bnodes b' !! m = Some w).
    { intros m w Hm. apply G1. rewrite lookup_insert_ne; [done|congruence]. }
    assert (Hlen : b_nterm b = length als).
    { rewrite (ci_nterm _ _ _ _ I). f_equal. pose proof (ci_fin _ _ _ _ I Hf) as HF. clear -HF. induction als as [|x als IH]; [done|].
      rewrite filter_cons, decide_True by (apply HF; by left). f_equal. apply IH. intros y Hy. apply HF. by right. }
    exists n. split; [done| | | | | | | | | | | | |].
    + rewrite !app_length. simpl. lia.
    + destruct Hgr as [(_ & -> & _)|(H1 & H2 & -> & _)]; [apply (ci_inj _ _ _ _ I)|].
      intros i j m. rewrite !lookup_insert_Some. intros [[<- <-]|[_ Hi]] [[<- E]|[_ Hj]]; [done| | |by eapply (ci_inj _ _ _ _ I)].
      * destruct (Hnt _ _ Hj) as [nt ?]. congruence.
      * subst m. destruct (Hnt _ _ Hi) as [nt ?]. congruence.
    + intros i tm' e' p' s' m Hi Hm. apply lookup_snoc_Some in Hi as [[Hlt Hi]|[-> [= <- <- <- <-]]].
      * rewrite lookup_app_l in Hm by lia. destruct (ci_T _ _ _ _ I _ _ _ _ _ _ Hi Hm) as [H1 H2]. split; [by apply Hold|done].
      * rewrite lookup_app_r in Hm by lia. rewrite HL, Nat.sub_diag in Hm. injection Hm as <-. split; [apply G1, lookup_insert|]. by rewrite <- Hlen.
    + intros i id' label' ann' e' p' s' m Hi Hm. apply lookup_snoc_Some in Hi as [[Hlt Hi]|[-> [=]]].
      rewrite lookup_app_l in Hm by lia. destruct (ci_N _ _ _ _ I _ _ _ _ _ _ _ _ Hi Hm) as (H1 & nt & H2 & H3). split; [by apply G4|].
      exists nt. split; [by apply Hold|done].
    + eapply edges_snoc; [done|exact G4|exact G3|apply (ci_pid _ _ _ _ I)|apply (ci_edges _ _ _ _ I)|exact HE].
    + intros a Ha. apply elem_of_app in Ha as [Ha|Ha%elem_of_list_singleton]; [|subst a; eauto]. destruct (ci_pid _ _ _ _ I a Ha) as [m Hm]. eauto.
    + eapply sec_snoc; [done|apply (ci_sec _ _ _ _ I)|exact HS].
    + intros m Hm. destruct (decide (m = n)) as [->|Hne]; [left; set_solver|].
      assert (is_Some (bnodes b !! m) \/ m = p) as [Hm'| ->]; [|destruct (ci_nodes _ _ _ _ I m Hm') as [?|[i Hi]]; [left; set_solver|right; eauto]|right; eauto].
      destruct Hgr as [(_ & _ & E)|(_ & _ & _ & E)]; rewrite E in Hm; [left; by rewrite lookup_insert_ne in Hm|].
      destruct (decide (m = p)) as [->|Hnp]; [by right|left]. by rewrite !lookup_insert_ne in Hm.
    + intros id n0 Hi Hz Hno. apply G5 in Hi as [Hi|[-> ->]].
      * destruct (ci_new _ _ _ _ I id n0 Hi Hz) as (nt & Hnt0 & HF); [intros a Ha; apply Hno; set_solver|]. exists nt. split; [by apply Hold|done].
      * destruct Hgr as [(H1 & _ & _)|(_ & _ & _ & E)].
        -- destruct (ci_new _ _ _ _ I pid p H1 Hz) as (nt & Hnt0 & HF); [intros a Ha; apply Hno; set_solver|]. exists nt. split; [by apply Hold|done].
        -- eexists. rewrite E, lookup_insert. split; [done|done].
    + apply Hold, (ci_root _ _ _ _ I).
    + intros _ a Ha. apply elem_of_app in Ha as [Ha|Ha%elem_of_list_singleton]; [by apply (ci_fin _ _ _ _ I Hf)|by subst a].
    + rewrite filter_snoc, Hk, (ci_nterm _ _ _ _ I). done.
    + rewrite filter_snoc, Hd, (ci_done _ _ _ _ I). simpl. lia.
  - destruct Hst as (Hk & Hf' & Hk' & Hd & n & nt & p & e & sp & N' & Hid & Hn & Hgr & HE & HS & _ & _ & HN & _).
    assert (Hnt : forall i m, b_idx b !! i = Some m -> exists nt0, <[n:=NT (named nt label ann)]> (bnodes b) !! m = Some (NT nt0)).
    { intros i m Hi. destruct (decide (m = n)) as [->|Hne]; [rewrite lookup_insert; eauto|].
      rewrite lookup_insert_ne by done. by eapply b0_idx. }
    destruct (grown_live b _ pid p _ _ Hnt Hgr) as (G1 & (ntp & G2) & G3 & G4 & G5).
    assert (Hid0 : id <> 0) by (intros ->; by apply Ozero).
    assert (Hno : forall a, a ∈ als -> line_own a <> Some id) by (intros a Ha; by apply Onew).
    destruct (ci_new _ _ _ _ I id n Hid Hid0 Hno) as (nt1 & Hn1 & HF1). rewrite Hn in Hn1. injection Hn1 as <-.
    assert (Hold : forall m w, m <> n -> bnodes b !! m = Some w -> bnodes b' !! m = Some w).
    { intros m w Hne Hm. rewrite HN, lookup_insert_ne by done. apply G1. by rewrite lookup_insert_ne. }
    assert (HnT : forall tm m, bnodes b !! m = Some (T tm) -> m <> n) by (intros tm m Hm ->; congruence).
    assert (Hn0 : n <> 0). { intros ->. apply Hid0. eapply (ci_inj _ _ _ _ I); [exact Hid|apply B]. }
    exists n. split; [done| | | | | | | | | | | | |].
    + rewrite !app_length. simpl. lia.
    + destruct Hgr as [(_ & -> & _)|(H1 & H2 & -> & _)]; [apply (ci_inj _ _ _ _ I)|].
      intros i j m. rewrite !lookup_insert_Some. intros [[<- <-]|[_ Hi]] [[<- E]|[_ Hj]]; [done| | |by eapply (ci_inj _ _ _ _ I)].
      * destruct (Hnt _ _ Hj) as [nt0 ?]. congruence.
      * subst m. destruct (Hnt _ _ Hi) as [nt0 ?]. congruence.
    + intros i tm' e' p' s' m Hi Hm. apply lookup_snoc_Some in Hi as [[Hlt Hi]|[-> [=]]].
      rewrite lookup_app_l in Hm by lia. destruct (ci_T _ _ _ _ I _ _ _ _ _ _ Hi Hm) as [H1 H2]. split; [apply Hold; eauto|done].
    + intros i id' label' ann' e' p' s' m Hi Hm. apply lookup_snoc_Some in Hi as [[Hlt Hi]|[-> [= <- <- <- <- <- <-]]].
      * rewrite lookup_app_l in Hm by lia. destruct (ci_N _ _ _ _ I _ _ _ _ _ _ _ _ Hi Hm) as (H1 & nt' & H2 & H3). split; [by apply G4|].
        exists nt'. split; [|done]. apply Hold; [|done]. intros ->. assert (id' = id) as -> by (eapply (ci_inj _ _ _ _ I); done).
        apply elem_of_list_lookup_2, Hno in Hi. done.
      * rewrite lookup_app_r in Hm by lia. rewrite HL, Nat.sub_diag in Hm. injection Hm as <-. split; [by apply G4|].
        exists (nt_set_span (named nt label ann) sp). rewrite HN, lookup_insert. split; [done|]. split; [done|]. simpl. rewrite HF1. by destruct ann.
    + eapply edges_snoc; [done|exact G4|exact G3|apply (ci_pid _ _ _ _ I)|apply (ci_edges _ _ _ _ I)|exact HE].
    + intros a Ha. apply elem_of_app in Ha as [Ha|Ha%elem_of_list_singleton]; [|subst a; eauto]. destruct (ci_pid _ _ _ _ I a Ha) as [m Hm]. eauto.
    + eapply sec_snoc; [done|apply (ci_sec _ _ _ _ I)|exact HS].
    + intros m Hm. destruct (decide (m = n)) as [->|Hne]; [left; set_solver|]. rewrite HN, lookup_insert_ne in Hm by done.
      assert (is_Some (bnodes b !! m) \/ m = p) as [Hm'| ->]; [|destruct (ci_nodes _ _ _ _ I m Hm') as [?|[i Hi]]; [left; set_solver|right; eauto]|right; eauto].
      destruct Hgr as [(_ & _ & E)|(_ & _ & _ & E)]; rewrite E in Hm; [left; by rewrite lookup_insert_ne in Hm|].
      destruct (decide (m = p)) as [->|Hnp]; [by right|left]. by rewrite !lookup_insert_ne in Hm.
    + intros id0 n0 Hi Hz Hno0.
      assert (Hne : forall m, b_idx b !! id0 = Some m -> m <> n).
      { intros m Hm ->. assert (id0 = id) as -> by (eapply (ci_inj _ _ _ _ I); done). apply (Hno0 (NLine id label ann edge pid sec)); [set_solver|done]. }
      assert (Hcase : forall m, b_idx b !! id0 = Some m -> exists nt0, bnodes b' !! m = Some (NT nt0) /\ nt_feats nt0 = None).
      { intros m Hm. destruct (ci_new _ _ _ _ I id0 m Hm Hz) as (nt0 & Hnt0 & HF); [intros a Ha; apply Hno0; set_solver|]. exists nt0. split; [apply Hold; auto|done]. }
      apply G5 in Hi as [Hi|[-> ->]]; [by apply Hcase|].
      destruct Hgr as [(H1 & _ & _)|(H1 & H2 & _ & E)]; [by apply Hcase|].
      eexists. rewrite HN, E, lookup_insert_ne, lookup_insert; [split; [done|done]|]. intros ->. by rewrite lookup_insert in H2.
    + apply Hold; [done|apply (ci_root _ _ _ _ I)].
    + congruence.
    + rewrite filter_snoc, Hk', (ci_nterm _ _ _ _ I). simpl. lia.
    + rewrite filter_snoc, Hd, (ci_done _ _ _ _ I). simpl. lia.
Qed.

(** ** What a line says *)
Lemma undash_gives s : gives s (undash s).
Proof.
  unfold gives, undash, str_eqb. destruct (bool_decide_reflect (s = dashes)) as [->|H]; [by left|by right].
Qed.
Definition parsed (l : str) (a : nline) : Prop := exists k, parse_line k (trim l) = Some a.
Lemma parsed_own l a : parsed l a -> own_id l = line_own a.
Proof. intros [k H]. by eapply parse_line_own. Qed.
Lemma parsed_pid l a : parsed l a -> parent_id l = Some (line_pid a).
Proof. intros [k H]. by eapply parse_line_pid. Qed.
Lemma parsed_word l i tm e p s : parsed l (TLine tm e p s) -> t_span tm = span_of i -> says_word l i tm.
Proof.
  intros [k H] Hs. unfold parse_line, parse_fields in H. unfold says_word. change (split_whitespace (trim l)) with (fields_of l) in H.
  destruct (fields_of l) as [|f0 [|f1 [|f2 [|f3 fs]]]]; try done. cbn [lookup list_lookup] in H.
  destruct (edge_part _) as [[[edge pid] sec]|]; [|done]. destruct (starts_with _ _).
  { destruct (parse_usize _); [|done]. by destruct (split_char _ _). }
  injection H as <- <- <- <-. exists f0, f1, f2, f3. split; [done|]. unfold term_content. simpl.
  split; [done|]. split; [apply undash_gives|]. split; [done|]. split; [|done].
  exists (undash f3). split; [apply undash_gives|]. by destruct (undash f3).
Qed.
Lemma parsed_nt l id label ann e p s : parsed l (NLine id label ann e p s) ->
  exists f q, fields_of l !! 2 = Some f /\ cut 61%N f label q /\ PtbSpec.field 61%N q ann.
Proof.
  intros [k H]. unfold parse_line, parse_fields in H. change (split_whitespace (trim l)) with (fields_of l) in H.
  destruct (fields_of l) as [|f0 [|f1 [|f2 [|f3 fs]]]]; try done. cbn [lookup list_lookup] in H.
  destruct (edge_part _) as [[[edge pid] sec]|]; [|done]. destruct (starts_with _ _); [|done].
  destruct (parse_usize _); [|done]. destruct (split_char_cut 61%N f2) as (x & q & Hc & Hh & Hf).
  destruct (split_char 61%N f2) as [|lab rest]; [done|]. injection H as <- <- <- <- <- <-. injection Hh as ->.
  exists f2, q. split; [done|]. split; [done|]. by destruct rest.
Qed.
Lemma parsed_edge l a : parsed l a -> exists e p sec, edge_part (fields_of l) = Some (e, p, sec) /\ line_edge a = e /\ line_sec a = sec.
Proof.
  intros [k H]. unfold parse_line, parse_fields in H. change (split_whitespace (trim l)) with (fields_of l) in H.
  destruct (fields_of l !! 0), (fields_of l !! 1), (fields_of l !! 2), (fields_of l !! 3); try done.
  destruct (edge_part _) as [[[edge pid] sec]|]; [|done]. exists edge, pid, sec. split; [done|].
  destruct (starts_with _ _); [|by injection H as <-].
  destruct (parse_usize _); [|done]. destruct (split_char _ _); [done|]. by injection H as <-.
Qed.
Lemma gives_fun s e e' : gives s e -> gives s e' -> e = e'.
Proof. intros [[? ->]|[? ->]] [[? ->]|[? ->]]; done. Qed.
Lemma parsed_says_edge l a e : parsed l a -> says_edge l e <-> e = line_edge a.
Proof.
  intros (e0 & p & sec & H & <- & _)%parsed_edge. unfold edge_part in H. unfold says_edge.
  destruct (fields_of l !! 4) as [f4|]; [|done]. destruct (fields_of l !! 5) as [f5|]; [|done].
  destruct (parse_usize f5); [|done]. destruct (opt_fields _); [|done]. injection H as <- _ _. split.
  - intros (s & [= <-] & Hg). eapply gives_fun; [done|apply undash_gives].
  - intros ->. exists f4. split; [done|apply undash_gives].
Qed.
Lemma parsed_says_sec l a lab k : parsed l a -> says_sec l lab k <-> line_sec a = Some (lab, k).
Proof.
  intros H. pose proof H as [n Hn]. apply parse_line_sec in Hn. apply parsed_edge in H as (e0 & p & sec & H & _ & <-).
  unfold says_sec. rewrite Hn. unfold edge_part in H.
  destruct (fields_of l !! 4) as [f4|]; [|done]. destruct (fields_of l !! 5) as [f5|]; [|done].
  destruct (parse_usize f5); [|done]. destruct (opt_fields _) as [sec|] eqn:E; [|done]. injection H as _ _ Hs. rewrite <- Hs. clear Hs Hn.
  assert (H6 : fields_of l !! 6 = drop 6 (fields_of l) !! 0) by (by rewrite lookup_drop). rewrite H6. clear H6.
  destruct (drop 6 (fields_of l)) as [|x xs]; simpl in *; [injection E as <-; naive_solver|].
  destruct (starts_percent x); [injection E as <-; naive_solver|].
  destruct (head xs); [|done]. destruct (parse_usize _); [|done]. injection E as <-. simpl. naive_solver.
Qed.
Lemma steps_parsed b body als b' : steps b body als b' -> Forall2 parsed body als.
Proof.
  induction 1 as [b|b body b1 als l a b2 Hs IH Hp Hst]; [constructor|]. apply Forall2_app; [done|]. constructor; [by exists (b_nterm b1)|constructor].
Qed.

(** ** All lines *)
Lemma steps_CI id meta b0 body als b : fresh id meta b0 -> steps b0 body als b -> own_ok als ->
  b_sid b = print_nat id /\ exists ns, CI (root_nt id meta) b als ns.
Proof.
  intros F Hs. induction Hs as [b|b body b1 als l a b2 Hs IH Hp Hst]; intros O.
  - split; [apply F|]. exists []. by apply CI_fresh.
  - pose proof (proj1 (own_ok_snoc _ _ O)) as O'. destruct (IH F O') as (E & ns & I). split.
    + destruct Hst as [-> _]. done.
    + destruct (CI_step _ _ _ _ _ _ I O Hst) as [n Hn]. eauto.
Qed.
Lemma own_ok_body body als : Forall2 parsed body als -> own_ids_ok body -> own_ok als.
Proof.
  intros HF [H1 H2]. split.
  - intros i j a a' k Hi Hj Ha Ha'.
    destruct (Forall2_lookup_r _ _ _ _ _ HF Hi) as (l & Hl & Hp). destruct (Forall2_lookup_r _ _ _ _ _ HF Hj) as (l' & Hl' & Hp').
    apply (H1 i j l l' k); [done|done|rewrite (parsed_own _ _ Hp); done|rewrite (parsed_own _ _ Hp'); done].
  - intros a [i Hi]%elem_of_list_lookup. destruct (Forall2_lookup_r _ _ _ _ _ HF Hi) as (l & Hl & Hp).
    rewrite <- (parsed_own _ _ Hp). apply H2. by eapply elem_of_list_lookup_2.
Qed.
Lemma own_nodup als : own_ok als -> NoDup (0 :: omap line_own als).
Proof.
  intros [H1 H2]. constructor.
  - intros (a & Ha & E)%elem_of_list_omap. by eapply H2.
  - clear H2. revert H1. induction als as [|a als IH] using rev_ind; intros H1; [constructor|].
    rewrite omap_app. apply NoDup_app. split_and!.
    + apply IH. intros i j x y k Hi Hj. apply (H1 i j x y k); by apply lookup_app_l_Some.
    + intros k (x & [i Hi]%elem_of_list_lookup & Hk)%elem_of_list_omap Hin. simpl in Hin. destruct (line_own a) as [k'|] eqn:E; [|by apply elem_of_nil in Hin].
      apply elem_of_list_singleton in Hin as ->. pose proof (lookup_lt_Some _ _ _ Hi).
      assert (i = length als); [|lia]. apply (H1 i (length als) x a k'); [by apply lookup_app_l_Some|by apply list_lookup_middle|done|done].
    + simpl. destruct (line_own a); [apply NoDup_singleton|constructor].
Qed.
Lemma own_count als : length (omap line_own als) = length (filter (fun a => line_own a <> None) als).
Proof.
  induction als as [|a als IH]; [done|]. rewrite filter_cons. simpl. destruct (line_own a); simpl; [f_equal; exact IH|exact IH].
Qed.
Lemma CI_all r0 b als ns : CI r0 b als ns -> own_ok als -> b_done b = size (b_idx b) ->
  forall k n, b_idx b !! k = Some n -> k = 0 \/ exists a, a ∈ als /\ line_own a = Some k.
Proof.
  intros I O Hd k n Hk. pose proof (own_nodup _ O) as ND.
  assert (Hsub : list_to_set (0 :: omap line_own als) ⊆@{gset nat} dom (b_idx b)).
  { intros x [->|(a & Ha & E)%elem_of_list_omap]%elem_of_list_to_set%elem_of_cons; apply elem_of_dom.
    - rewrite (b0_root _ (ci_B0 _ _ _ _ I)). eauto.
    - apply elem_of_list_lookup in Ha as [i Hi]. destruct a as [|id label ann e p s]; [done|]. injection E as ->.
      destruct (lookup_lt_is_Some_2 ns i) as [m Hm]; [rewrite (ci_len _ _ _ _ I); by eapply lookup_lt_Some|].
      destruct (ci_N _ _ _ _ I _ _ _ _ _ _ _ _ Hi Hm) as [-> _]. eauto. }
  assert (Heq : dom (b_idx b) ∖ list_to_set (0 :: omap line_own als) ≡@{gset nat} ∅).
  { apply size_empty_inv. rewrite size_difference, size_dom, <- Hd, (ci_done _ _ _ _ I), size_list_to_set by done. simpl. rewrite own_count. lia. }
  assert (Hin : k ∈ (list_to_set (0 :: omap line_own als) : gset nat)).
  { destruct (decide (k ∈ (list_to_set (0 :: omap line_own als) : gset nat))) as [?|Hno]; [done|].
    assert (k ∈ dom (b_idx b) ∖ (list_to_set (0 :: omap line_own als) : gset nat)) as HX.
    { apply elem_of_difference. split; [apply elem_of_dom; eauto|done]. }
    rewrite Heq in HX. by apply elem_of_empty in HX. }
  apply elem_of_list_to_set, elem_of_cons in Hin as [->|(a & Ha & E)%elem_of_list_omap]; eauto.
Qed.
Lemma filter_words body als : Forall2 parsed body als ->
  length (filter (fun l => own_id l = None) body) = length (filter (fun a => line_own a = None) als).
Proof.
  induction 1 as [|l a body als Hp _ IH]; [done|]. rewrite !filter_cons. pose proof (parsed_own _ _ Hp) as E.
  destruct (decide (own_id l = None)), (decide (line_own a = None)); simpl; congruence.
Qed.
Lemma CI_tree r0 b body als ns t : CI r0 b als ns -> own_ok als -> Forall2 parsed body als -> finished b t ->
  tree_of_lines body t ns /\ exists sp, nodes t !! tr_root t = Some (NT (nt_set_span r0 sp)).
Proof.
  intros I O HF (nt & new & Hd & Hk & H0 & _ & Hr & Hnt & _ & HN & HE & Hnew & Hall).
  pose proof (ci_B0 _ _ _ _ I) as B. rewrite (ci_root _ _ _ _ I) in H0. injection H0 as ->.
  pose proof (CI_all _ _ _ _ I O Hd) as Hcov.
  assert (HL : length ns = length body) by (rewrite (ci_len _ _ _ _ I); symmetry; by eapply Forall2_length).
  assert (Hline : forall i a, als !! i = Some a -> exists l, body !! i = Some l /\ parsed l a).
  { intros i a Hi. destruct (Forall2_lookup_r _ _ _ _ _ HF Hi) as (l & Hl & Hp). eauto. }
  assert (Hals : forall i l, body !! i = Some l -> exists a, als !! i = Some a /\ parsed l a).
  { intros i a Hi. destruct (Forall2_lookup_l _ _ _ _ _ HF Hi) as (l & Hl & Hp). eauto. }
  assert (Hns : forall i a, als !! i = Some a -> exists n, ns !! i = Some n).
  { intros i a Hi. apply lookup_lt_is_Some_2. rewrite (ci_len _ _ _ _ I). by eapply lookup_lt_Some. }
  assert (Hnum : forall k p, b_idx b !! k = Some p <-> number_of body ns (tr_root t) k p).
  { intros k p. rewrite Hr. unfold number_of. split.
    - intros Hp. destruct (Hcov k p Hp) as [->|(a & [i Hi]%elem_of_list_lookup & E)].
      + left. split; [done|]. rewrite (b0_root _ B) in Hp. by injection Hp.
      + right. destruct a as [|id label ann e q s]; [done|]. injection E as ->. destruct (Hns _ _ Hi) as [n Hn].
        destruct (ci_N _ _ _ _ I _ _ _ _ _ _ _ _ Hi Hn) as [Hx _]. rewrite Hx in Hp. injection Hp as ->.
        destruct (Hline _ _ Hi) as (l & Hl & Hp). exists i, l. split_and!; [done|done|]. by rewrite (parsed_own _ _ Hp).
    - intros [[-> ->]|(j & l & Hl & Hn & E)]; [apply B|]. destruct (Hals _ _ Hl) as (a & Ha & Hp). rewrite (parsed_own _ _ Hp) in E.
      destruct a as [|id label ann e q s]; [done|]. injection E as ->. by destruct (ci_N _ _ _ _ I _ _ _ _ _ _ _ _ Ha Hn) as [Hx _]. }
  assert (Hz : forall i, ns !! i <> Some 0).
  { intros i Hi. assert (is_Some (als !! i)) as [a Ha]. { apply lookup_lt_is_Some_2. rewrite <- (ci_len _ _ _ _ I). by eapply lookup_lt_Some. }
    destruct a as [tm e p s|id label ann e p s].
    - destruct (ci_T _ _ _ _ I _ _ _ _ _ _ Ha Hi) as [Hx _]. rewrite (ci_root _ _ _ _ I) in Hx. done.
    - destruct (ci_N _ _ _ _ I _ _ _ _ _ _ _ _ Ha Hi) as [Hx _]. assert (id = 0) as -> by (eapply (ci_inj _ _ _ _ I); [done|apply B]).
      destruct O as [_ O]. apply (O (NLine 0 label ann e p s)); [by eapply elem_of_list_lookup_2|done]. }
  assert (Hlk : forall n, n <> 0 -> nodes t !! n = bnodes b !! n) by (intros n Hne; by rewrite HN, lookup_insert_ne).
  split; [|rewrite Hr, HN, lookup_insert; eauto]. split.
  - done.
  - intros n. rewrite Hr. split.
    + intros Hn. destruct (decide (n = 0)) as [->|Hne]; [by left|right]. rewrite Hlk in Hn by done.
      destruct (ci_nodes _ _ _ _ I n Hn) as [?|[id Hid]]; [done|]. apply Hnum in Hid as [[_ E]|(j & l & _ & Hx & _)]; [congruence|].
      by eapply elem_of_list_lookup_2.
    + intros [->|[i Hi]%elem_of_list_lookup]; [rewrite HN, lookup_insert; eauto|].
      destruct (decide (n = 0)) as [->|Hne]; [by apply Hz in Hi|]. rewrite Hlk by done.
      assert (is_Some (als !! i)) as [a Ha]. { apply lookup_lt_is_Some_2. rewrite <- (ci_len _ _ _ _ I). by eapply lookup_lt_Some. }
      destruct a as [tm e p s|id label ann e p s].
      * destruct (ci_T _ _ _ _ I _ _ _ _ _ _ Ha Hi) as [-> _]. eauto.
      * destruct (ci_N _ _ _ _ I _ _ _ _ _ _ _ _ Ha Hi) as (_ & ntx & -> & _). eauto.
  - rewrite Hr. constructor; [intros [i Hi]%elem_of_list_lookup; by apply Hz in Hi|]. apply NoDup_alt. intros i j n Hi Hj.
    assert (is_Some (als !! i)) as [a Ha]. { apply lookup_lt_is_Some_2. rewrite <- (ci_len _ _ _ _ I). by eapply lookup_lt_Some. }
    assert (is_Some (als !! j)) as [a' Ha']. { apply lookup_lt_is_Some_2. rewrite <- (ci_len _ _ _ _ I). by eapply lookup_lt_Some. }
    destruct a as [tm e p s|id label ann e p s], a' as [tm' e' p' s'|id' label' ann' e' p' s'].
    + destruct (ci_T _ _ _ _ I _ _ _ _ _ _ Ha Hi) as [H1 H2]. destruct (ci_T _ _ _ _ I _ _ _ _ _ _ Ha' Hj) as [H3 H4].
      rewrite H1 in H3. injection H3 as <-. rewrite H2 in H4. by injection H4.
    + destruct (ci_T _ _ _ _ I _ _ _ _ _ _ Ha Hi) as [H1 H2]. destruct (ci_N _ _ _ _ I _ _ _ _ _ _ _ _ Ha' Hj) as (_ & ? & H3 & _). congruence.
    + destruct (ci_N _ _ _ _ I _ _ _ _ _ _ _ _ Ha Hi) as (_ & ? & H3 & _). destruct (ci_T _ _ _ _ I _ _ _ _ _ _ Ha' Hj) as [H1 H2]. congruence.
    + destruct (ci_N _ _ _ _ I _ _ _ _ _ _ _ _ Ha Hi) as (H1 & _). destruct (ci_N _ _ _ _ I _ _ _ _ _ _ _ _ Ha' Hj) as (H2 & _).
      assert (id = id') as <- by (by eapply (ci_inj _ _ _ _ I)). eapply (proj1 O); done.
  - intros i l n Hl Hn Ho. destruct (Hals _ _ Hl) as (a & Ha & Hp). rewrite (parsed_own _ _ Hp) in Ho. destruct a as [tm e p s|]; [|done].
    destruct (ci_T _ _ _ _ I _ _ _ _ _ _ Ha Hn) as [H1 H2]. exists tm. split; [|by eapply parsed_word].
    rewrite Hlk; [done|]. intros ->. by apply Hz in Hn.
  - intros i l n k Hl Hn Ho. destruct (Hals _ _ Hl) as (a & Ha & Hp). rewrite (parsed_own _ _ Hp) in Ho. destruct a as [|id label ann e p s]; [done|].
    destruct (ci_N _ _ _ _ I _ _ _ _ _ _ _ _ Ha Hn) as (_ & ntx & H1 & H2 & H3). exists ntx. split; [rewrite Hlk; [done|]; intros ->; by apply Hz in Hn|].
    destruct (parsed_nt _ _ _ _ _ _ _ Hp) as (f & q & Hf & Hc & Hq). exists f, q, ann. rewrite H2. done.
  - intros p n e. split.
    + intros (r & Hin & E1 & E2 & E3). rewrite HE in Hin. apply elem_of_app in Hin as [Hin|Hin].
      { destruct (Hnew r Hin) as (? & ? & _ & _ & ?). congruence. }
      destruct (proj1 (ci_edges _ _ _ _ I p n (Primary e))) as (i & a & Ha & Hn & [= ->] & Hx); [eauto|].
      destruct (Hline _ _ Ha) as (l & Hl & Hp). exists i, l, (line_pid a). split_and!; [done|done|by eapply parsed_says_edge|by apply parsed_pid|by apply Hnum].
    + intros (i & l & k & Hl & Hn & He & Hpk & Hx). apply Hnum in Hx. destruct (Hals _ _ Hl) as (a & Ha & Hp).
      apply (parsed_says_edge _ _ _ Hp) in He as ->. rewrite (parsed_pid _ _ Hp) in Hpk. injection Hpk as <-.
      destruct (proj2 (ci_edges _ _ _ _ I p n (Primary (line_edge a)))) as (r & Hin & Hy); [by exists i, a|].
      exists r. split; [|done]. rewrite HE. apply elem_of_app. by right.
  - intros p n e. split.
    + intros (r & Hin & E1 & E2 & E3). rewrite HE in Hin. apply elem_of_app in Hin as [Hin|Hin].
      * destruct (Hnew r Hin) as (id & lab & Hs & Hx & Hw). rewrite E1 in Hx. rewrite E2 in Hs. rewrite E3 in Hw. injection Hw as ->.
        apply (ci_sec _ _ _ _ I) in Hs as (i & a & Ha & Hn & Hs). destruct (Hline _ _ Ha) as (l & Hl & Hp).
        exists i, l, lab, id. split_and!; [done|done|done|by eapply parsed_says_sec|by apply Hnum].
      * destruct (proj1 (ci_edges _ _ _ _ I p n (e_w r))) as (i & a & Ha & Hn & Hw & Hx); [eauto|]. congruence.
    + intros (i & l & lab & k & Hl & Hn & -> & Hs & Hx). apply Hnum in Hx. destruct (Hals _ _ Hl) as (a & Ha & Hp).
      apply (parsed_says_sec _ _ _ _ Hp) in Hs.
      destruct (Hall k lab n) as (r & Hin & E2 & E1 & E3); [apply (ci_sec _ _ _ _ I); by exists i, a|].
      exists r. split; [rewrite HE; apply elem_of_app; by left|]. split_and!; [congruence|done|done].
  - by rewrite Hnt, (ci_nterm _ _ _ _ I), (filter_words _ _ HF).
Qed.

(** ** The header *)
Lemma cut_white_inv s : Forall (fun c => is_white c = false) (cut_white s).1 /\
  match (cut_white s).2 with
  | None => s = (cut_white s).1
  | Some r => exists w, is_white w = true /\ s = (cut_white s).1 ++ w :: r
  end.
Proof.
  induction s as [|c s [IH1 IH2]]; [split; [constructor|done]|]. cbn [cut_white]. destruct (is_white c) eqn:E.
  - split; [constructor|]. exists c. done.
  - destruct (cut_white s) as [a [r|]]; simpl in *.
    + split; [by constructor|]. destruct IH2 as (w & Hw & ->). exists w. done.
    + split; [by constructor|]. by rewrite <- IH2.
Qed.
Lemma header_of_says bos k meta : header_of (trim bos) = Some (k, meta) -> header_says bos k meta.
Proof.
  unfold header_of, header_says. generalize (trim bos). intros s. destruct (cut_white_inv s) as [H1 H2].
  destruct (cut_white s) as [h [r|]]; [|done]. simpl in *. destruct H2 as (w & Hw & ->). destruct (cut_white_inv r) as [H3 H4].
  destruct (cut_white r) as [num rest]. simpl in *. destruct (parse_usize num) as [id|] eqn:E; [|done]. intros [= <- <-].
  exists (h ++ [w]), num. destruct rest as [m|].
  - destruct H4 as (w' & Hw' & ->). exists (w' :: m). rewrite <- !(assoc_L (++)). split_and!; try done. by exists h, w.
  - exists []. subst r. rewrite <- !(assoc_L (++)), (right_id_L [] (++)). split_and!; try done. by exists h, w.
Qed.
Lemma root_nt_says k meta sp : root_says (nt_set_span (root_nt k meta) sp) k meta.
Proof.
  split; [done|]. eexists. split; [done|]. assert (Hk : meta_key <> sid_key) by (by vm_compute). unfold meta_key, sid_key in *.
  intros key v. destruct meta as [m|].
  - rewrite !lookup_insert_Some, lookup_empty. naive_solver.
  - rewrite lookup_insert_Some, lookup_empty. naive_solver.
Qed.

(** ** C62 *)
(** Every delivered tree is the tree its sentence describes: one node per line besides the root, with
    the contents of the line; one primary edge per line, from the node with the number given, with
    the label given; one secondary edge per line that has one; the root carries the header.  Missing:
    sentences in which two lines have the same number or a line has number 0. *)
Theorem C62_content_partial ls rs t : negra_read ls = Ret rs -> Ok t ∈ rs ->
  exists bos body eos, block_in ls bos body eos /\ negra_read (Some bos :: map Some body ++ [Some eos]) = Ret [Ok t] /\
    (own_ids_ok body -> exists ns k meta nt, tree_of_lines body t ns /\
       header_says bos k meta /\ fields_of eos !! 1 = Some (print_nat k) /\
       nodes t !! tr_root t = Some (NT nt) /\ root_says nt k meta).
Proof.
  rewrite negra_read_run. intros H Hin.
  destruct (run_Ok ls rs t H Hin) as (bos & body & eos & als & b & Hb & Hs & Ht & Hrun).
  exists bos, body, eos. split; [done|]. rewrite negra_read_run. split; [done|]. intros Hown.
  pose proof (started_B0 _ _ _ _ Hs) as B. destruct Hs as (_ & _ & k & meta & b0 & Hh & Hf & Hs).
  pose proof (steps_parsed _ _ _ _ Hs) as HF. pose proof (own_ok_body _ _ HF Hown) as O.
  destruct (steps_CI _ _ _ _ _ _ Hf Hs O) as (Hsid & ns & I).
  destruct (try_into_tree_spec b (trim eos) B) as [_ Hfin]; [apply starts_eos; apply Hb|].
  destruct (Hfin t Ht) as [He Hfi]. destruct (CI_tree _ _ _ _ _ _ I O HF Hfi) as (HT & sp & Hroot).
  exists ns, k, meta, (nt_set_span (root_nt k meta) sp). split; [done|]. split; [by apply header_of_says|].
  split; [unfold fields_of; by rewrite He, Hsid|]. split; [done|apply root_nt_says].
Qed.
Lemma bottom_up_own body : bottom_up body -> own_ids_ok body.
Proof. intros (H1 & H2 & _). split; [intros i j l l' k; apply H1|exact H2]. Qed.
Example C62_content_ex : own_ids_ok ex_body /\ one_tree (ex_bos :: ex_body ++ [ex_eos]) = true /\
  tr_nterm (the_tree (ex_bos :: ex_body ++ [ex_eos])) = 5.
Proof. split; [exact (bottom_up_own _ (proj2 ex_body_ok))|by vm_compute]. Qed.

(** Two lines with the same number: no assignment of nodes to lines fits. *)
Lemma label_at t lab m :
  forallb (fun kv : nat * node => Nat.eqb kv.1 m || Nat.eqb kv.1 (tr_root t) || negb (match kv.2 with NT nt => str_eqb (nt_label nt) lab | T _ => false end))
    (map_to_list (nodes t)) = true ->
  forall n nt, nodes t !! n = Some (NT nt) -> nt_label nt = lab -> n <> tr_root t -> n = m.
Proof.
  rewrite forallb_forall. intros H n nt Hn Hl Hr. assert (Hx : In (n, NT nt) (map_to_list (nodes t))) by (by apply elem_of_list_In, elem_of_map_to_list).
  apply H in Hx. simpl in Hx. apply orb_true_iff in Hx as [Hx|Hx].
  - apply orb_true_iff in Hx as [Hx%Nat.eqb_eq|Hx%Nat.eqb_eq]; [done|congruence].
  - unfold str_eqb in Hx. rewrite bool_decide_eq_true_2 in Hx; done.
Qed.
Lemma content_gen body t ns i j l l' lab m : i <> j -> body !! i = Some l -> body !! j = Some l' ->
  is_Some (own_id l) -> is_Some (own_id l') -> fields_of l !! 2 = Some lab -> fields_of l' !! 2 = Some lab -> 61%N ∉ lab ->
  (forall n nt, nodes t !! n = Some (NT nt) -> nt_label nt = lab -> n <> tr_root t -> n = m) -> ~ tree_of_lines body t ns.
Proof.
  intros Hij Hi Hj [k Hk] [k' Hk'] Hf Hf' Hlab Hm [HL _ HD _ HNT _ _ _]. apply NoDup_cons in HD as [HR HD].
  assert (G : forall i l k, body !! i = Some l -> own_id l = Some k -> fields_of l !! 2 = Some lab -> ns !! i = Some m).
  { intros i0 l0 k0 Hi0 Hk0 Hf0. destruct (lookup_lt_is_Some_2 ns i0) as [n Hn]; [rewrite HL; by eapply lookup_lt_Some|].
    destruct (HNT _ _ _ _ Hi0 Hn Hk0) as (nt & Hnt & s & q & ann & Hs & Hc & _ & _). rewrite Hf0 in Hs. injection Hs as <-.
    rewrite (Hm n nt) in Hn; [done|done| |intros ->; apply HR; by eapply elem_of_list_lookup_2].
    inversion Hc as [|? ? ? E]; [done|]. exfalso. apply Hlab. rewrite <- E. set_solver. }
  apply Hij. eapply NoDup_lookup; [exact HD|by eapply G|by eapply G].
Qed.
Definition twice_body : list str := [lit "a -- A -- -- 500"; lit "b -- B -- -- 501"; lit "#500 -- X -- -- 0"; lit "#500 -- X -- -- 0"].
Theorem C62_twice_refuted : exists bos body eos t,
  negra_read (map Some (bos :: body ++ [eos])) = Ret [Ok t] /\ forall ns, ~ tree_of_lines body t ns.
Proof.
  exists (lit "#BOS 1"), twice_body, (lit "#EOS 1"), (the_tree twice). assert (E : lit "#BOS 1" :: twice_body ++ [lit "#EOS 1"] = twice) by (by vm_compute).
  split; [rewrite E; apply one_tree_spec; by vm_compute|]. clear E.
  intros ns. eapply (content_gen twice_body (the_tree twice) ns 2 3 (lit "#500 -- X -- -- 0") (lit "#500 -- X -- -- 0") (lit "X")).
  - done.
  - by vm_compute.
  - by vm_compute.
  - apply someb_spec. by vm_compute.
  - apply someb_spec. by vm_compute.
  - by vm_compute.
  - by vm_compute.
  - intros H. apply elem_of_list_singleton in H. done.
  - apply (label_at _ _ 2). by vm_compute.
Qed.
