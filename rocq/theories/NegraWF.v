(** Trees built from sentences whose nonterminal lines come after the lines of their children. *)
From Coq Require Import Lia.
From Verif Require Import NegraModel TreeSpec BaseProofs SpanProofs ShapeProofs GraphProofs SortProofs ResetProofs TreeOps NegraSpec NegraStep NegraRead.

(** ** [bottom_up] for the contents of lines *)
Definition owns (als : list nline) : list nat := omap line_own als.
Record ordered (als : list nline) : Prop := {
  or_nodup : NoDup (owns als);
  or_root : 0 ∉ owns als;
  or_down : forall i j a a' id, als !! i = Some a -> als !! j = Some a' -> line_own a = Some id ->
              line_pid a' = id -> j < i
}.
Lemma owns_app a b : owns (a ++ b) = owns a ++ owns b.
Proof. apply omap_app. Qed.
Lemma elem_of_owns als id : id ∈ owns als <-> exists i a, als !! i = Some a /\ line_own a = Some id.
Proof.
  unfold owns. rewrite elem_of_list_omap. setoid_rewrite elem_of_list_lookup. naive_solver.
Qed.
Lemma ordered_app als b : ordered (als ++ b) -> ordered als.
Proof.
  intros [H1 H2 H3]. rewrite owns_app in *. split.
  - by apply NoDup_app in H1 as [? _].
  - set_solver.
  - intros i j a a' id Hi Hj. apply H3; by apply lookup_app_l_Some.
Qed.
Lemma owns_pid_last als a : ordered (als ++ [a]) -> line_pid a ∉ owns als /\ line_own a <> Some (line_pid a).
Proof.
  intros [_ _ H]. assert (Hl : (als ++ [a]) !! length als = Some a) by (by apply list_lookup_middle). split.
  - intros (i & a' & Hi & Ho)%elem_of_owns.
    assert (Hi' : (als ++ [a]) !! i = Some a') by (by apply lookup_app_l_Some).
    pose proof (H _ _ _ _ _ Hi' Hl Ho eq_refl). apply lookup_lt_Some in Hi. lia.
  - intros Ho. pose proof (H _ _ _ _ _ Hl Hl Ho eq_refl). lia.
Qed.

Definition ann_feats (ann : option str) : option features :=
  match ann with Some a => Some (<[annotation_key := Some a]> ∅) | None => None end.
(** What a processed line leaves behind. *)
Definition line_done (b : builder) (a : nline) : Prop :=
  exists n p e, b_idx b !! line_pid a = Some p /\ mk_e e p n (Primary (line_edge a)) ∈ bedges b /\
    match a with
    | TLine tm _ _ _ => bnodes b !! n = Some (T tm)
    | NLine id label ann _ _ _ =>
        b_idx b !! id = Some n /\
        exists nt, bnodes b !! n = Some (NT nt) /\ nt_label nt = label /\ nt_feats nt = ann_feats ann
    end.

Record BI (r0 : nonterminal) (b : builder) (als : list nline) (L : list nat) : Prop := {
  bi_B0 : B0 b;
  bi_inj : forall i j n, b_idx b !! i = Some n -> b_idx b !! j = Some n -> i = j;
  bi_nt : forall n nt, bnodes b !! n = Some (NT nt) -> exists i, b_idx b !! i = Some n;
  bi_terms : terms_ok (bnodes b) (b_nterm b);
  bi_root : bnodes b !! 0 = Some (NT r0);
  bi_uniq : forall r1 r2, r1 ∈ bedges b -> r2 ∈ bedges b -> e_tgt r1 = e_tgt r2 -> r1 = r2;
  bi_tgt : forall r, r ∈ bedges b -> (exists tm, bnodes b !! e_tgt r = Some (T tm)) \/ e_tgt r ∈ L;
  bi_par : forall n, (exists tm, bnodes b !! n = Some (T tm)) \/ n ∈ L -> exists p, PE (bedges b) p n;
  bi_own : Forall2 (fun id n => b_idx b !! id = Some n) (owns als) L;
  bi_order : forall i p c, L !! i = Some p -> PE (bedges b) p c ->
               (exists tm, bnodes b !! c = Some (T tm)) \/ exists j, j < i /\ L !! j = Some c;
  bi_span : forall n nt, n ∈ L -> bnodes b !! n = Some (NT nt) ->
              forall i, covers (nt_span nt) i <-> yields (bnodes b) (bedges b) n i;
  bi_skips : forall n nt, n ∉ L -> bnodes b !! n = Some (NT nt) -> sp_skips (nt_span nt) = None;
  bi_feats : forall n nt, n ∉ L -> n <> 0 -> bnodes b !! n = Some (NT nt) -> nt_feats nt = None;
  bi_nproj : b_nproj b = ndisc_of (bnodes b);
  bi_done : b_done b = 1 + length L;
  bi_fin : b_fin b = false -> L = [];
  bi_lines : Forall (line_done b) als;
  bi_idx : forall i, is_Some (b_idx b !! i) <-> i = 0 \/ exists a, a ∈ als /\ line_pid a = i;
  bi_nterm : b_nterm b + length L = length als
}.

Lemma BI_fresh id meta b : fresh id meta b -> BI (root_nt id meta) b [] [].
Proof.
  intros F. pose proof (fresh_B0 _ _ _ F) as B. destruct F as [H1 H2 H3 H4 (H5 & H6 & H7 & H8 & H9 & H10)].
  split; try done; try (rewrite ?H3; set_solver).
  - rewrite H1. intros i j n [<- <-]%lookup_singleton_Some [<- _]%lookup_singleton_Some. done.
  - rewrite H2, H1. intros n nt [<- _]%lookup_singleton_Some. exists 0. by rewrite lookup_singleton.
  - rewrite H2, H5. split; [|intros n m i (tm & [_ ?]%lookup_singleton_Some & _); done|intros; lia].
    intros n tm [_ ?]%lookup_singleton_Some. done.
  - by rewrite H2, lookup_singleton.
  - rewrite H2. intros n [(tm & [_ ?]%lookup_singleton_Some)|?]; [done|set_solver].
  - constructor.
  - rewrite H2. by intros n nt _ [<- [= <-]]%lookup_singleton_Some.
  - rewrite H2. intros n nt _ Hne [<- _]%lookup_singleton_Some. done.
  - rewrite H8, H2. symmetry. apply ndisc_of_zero. intros n w [<- <-]%lookup_singleton_Some. intros H. by apply H.
  - rewrite H1. intros i. split.
    + intros [n [<- _]%lookup_singleton_Some]. by left.
    + intros [->|(a & Ha & _)]; [rewrite lookup_singleton; eauto|set_solver].
  - rewrite H5. done.
Qed.

Lemma grown_fresh b N pid p idx' N' :
  B0 b -> (forall i m, b_idx b !! i = Some m -> exists nt, N !! m = Some (NT nt)) ->
  (forall i j n, b_idx b !! i = Some n -> b_idx b !! j = Some n -> i = j) ->
  (forall n nt, N !! n = Some (NT nt) -> exists i, b_idx b !! i = Some n) ->
  grown b N pid p idx' N' ->
  (forall i j n, idx' !! i = Some n -> idx' !! j = Some n -> i = j) /\
  (forall n nt, N' !! n = Some (NT nt) -> exists i, idx' !! i = Some n) /\
  (forall n tm, N' !! n = Some (T tm) <-> N !! n = Some (T tm)) /\
  (forall n nt, N' !! n = Some (NT nt) -> N !! n = Some (NT nt) \/
     N !! n = None /\ n = p /\ nt = nt_new [] (span_of (b_nterm b))) /\
  ndisc_of N' = ndisc_of N /\
  (forall i, is_Some (idx' !! i) <-> is_Some (b_idx b !! i) \/ i = pid).
Proof.
  intros B Hl Hinj Hnt [(H1 & -> & ->)|(H1 & H2 & -> & ->)].
  - split_and!; try done; [by left|]. intros i. split; [by left|]. intros [?| ->]; eauto.
  - split_and!.
    + intros i j n. rewrite !lookup_insert_Some. intros [[<- <-]|[_ Hi]] [[<- E]|[_ Hj]]; [done| | |by eapply Hinj].
      * destruct (Hl _ _ Hj) as [nt ?]. congruence.
      * subst n. destruct (Hl _ _ Hi) as [nt ?]. congruence.
    + intros n nt. rewrite lookup_insert_Some. intros [[<- _]|[Hne Hn]]; [exists pid; by rewrite lookup_insert|].
      destruct (Hnt _ _ Hn) as [i Hi]. exists i. rewrite lookup_insert_ne; [done|]. intros ->. congruence.
    + intros n tm. rewrite lookup_insert_Some. split; [intros [[_ ?]|[_ ?]]; done|]. intros Hn. right. split; [|done].
      intros ->. congruence.
    + intros n nt. rewrite lookup_insert_Some. intros [[<- [= <-]]|[_ ?]]; [|by left]. by right.
    + rewrite ndisc_of_insert by done. rewrite b2n_gappy. simpl. lia.
    + intros i. rewrite lookup_insert_is_Some'. naive_solver.
Qed.

Lemma line_done_mono b b' a :
  line_done b a ->
  (forall i n, b_idx b !! i = Some n -> b_idx b' !! i = Some n) ->
  (forall r, r ∈ bedges b -> r ∈ bedges b') ->
  (forall n tm, bnodes b !! n = Some (T tm) -> bnodes b' !! n = Some (T tm)) ->
  (forall id n nt, line_own a = Some id -> b_idx b !! id = Some n -> bnodes b !! n = Some (NT nt) -> bnodes b' !! n = Some (NT nt)) ->
  line_done b' a.
Proof.
  intros (n & p & e & H1 & H2 & H3) Hi He Ht Hn. exists n, p, e. split_and!; [auto|auto|].
  destruct a as [tm edge pid sec|id label ann edge pid sec]; [auto|].
  destruct H3 as (H3 & nt & H4 & H5). split; [auto|]. exists nt. split; [by eapply Hn|done].
Qed.

Lemma BI_step r0 b als L a b' :
  BI r0 b als L -> ordered (als ++ [a]) -> stepped b a b' -> exists L', BI r0 b' (als ++ [a]) L'.
Proof.
  intros I O Hst. destruct (owns_pid_last _ _ O) as [Opid Oself].
  pose proof (bi_B0 _ _ _ _ I) as B. pose proof (stepped_B0 _ _ _ B Hst) as B'.
  destruct Hst as (_ & _ & H). destruct a as [tm edge pid sec|id label ann edge pid sec].
  - destruct H as (Htm & Hfin & Hfin' & Hk & Hnp & Hd & n & p & e & Hn & Hgr & HE & HS).
    assert (L = []) as -> by (by eapply bi_fin). exists [].
    assert (Hnt : forall i m, b_idx b !! i = Some m -> exists nt0, <[n:=T tm]> (bnodes b) !! m = Some (NT nt0)).
    { intros i m Hi. destruct (b0_idx _ B _ _ Hi) as [nt Hm]. exists nt. rewrite lookup_insert_ne; [done|congruence]. }
    destruct (grown_live b _ pid p _ _ Hnt Hgr) as (G1 & (ntp & G2) & G3 & G4 & G5).
    assert (Hx0 : forall m nt, <[n:=T tm]> (bnodes b) !! m = Some (NT nt) -> exists i, b_idx b !! i = Some m).
    { intros m nt. rewrite lookup_insert_Some. intros [[_ ?]|[_ Hm]]; [done|]. by eapply bi_nt. }
    destruct (grown_fresh b _ pid p _ _ B Hnt (bi_inj _ _ _ _ I) Hx0 Hgr) as (F1 & F2 & F3 & F4 & F5 & F6).
    assert (HT : forall m tm', bnodes b' !! m = Some (T tm') <-> m = n /\ tm' = tm \/ bnodes b !! m = Some (T tm')).
    { intros m tm'. rewrite F3, lookup_insert_Some. split; [intros [[<- [= <-]]|[_ ?]]; auto|].
      intros [[-> ->]|Hm]; [by left|right]. split; [|done]. intros ->. congruence. }
    assert (HNT : forall m nt, bnodes b' !! m = Some (NT nt) -> bnodes b !! m = Some (NT nt) \/
       bnodes b !! m = None /\ nt = nt_new [] (span_of (b_nterm b))).
    { intros m nt [Hm|(Hm & -> & ->)]%F4.
      - apply lookup_insert_Some in Hm as [[_ ?]|[_ Hm]]; [done|by left].
      - right. split; [|done]. apply lookup_insert_None in Hm as [? _]. done. }
    assert (Hlive : forall m w, bnodes b !! m = Some w -> bnodes b' !! m = Some w).
    { intros m w Hm. apply G1. rewrite lookup_insert_ne; [done|congruence]. }
    assert (HPE : forall q c, PE (bedges b) q c -> PE (bedges b') q c).
    { intros q c (r & Hr & H). exists r. split; [rewrite HE; set_solver|done]. }
    assert (Hntgt : forall r, r ∈ bedges b -> e_tgt r <> n).
    { intros r Hr <-. destruct (go_ends _ (b0_graph _ B) r Hr) as [_ [w Hw]]. congruence. }
    split; try done.
    + pose proof (bi_terms _ _ _ _ I) as Tm. rewrite Hk. split.
      * intros m tm' [[-> ->]|Hm]%HT; [exists (b_nterm b); split; [done|lia]|].
        destruct (to_pos _ _ Tm m tm' Hm) as (i & Hi & ?). exists i. split; [done|lia].
      * intros m m' i (x & [[-> ->]|Hx]%HT & Hs) (y & [[-> ->]|Hy]%HT & Hs'); [done| | |].
        -- destruct (to_pos _ _ Tm m' y Hy) as (j & Hj & ?). rewrite Htm in Hs. rewrite Hj in Hs'.
           injection Hs. injection Hs'. lia.
        -- destruct (to_pos _ _ Tm m x Hx) as (j & Hj & ?). rewrite Htm in Hs'. rewrite Hj in Hs.
           injection Hs. injection Hs'. lia.
        -- apply (to_inj _ _ Tm m m' i); [by exists x|by exists y].
      * intros i Hi. destruct (decide (i = b_nterm b)) as [->|Hne].
        -- exists n, tm. split; [|done]. apply HT. by left.
        -- destruct (to_surj _ _ Tm i) as (m & x & Hx & Hs); [lia|]. exists m, x. split; [|done]. apply HT. by right.
    + by apply Hlive, I.
    + intros r1 r2. rewrite HE. intros [->|Hr1]%elem_of_cons [->|Hr2]%elem_of_cons; simpl; try done.
      * intros E. by apply Hntgt in Hr2.
      * intros E. by apply Hntgt in Hr1.
      * by apply I.
    + intros r. rewrite HE. intros [->|Hr]%elem_of_cons; left; simpl.
      * exists tm. apply HT. by left.
      * destruct (bi_tgt _ _ _ _ I r Hr) as [[x Hx]|?]; [|set_solver]. exists x. by apply Hlive.
    + intros m [[x [[-> ->]|Hx]%HT]|?]; [| |set_solver].
      * exists p, (mk_e e p n (Primary edge)). split; [rewrite HE; set_solver|done].
      * destruct (bi_par _ _ _ _ I m) as [q Hq]; [eauto|]. exists q. auto.
    + rewrite owns_app. simpl. rewrite app_nil_r. eapply Forall2_impl; [apply I|]. auto.
    + intros m nt Hm. set_solver.
    + intros m nt _ [Hm|(_ & ->)]%HNT; [|done]. eapply bi_skips; [done| |done]. set_solver.
    + intros m nt _ Hne [Hm|(_ & ->)]%HNT; [|done]. eapply bi_feats; [done| |done|done]. set_solver.
    + rewrite Hnp, F5, ndisc_of_insert by done. rewrite b2n_gappy. simpl. rewrite Htm. simpl.
      rewrite (bi_nproj _ _ _ _ I). lia.
    + rewrite Hd. apply I.
    + apply Forall_app. split.
      * eapply Forall_impl; [apply I|]. intros a Ha. eapply line_done_mono; [done|done| |by auto|].
        -- intros r Hr. rewrite HE. set_solver.
        -- intros id m nt _ _ Hm. by apply Hlive.
      * constructor; [|done]. exists n, p, e. split_and!; [done|rewrite HE; set_solver|]. apply HT. by left.
    + intros i. rewrite F6, (bi_idx _ _ _ _ I). set_solver.
    + rewrite app_length, Hk. simpl. pose proof (bi_nterm _ _ _ _ I) as E. simpl in E. lia.
  - destruct H as (Hk0 & Hfin & Hk & Hd & n & nt & p & e & sp & N' & Hid & Hn & Hgr & HE & HS & Hok & Hsp & HN & Hnp).
    simpl in Opid, Oself. pose proof O as [Ond Oroot _]. rewrite owns_app in Ond, Oroot. simpl in Ond, Oroot.
    assert (HnL : n ∉ L).
    { intros Hin. apply elem_of_list_lookup in Hin as [i Hi].
      destruct (Forall2_lookup_r _ _ _ _ _ (bi_own _ _ _ _ I) Hi) as (id' & Hid' & Hx).
      assert (id' = id) as -> by (by eapply bi_inj). apply NoDup_app in Ond as (_ & Ond & _).
      apply (Ond id); [by eapply elem_of_list_lookup_2|set_solver]. }
    assert (Hn0 : n <> 0).
    { intros ->. assert (id = 0) as -> by (eapply bi_inj; [done|done|apply B]). set_solver. }
    assert (Hnt : forall i m, b_idx b !! i = Some m -> exists nt0, <[n:=NT (named nt label ann)]> (bnodes b) !! m = Some (NT nt0)).
    { intros i m Hi. destruct (decide (m = n)) as [->|Hne]; [rewrite lookup_insert; eauto|].
      rewrite lookup_insert_ne by done. by eapply b0_idx. }
    destruct (grown_live b _ pid p _ _ Hnt Hgr) as (G1 & (ntp & G2) & G3 & G4 & G5).
    assert (Hx0 : forall m nt', <[n:=NT (named nt label ann)]> (bnodes b) !! m = Some (NT nt') -> exists i, b_idx b !! i = Some m).
    { intros m nt'. rewrite lookup_insert_Some. intros [[<- _]|[_ Hm]]; [eauto|]. by eapply bi_nt. }
    destruct (grown_fresh b _ pid p _ _ B Hnt (bi_inj _ _ _ _ I) Hx0 Hgr) as (F1 & F2 & F3 & F4 & F5 & F6).
    assert (HpL : p ∉ L).
    { intros Hin. apply elem_of_list_lookup in Hin as [i Hi].
      destruct (Forall2_lookup_r _ _ _ _ _ (bi_own _ _ _ _ I) Hi) as (id' & Hid' & Hx).
      assert (id' = pid) as -> by (eapply F1; [by apply G4|done]). apply Opid. by eapply elem_of_list_lookup_2. }
    assert (Hpn : p <> n).
    { intros ->. assert (id = pid) as -> by (eapply F1; [by apply G4|done]). done. }
    assert (HT : forall m tm', bnodes b' !! m = Some (T tm') <-> bnodes b !! m = Some (T tm')).
    { intros m tm'. rewrite HN. destruct (decide (m = n)) as [->|Hne].
      - rewrite lookup_insert, Hn. split; congruence.
      - rewrite lookup_insert_ne by done. rewrite F3. by rewrite lookup_insert_ne by done. }
    assert (HN'n : N' !! n = Some (NT (named nt label ann))) by (apply G1, lookup_insert).
    assert (HNT : forall m nt', m <> n -> bnodes b' !! m = Some (NT nt') -> bnodes b !! m = Some (NT nt') \/
       bnodes b !! m = None /\ nt' = nt_new [] (span_of (b_nterm b))).
    { intros m nt' Hne. rewrite HN, lookup_insert_ne by done. intros [Hm|(Hm & -> & ->)]%F4.
      - rewrite lookup_insert_ne in Hm by done. by left.
      - right. split; [|done]. apply lookup_insert_None in Hm as [? _]. done. }
    assert (Hlive : forall m w, m <> n -> bnodes b !! m = Some w -> bnodes b' !! m = Some w).
    { intros m w Hne Hm. rewrite HN, lookup_insert_ne by done. apply G1. by rewrite lookup_insert_ne. }
    assert (HPE : forall q c, PE (bedges b') q c <-> PE (bedges b) q c \/ q = p /\ c = n).
    { intros q c. rewrite HE. split.
      - intros (r & [->|Hr]%elem_of_cons & H1 & H2 & H3); [right; simpl in *; done|left; by exists r].
      - intros [(r & Hr & H)|[-> ->]]; [exists r; split; [set_solver|done]|].
        exists (mk_e e p n (Primary edge)). split; [set_solver|done]. }
    assert (Hprim : forall r, r ∈ bedges b -> PE (bedges b) (e_src r) (e_tgt r)).
    { intros r Hr. exists r. split_and!; [done|by apply (b0_leaf _ B)|done|done]. }
    assert (HtgtPE : forall q c, PE (bedges b) q c -> (exists tm, bnodes b !! c = Some (T tm)) \/ c ∈ L).
    { intros q c (r & Hr & _ & _ & <-). by eapply bi_tgt. }
    assert (Hleaf : forall m tm c, bnodes b !! m = Some (T tm) -> ~ PE (bedges b) m c).
    { intros m tm c Hm (r & Hr & _ & <- & _). destruct (b0_leaf _ B r Hr) as [_ [i Hi]].
      destruct (b0_idx _ B _ _ Hi) as [? ?]. congruence. }
    assert (Hpterm : forall tm, bnodes b !! p <> Some (T tm)).
    { intros tm Hm. apply HT in Hm. rewrite HN, lookup_insert_ne in Hm by done. congruence. }
    assert (HDom : forall m x, m ∈ L \/ (exists tm, bnodes b !! m = Some (T tm)) ->
       Dom (bedges b') m x <-> Dom (bedges b) m x).
    { intros m x Hm. split.
      - intros HD. revert Hm. induction HD as [m|m c x Hmc HD IH]; intros Hm; [done|].
        apply HPE in Hmc as [Hmc|[-> ->]].
        + eapply rtc_l; [done|]. apply IH. destruct (HtgtPE _ _ Hmc); auto.
        + exfalso. destruct Hm as [?|[tm Htm]]; [done|]. by eapply Hpterm.
      - intros HD. induction HD as [m|m c x Hmc HD IH]; [done|]. eapply rtc_l; [apply HPE; by left|]. apply IH.
        destruct (HtgtPE _ _ Hmc); auto. }
    assert (Hty : forall m i, term_pos (bnodes b') m i <-> term_pos (bnodes b) m i).
    { intros m i. unfold term_pos. by setoid_rewrite HT. }
    assert (Hy : forall m i, m ∈ L \/ (exists tm, bnodes b !! m = Some (T tm)) ->
       yields (bnodes b') (bedges b') m i <-> yields (bnodes b) (bedges b) m i).
    { intros m i Hm. unfold yields. setoid_rewrite Hty. split; intros (x & Hx & H); exists x; (split; [|done]).
      - by apply (HDom m x Hm).
      - by apply (HDom m x Hm). }
    assert (HLn : forall m, m ∈ L -> m <> n) by (intros m Hm ->; done).
    exists (L ++ [n]). split; try done.
    + intros m nt' Hm. destruct (decide (m = n)) as [->|Hne]; [exists id; by apply G4|].
      rewrite HN, lookup_insert_ne in Hm by done. by eapply F2.
    + rewrite Hk. destruct (bi_terms _ _ _ _ I) as [T1 T2 T3]. split.
      * intros m tm Hm%HT. eauto.
      * intros m m' i. rewrite !Hty. apply T2.
      * intros i Hi. destruct (T3 i Hi) as [m Hm]. exists m. by apply Hty.
    + apply Hlive; [done|]. apply I.
    + assert (Hnew : forall r, r ∈ bedges b -> e_tgt r <> n).
      { intros r Hr E. destruct (bi_tgt _ _ _ _ I r Hr) as [[x Hx]|Hx]; rewrite E in Hx; [congruence|done]. }
      intros r1 r2. rewrite HE. intros [->|Hr1]%elem_of_cons [->|Hr2]%elem_of_cons; simpl; try done.
      * intros E. by apply Hnew in Hr2.
      * intros E. by apply Hnew in Hr1.
      * by apply I.
    + intros r. rewrite HE. intros [->|Hr]%elem_of_cons; simpl; [right; set_solver|].
      destruct (bi_tgt _ _ _ _ I r Hr) as [[x Hx]|Hx]; [left; exists x; by apply HT|right; set_solver].
    + intros m Hm. assert (Hm' : (exists tm, bnodes b !! m = Some (T tm)) \/ m ∈ L \/ m = n).
      { destruct Hm as [[tm Hm%HT]|Hm]; [eauto|]. set_solver. }
      destruct Hm' as [Hm'|[Hm'| ->]].
      * destruct (bi_par _ _ _ _ I m) as [q Hq]; [eauto|]. exists q. apply HPE. by left.
      * destruct (bi_par _ _ _ _ I m) as [q Hq]; [eauto|]. exists q. apply HPE. by left.
      * exists p. apply HPE. by right.
    + rewrite owns_app. simpl. apply Forall2_app; [|constructor; [by apply G4|constructor]].
      eapply Forall2_impl; [apply I|]. auto.
    + intros i q c Hi Hc%HPE.
      assert (Hq : q <> p).
      { intros ->. apply elem_of_list_lookup_2 in Hi. apply elem_of_app in Hi as [?|?%elem_of_list_singleton]; done. }
      destruct Hc as [Hc|[? _]]; [|done]. apply lookup_app_Some in Hi as [Hi|[Hge Hi]].
      * destruct (bi_order _ _ _ _ I i q c Hi Hc) as [[tm Htm]|(j & Hj & Hjc)]; [left; exists tm; by apply HT|right].
        exists j. split; [done|]. by apply lookup_app_l_Some.
      * destruct (HtgtPE _ _ Hc) as [[tm Htm]|HcL]; [left; exists tm; by apply HT|right].
        apply elem_of_list_lookup in HcL as [j Hj]. exists j. split; [apply lookup_lt_Some in Hj; lia|].
        by apply lookup_app_l_Some.
    + intros m nt' Hm Hw i. apply elem_of_app in Hm as [Hm|Hm%elem_of_list_singleton].
      * rewrite Hy by auto. destruct (HNT m nt' (HLn _ Hm) Hw) as [Hw'|[Hw' _]]; [by eapply bi_span|].
        apply elem_of_list_lookup in Hm as [j Hj].
        destruct (Forall2_lookup_r _ _ _ _ _ (bi_own _ _ _ _ I) Hj) as (id' & _ & Hx).
        destruct (b0_idx _ B _ _ Hx). congruence.
      * subst m. rewrite HN, lookup_insert in Hw. injection Hw as [= <-]. simpl. rewrite Hsp.
        assert (Hchild : forall c w, PE (bedges b') n c -> N' !! c = Some w -> covers (node_span w) i <-> yields (bnodes b') (bedges b') c i).
        { intros c w Hc Hw. apply HPE in Hc as [Hc|[? _]]; [|congruence]. destruct (HtgtPE _ _ Hc) as [[tm Htm]|HcL].
          - rewrite Hy by eauto. assert (Hcn : c <> n) by congruence.
            assert (w = T tm) as ->.
            { apply HT in Htm. rewrite HN, lookup_insert_ne in Htm by done. congruence. }
            simpl. destruct (to_pos _ _ (bi_terms _ _ _ _ I) c tm Htm) as (j & Hj & _). rewrite Hj, covers_singleton. split.
            + intros ->. exists c. split; [done|]. by exists tm.
            + intros (x & Hx & tm' & Hx' & Hs). apply rtc_inv in Hx as [->|(y & Hy' & _)]; [|by eapply Hleaf in Hy'].
              assert (tm' = tm) as -> by congruence. rewrite Hj in Hs. by injection Hs.
          - rewrite Hy by auto. pose proof (HLn _ HcL) as Hcn.
            assert (Hw' : bnodes b' !! c = Some w) by (by rewrite HN, lookup_insert_ne).
            destruct w as [ntc|tm].
            + destruct (HNT c ntc Hcn Hw') as [Hw''|[Hw'' _]]; [by eapply bi_span|].
              destruct Hc as (r & Hr & _ & _ & <-). destruct (go_ends _ (b0_graph _ B) r Hr) as [_ [? ?]]. congruence.
            + exfalso. apply HT in Hw'. apply elem_of_list_lookup in HcL as [j Hj].
              destruct (Forall2_lookup_r _ _ _ _ _ (bi_own _ _ _ _ I) Hj) as (id' & _ & Hx).
              destruct (b0_idx _ B _ _ Hx). congruence. }
        split.
        -- intros (c & w & Hc & Hw & Hcov). apply (Hchild c w Hc Hw) in Hcov as (x & Hx & Hp). exists x. split; [|done].
           by eapply rtc_l.
        -- intros (x & Hx & Hp). apply rtc_inv in Hx as [->|(c & Hc & Hcx)].
           ++ destruct Hp as (tm & Htm%HT & _). congruence.
           ++ assert (Hcw : exists w, N' !! c = Some w).
              { assert (Hcn : c <> n).
                { intros ->. apply HPE in Hc as [Hc|[? _]]; [|congruence]. destruct (HtgtPE _ _ Hc) as [[tm ?]|?]; [congruence|done]. }
                destruct Hc as (r & Hr & _ & _ & <-). destruct (go_ends _ (b0_graph _ B') r Hr) as [_ [w Hw]].
                exists w. by rewrite HN, lookup_insert_ne in Hw. }
              destruct Hcw as [w Hw]. exists c, w. split_and!; try done. apply (Hchild c w Hc Hw). by exists x.
    + intros m nt' Hm Hw. assert (m <> n) as Hne by set_solver. destruct (HNT m nt' Hne Hw) as [Hw'|[_ ->]]; [|done].
      eapply bi_skips; [done| |done]. set_solver.
    + intros m nt' Hm Hm0 Hw. assert (m <> n) as Hne by set_solver. destruct (HNT m nt' Hne Hw) as [Hw'|[_ ->]]; [|done].
      eapply bi_feats; [done| |done|done]. set_solver.
    + rewrite Hnp, HN. pose proof (ndisc_of_update N' n _ (NT (nt_set_span (named nt label ann) sp)) HN'n) as U1.
      pose proof (ndisc_of_update (bnodes b) n _ (NT (named nt label ann)) Hn) as U2.
      rewrite !b2n_gappy in U1, U2. simpl in U1, U2. rewrite (bi_skips _ _ _ _ I n nt HnL Hn) in U1, U2.
      rewrite (bi_nproj _ _ _ _ I). lia.
    + rewrite Hd, (bi_done _ _ _ _ I), app_length. simpl. lia.
    + by rewrite Hfin.
    + apply Forall_app. split.
      * apply Forall_forall. intros a Ha. pose proof (proj1 (Forall_forall _ _) (bi_lines _ _ _ _ I) a Ha) as Hld.
        eapply line_done_mono; [done|done| |by intros ??; apply HT|].
        -- intros r Hr. rewrite HE. set_solver.
        -- intros id' m nt' Ho Hm Hw. apply Hlive; [|done]. intros ->.
           assert (id' = id) as -> by (by eapply bi_inj). apply NoDup_app in Ond as (_ & Ond & _).
           apply (Ond id); [|set_solver]. apply elem_of_list_lookup in Ha as [i Hi]. apply elem_of_owns. eauto.
      * constructor; [|done]. exists n, p, e. split; [done|]. split; [rewrite HE; simpl; set_solver|].
        split; [by apply G4|]. exists (nt_set_span (named nt label ann) sp). split; [by rewrite HN, lookup_insert|].
        split; [done|]. simpl. rewrite (bi_feats _ _ _ _ I n nt HnL Hn0 Hn). done.
    + intros i. rewrite F6, (bi_idx _ _ _ _ I). set_solver.
    + rewrite !app_length, Hk. simpl. pose proof (bi_nterm _ _ _ _ I) as E. lia.
Qed.

(** *** The finished tree *)
Lemma BI_finished r0 b als L t :
  BI r0 b als L -> ordered als -> finished b t ->
  WF t /\ (forall n, n ∈ L <-> n <> 0 /\ exists nt, bnodes b !! n = Some (NT nt)).
Proof.
  intros I O (nt & new & Hd & Hk & H0 & G & Hr & Hnt & Hnd & HN & HE & Hnew & _).
  pose proof (bi_B0 _ _ _ _ I) as B.
  assert (Hlen : length L = length (owns als)) by (symmetry; eapply Forall2_length, I).
  (** every known number other than 0 has a line *)
  assert (Hall : forall i, is_Some (b_idx b !! i) -> i = 0 \/ i ∈ owns als).
  { assert (Hsub : {[0]} ∪ list_to_set (owns als) ⊆ dom (b_idx b)).
    { intros i. rewrite elem_of_union, elem_of_singleton, elem_of_list_to_set, elem_of_dom. intros [->|Hi].
      - rewrite (b0_root _ B). eauto.
      - apply elem_of_list_lookup in Hi as [j Hj].
        destruct (Forall2_lookup_l _ _ _ _ _ (bi_own _ _ _ _ I) Hj) as (n & _ & Hn). eauto. }
    assert (Hsz : size (dom (b_idx b)) <= size (({[0]} ∪ list_to_set (owns als)) : gset nat)).
    { rewrite size_dom, <- Hd, (bi_done _ _ _ _ I). rewrite size_union.
      - rewrite size_singleton, size_list_to_set by apply O. lia.
      - rewrite disjoint_singleton_l, elem_of_list_to_set. apply O. }
    intros i Hi. apply elem_of_dom in Hi.
    assert (Heq : {[0]} ∪ list_to_set (owns als) = dom (b_idx b)).
    { destruct (decide ((dom (b_idx b) : gset nat) ⊆ {[0]} ∪ list_to_set (owns als))) as [Hs|Hs].
      - set_solver.
      - exfalso. assert (Hss : {[0]} ∪ list_to_set (owns als) ⊂ dom (b_idx b)) by done. apply subset_size in Hss. lia. }
    rewrite <- Heq in Hi. rewrite elem_of_union, elem_of_singleton, elem_of_list_to_set in Hi. done. }
  assert (HL : forall n, n ∈ L <-> n <> 0 /\ exists nt, bnodes b !! n = Some (NT nt)).
  { intros n. split.
    - intros Hn. apply elem_of_list_lookup in Hn as [j Hj].
      destruct (Forall2_lookup_r _ _ _ _ _ (bi_own _ _ _ _ I) Hj) as (id & Hid & Hn). split; [|by eapply b0_idx].
      intros ->. assert (id = 0) as -> by (eapply bi_inj; [done|done|apply B]). apply elem_of_list_lookup_2 in Hid. by apply O in Hid.
    - intros (Hne & nt' & Hn). destruct (bi_nt _ _ _ _ I n nt' Hn) as [i Hi].
      destruct (Hall i) as [->|Hin]; [eauto|rewrite (b0_root _ B) in Hi; congruence|].
      apply elem_of_list_lookup in Hin as [j Hj].
      destruct (Forall2_lookup_l _ _ _ _ _ (bi_own _ _ _ _ I) Hj) as (m & Hm & Hn'). replace n with m by congruence.
      by eapply elem_of_list_lookup_2. }
  split; [|done].
  assert (HPE : forall p c, PE (edges t) p c <-> PE (bedges b) p c).
  { intros p c. rewrite HE. split; intros (r & Hr' & H1 & H2).
    - apply elem_of_app in Hr' as [Hr'|Hr']; [|by exists r].
      destruct (Hnew r Hr') as (id & l & _ & _ & Hw). rewrite Hw in H1. done.
    - exists r. split; [set_solver|done]. }
  assert (HDom : forall p c, Dom (edges t) p c <-> Dom (bedges b) p c).
  { intros p c. split; apply rtc_subrel; intros x y; apply HPE. }
  assert (HTm : forall n tm, nodes t !! n = Some (T tm) <-> bnodes b !! n = Some (T tm)).
  { intros n tm. rewrite HN. destruct (decide (n = 0)) as [->|Hne]; [rewrite lookup_insert, H0; split; congruence|].
    by rewrite lookup_insert_ne. }
  assert (Hlive : forall n, is_Some (nodes t !! n) <-> is_Some (bnodes b !! n)).
  { intros n. rewrite HN, lookup_insert_is_Some'. split; [|auto]. intros [<-|?]; eauto. }
  assert (Htp : forall n i, term_pos (nodes t) n i <-> term_pos (bnodes b) n i).
  { intros n i. unfold term_pos. by setoid_rewrite HTm. }
  assert (Hy : forall n i, yields (nodes t) (edges t) n i <-> yields (bnodes b) (bedges b) n i).
  { intros n i. unfold yields. setoid_rewrite HDom. by setoid_rewrite Htp. }
  assert (Htop : forall p, ~ PE (bedges b) p 0).
  { intros p (r & Hr' & _ & _ & E). destruct (bi_tgt _ _ _ _ I r Hr') as [[tm Htm]|Hin].
    - rewrite E in Htm. congruence.
    - rewrite E in Hin. apply HL in Hin as [? _]. done. }
  assert (HinL : forall k i n, length L - i <= k -> L !! i = Some n -> Dom (bedges b) 0 n).
  { induction k as [|k IHk]; intros i n Hik Hi.
    { apply lookup_lt_Some in Hi. lia. }
    destruct (bi_par _ _ _ _ I n) as [p Hp]; [right; by eapply elem_of_list_lookup_2|].
    destruct (decide (p = 0)) as [->|Hp0]; [by apply rtc_once|].
    destruct Hp as (r & Hr' & Hpr & <- & <-). destruct (b0_leaf _ B r Hr') as [_ [j Hj]].
    destruct (b0_idx _ B _ _ Hj) as [ntp Hntp]. assert (HpL : e_src r ∈ L) by (apply HL; eauto).
    apply elem_of_list_lookup in HpL as [i' Hi'].
    assert (HPEr : PE (bedges b) (e_src r) (e_tgt r)) by (by exists r).
    destruct (bi_order _ _ _ _ I i' _ _ Hi' HPEr) as [[tm Htm]|(j' & Hj' & Hj'L)].
    - exfalso. apply elem_of_list_lookup_2 in Hi. apply HL in Hi as (_ & ? & ?). congruence.
    - assert (Hij : j' = i).
      { eapply (NoDup_lookup L); [|done|done].
        assert (HF : forall (l1 l2 : list nat), NoDup l1 -> Forall2 (fun id n => b_idx b !! id = Some n) l1 l2 -> NoDup l2).
        { intros l1 l2 Hnd1 HF. revert Hnd1. induction HF as [|x y l1 l2 Hxy HF IH]; intros Hnd1; [constructor|].
          apply NoDup_cons in Hnd1 as [Hx Hnd1]. constructor; [|auto]. intros Hy'. apply elem_of_list_lookup in Hy' as [q Hq].
          destruct (Forall2_lookup_r _ _ _ _ _ HF Hq) as (x' & Hx' & Hy'). apply Hx.
          replace x with x' by (by eapply bi_inj). by eapply elem_of_list_lookup_2. }
        eapply HF; [apply O|apply I]. }
      subst j'. eapply rtc_r; [|done]. apply (IHk i'); [|done]. apply lookup_lt_Some in Hi'. lia. }
  assert (Hreach : forall n, is_Some (bnodes b !! n) -> Dom (bedges b) 0 n).
  { intros n [[nt'|tm] Hn].
    - destruct (decide (n = 0)) as [->|Hne]; [done|]. assert (Hin : n ∈ L) by (apply HL; eauto).
      apply elem_of_list_lookup in Hin as [i Hi]. by eapply (HinL (length L - i)).
    - destruct (bi_par _ _ _ _ I n) as [p Hp]; [eauto|]. eapply rtc_r; [|done].
      destruct (decide (p = 0)) as [->|Hp0]; [done|].
      destruct Hp as (r & Hr' & _ & <- & _). destruct (b0_leaf _ B r Hr') as [_ [j Hj]].
      destruct (b0_idx _ B _ _ Hj) as [ntp Hntp]. assert (HpL : e_src r ∈ L) by (apply HL; eauto).
      apply elem_of_list_lookup in HpL as [i Hi]. by eapply (HinL (length L - i)). }
  assert (Htrm : terms_ok (nodes t) (tr_nterm t)).
  { rewrite Hnt. destruct (bi_terms _ _ _ _ I) as [T1 T2 T3]. split.
    - intros n tm Hn%HTm. eauto.
    - intros n m i. rewrite !Htp. apply T2.
    - intros i Hi. destruct (T3 i Hi) as [n Hn]. exists n. by apply Htp. }
  assert (Hsh : shape_ok (nodes t) (edges t) (tr_root t)).
  { rewrite Hr. split.
    - apply Hlive. eauto.
    - intros p. rewrite HPE. apply Htop.
    - intros r1 r2 Hr1 Hr2 Hp1 Hp2. rewrite HE in Hr1, Hr2.
      apply elem_of_app in Hr1 as [Hr1|Hr1]; [destruct (Hnew r1 Hr1) as (? & ? & _ & _ & Hw); by rewrite Hw in Hp1|].
      apply elem_of_app in Hr2 as [Hr2|Hr2]; [destruct (Hnew r2 Hr2) as (? & ? & _ & _ & Hw); by rewrite Hw in Hp2|].
      by apply I.
    - intros p c Hpc%HPE. rewrite !Hlive. destruct Hpc as (r & Hr' & _ & <- & <-). by apply (go_ends _ (b0_graph _ B)).
    - intros n Hn%Hlive. apply HDom. auto.
    - intros n tm c Hn%HTm Hc%HPE. destruct Hc as (r & Hr' & _ & <- & _). destruct (b0_leaf _ B r Hr') as [_ [i Hi]].
      destruct (b0_idx _ B _ _ Hi). congruence.
    - intros n nt' Hn. destruct (decide (n = 0)) as [->|Hne].
      + destruct (to_surj _ _ (bi_terms _ _ _ _ I) 0 Hk) as (m & tm & Hm & _).
        assert (HD : Dom (bedges b) 0 m) by (apply Hreach; eauto). apply rtc_inv in HD as [<-|(c & Hc & _)]; [congruence|].
        exists c. by apply HPE.
      + rewrite HN, lookup_insert_ne in Hn by done. destruct (bi_nt _ _ _ _ I n nt' Hn) as [i Hi].
        destruct (b0_child _ B i n Hi) as [c Hc]; [|exists c; by apply HPE]. intros ->. rewrite (b0_root _ B) in Hi. congruence. }
  split; [done|done|done| |].
  - intros n nt' Hn. destruct (decide (n = 0)) as [->|Hne].
    + rewrite HN, lookup_insert in Hn. injection Hn as [= <-]. simpl. split.
      * split; [done|]. simpl. done.
      * intros i. rewrite Hy. transitivity (i < b_nterm b); [unfold covers; rewrite span_contains_iff; simpl; split; [lia|]; intros; split_and!; try lia; set_solver|].
        split.
        -- intros Hi. destruct (to_surj _ _ (bi_terms _ _ _ _ I) i Hi) as (m & tm & Hm & Hs). exists m. split; [apply Hreach; eauto|by exists tm].
        -- intros (m & _ & tm & Hm & Hs). destruct (to_pos _ _ (bi_terms _ _ _ _ I) m tm Hm) as (j & Hj & Hlt).
           rewrite Hs in Hj. by injection Hj as ->.
    + rewrite HN, lookup_insert_ne in Hn by done. split; [apply (b0_span _ B _ _ Hn)|]. intros i. rewrite Hy.
      eapply bi_span; [done| |done]. apply HL. eauto.
  - rewrite Hnd, HN, (bi_nproj _ _ _ _ I).
    pose proof (ndisc_of_update (bnodes b) 0 _ (NT (nt_set_span nt (mk_span 0 (b_nterm b) None))) H0) as U.
    rewrite !b2n_gappy in U. simpl in U. assert (H0L : 0 ∉ L) by (rewrite HL; naive_solver).
    rewrite (bi_skips _ _ _ _ I 0 nt H0L H0) in U. lia.
Qed.

(** From the lines of the text. *)
Lemma steps_lines b body als b' : steps b body als b' -> Forall2 (fun l a => own_id l = line_own a /\ parent_id l = Some (line_pid a)) body als.
Proof.
  induction 1 as [|b body b1 als l a b2 H IH Hp Hs]; [constructor|]. apply Forall2_app; [done|]. constructor; [|constructor].
  split; [by eapply parse_line_own|by eapply parse_line_pid].
Qed.
Lemma bottom_up_ordered body als :
  Forall2 (fun l a => own_id l = line_own a /\ parent_id l = Some (line_pid a)) body als -> bottom_up body -> ordered als.
Proof.
  intros HF (H1 & H2 & H3). split.
  - clear H2 H3. revert H1. induction HF as [|l a body als [Hla _] HF IH]; intros H1; [constructor|].
    assert (IH' : NoDup (owns als)).
    { apply IH. intros i j l1 l2 id Hi Hj Ho Ho'. assert (S i = S j) by (by eapply (H1 (S i) (S j))). lia. }
    unfold owns. simpl. destruct (line_own a) as [id|] eqn:Ea; [|done]. constructor; [|done].
    intros (i & a' & Hi & Ho)%elem_of_owns. destruct (Forall2_lookup_r _ _ _ _ _ HF Hi) as (l' & Hl' & Hla' & _).
    assert (0 = S i) by (apply (H1 0 (S i) l l' id); [done|done|congruence|congruence]). done.
  - intros (i & a & Hi & Ho)%elem_of_owns. destruct (Forall2_lookup_r _ _ _ _ _ HF Hi) as (l & Hl & Hla & _).
    apply (H2 l); [by eapply elem_of_list_lookup_2|congruence].
  - intros i j a a' id Hi Hj Ho Hp. destruct (Forall2_lookup_r _ _ _ _ _ HF Hi) as (l & Hl & Hla & _).
    destruct (Forall2_lookup_r _ _ _ _ _ HF Hj) as (l' & Hl' & _ & Hla'). apply (H3 i j l l' id); congruence.
Qed.
Lemma started_BI bos body als b : started bos body als b -> ordered als ->
  exists id meta L, header_of (trim bos) = Some (id, meta) /\ b_sid b = print_nat id /\ BI (root_nt id meta) b als L.
Proof.
  intros (_ & _ & id & meta & b0 & Hh & Hf & Hs) O.
  assert (H0 : BI (root_nt id meta) b0 [] []) by (by apply BI_fresh).
  assert (Hsid : b_sid b0 = print_nat id) by apply Hf.
  clear Hf. assert (G : b_sid b = print_nat id /\ exists L, BI (root_nt id meta) b als L).
  { induction Hs as [b|b body b1 als l a b2 Hs IH Hp Hst]; [eauto|].
    destruct (IH (ordered_app _ _ O) H0 Hsid) as (E & L & HL). split.
    - destruct Hst as [-> _]. done.
    - by eapply BI_step. }
  destruct G as (E & L & HL). by exists id, meta, L.
Qed.
(** Every delivered tree comes from a sentence; if that is bottom-up, the tree is well-formed. *)
Lemma read_WF ls rs t :
  negra_read ls = Ret rs -> Ok t ∈ rs ->
  exists bos body eos, block_in ls bos body eos /\ negra_read (Some bos :: map Some body ++ [Some eos]) = Ret [Ok t] /\
    (bottom_up body -> WF t).
Proof.
  rewrite negra_read_run. intros H Hin.
  destruct (run_Ok ls rs t H Hin) as (bos & body & eos & als & b & Hb & Hs & Ht & Hrun).
  exists bos, body, eos. split; [done|]. rewrite negra_read_run. split; [done|]. intros Hbu.
  assert (O : ordered als).
  { destruct Hs as (_ & _ & ? & ? & ? & _ & _ & Hs). by eapply bottom_up_ordered; [eapply steps_lines|]. }
  destruct (started_BI _ _ _ _ Hs O) as (id & meta & L & _ & _ & HI).
  destruct (try_into_tree_spec b (trim eos) (bi_B0 _ _ _ _ HI)) as [_ Hfin].
  { apply starts_eos. apply Hb. }
  destruct (Hfin t Ht) as [_ Hf]. by eapply BI_finished.
Qed.
