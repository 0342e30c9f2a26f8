(** [decode] builds the layout that the pure decoder describes. *)
From Coq Require Import Lia.
From Verif Require Import EncModel TreeSpec BaseProofs ShapeProofs SpanProofs GraphProofs SortProofs ResetProofs RoseSpec RoseProofs
  AnnotProofs PtbPrint PtbBuild EncSpec DecPure ItProofs.

Notation zframe := (nat * nonterminal * list it)%type.
Definition fid (f : zframe) : nat := f.1.1.
Definition fnt (f : zframe) : nonterminal := f.1.2.
Definition fcs (f : zframe) : list it := f.2.
Definition erf (f : zframe) : pframe := (nt_label (fnt f), nt_feats (fnt f), map er (fcs f)).
Definition fclose (f : zframe) : it := IN (fid f) (fnt f) (fcs f).
Definition faddc (x : it) (f : zframe) : zframe := (f.1, f.2 ++ [x]).
Definition fids (f : zframe) : list nat := fid f :: concat (map ids (fcs f)).
Definition zids (st : list zframe) : list nat := concat (map fids st).

Fixpoint zup (N : gmap nat node) (es : list erec) (up : list zframe) (c : nat) : Prop :=
  match up with
  | [] => True
  | f :: up => N !! fid f = Some (NT (fnt f)) /\ kids es (fid f) = c :: rev (map iid (fcs f)) /\
               Forall (holds N es) (fcs f) /\ zup N es up (fid f)
  end.
Definition zst (N : gmap nat node) (es : list erec) (st : list zframe) : Prop :=
  match st with
  | [] => False
  | f :: up => N !! fid f = Some (NT (fnt f)) /\ kids es (fid f) = rev (map iid (fcs f)) /\
               Forall (holds N es) (fcs f) /\ zup N es up (fid f)
  end.
Record Inv (g : graph) (st : list zframe) (ex : list nat) : Prop := {
  i_graph : graph_ok g;
  i_st : zst (g_nodes g) (g_edges g) st;
  i_nodup : NoDup (zids st ++ ex);
  i_all : forall n, is_Some (g_nodes g !! n) <-> n ∈ zids st ++ ex;
  i_prim : forall r, r ∈ g_edges g -> e_w r = Primary None
}.

Lemma kids_cons e a b w es n : kids (mk_e e a b w :: es) n = if decide (a = n) then b :: kids es n else kids es n.
Proof. unfold kids. rewrite filter_cons. simpl. by destruct (decide (a = n)). Qed.
Lemma kids_fresh g n : graph_ok g -> g_nodes g !! n = None -> kids (g_edges g) n = [].
Proof.
  intros G Hn. unfold kids. destruct (filter _ (g_edges g)) as [|r l] eqn:E; [done|].
  assert (Hr : r ∈ filter (fun r => e_src r = n) (g_edges g)) by (rewrite E; set_solver).
  apply elem_of_list_filter in Hr as [<- Hr]. destruct (go_ends _ G r Hr) as [[? H] _]. congruence.
Qed.
Lemma Forall_holds_frame N es N' es' cs :
  Forall (holds N es) cs -> (forall n, n ∈ concat (map ids cs) -> N' !! n = N !! n /\ kids es' n = kids es n) ->
  Forall (holds N' es') cs.
Proof.
  intros H HF. rewrite Forall_forall in *. intros c Hc. apply (holds_frame N es); [auto|].
  intros n Hn. apply HF. apply elem_concat_map. eauto.
Qed.
Lemma zup_frame N es N' es' up : forall c,
  zup N es up c -> (forall n, n ∈ zids up -> N' !! n = N !! n /\ kids es' n = kids es n) -> zup N' es' up c.
Proof.
  induction up as [|f up IH]; intros c H HF; [done|]. destruct H as (H1 & H2 & H3 & H4).
  assert (Hsub : forall n, n ∈ fids f -> N' !! n = N !! n /\ kids es' n = kids es n).
  { intros n Hn. apply HF. change (n ∈ fids f ++ zids up). apply elem_of_app. by left. }
  destruct (Hsub (fid f)) as [E1 E2]; [unfold fids; set_solver|]. simpl. split_and!.
  - by rewrite E1.
  - by rewrite E2.
  - apply (Forall_holds_frame N es); [done|]. intros n Hn. apply Hsub. unfold fids. set_solver.
  - apply IH; [done|]. intros n Hn. apply HF. change (n ∈ fids f ++ zids up). apply elem_of_app. by right.
Qed.
Lemma zids_cons f up : zids (f :: up) = fid f :: concat (map ids (fcs f)) ++ zids up.
Proof. done. Qed.
Lemma zids_addc x f up : zids (faddc x f :: up) ≡ₚ ids x ++ zids (f :: up).
Proof.
  rewrite !zids_cons. unfold faddc, fid, fcs. simpl. rewrite map_app, concat_app. simpl. rewrite app_nil_r.
  rewrite <- app_assoc. rewrite !(Permutation_middle). apply Permutation_trans with (ids x ++ concat (map ids f.2) ++ f.1.1 :: zids up).
  - rewrite !app_assoc. apply Permutation_app_tail. apply Permutation_app_comm.
  - done.
Qed.

(** Attaching the pending terminal to the innermost open node. *)
Lemma Inv_leaf g f up n tm :
  Inv g (f :: up) [n] -> g_nodes g !! n = Some (T tm) -> kids (g_edges g) n = [] ->
  exists g' e, add_edge g (fid f) n (Primary None) = Ret (g', e) /\ Inv g' (faddc (IL n tm) f :: up) [] /\
    g_nodes g' = g_nodes g.
Proof.
  intros [G (S1 & S2 & S3 & S4) Hnd Hall Hprim] Hn Hk.
  destruct (add_edge_spec g (fid f) n (Primary None) G ltac:(eauto) ltac:(eauto)) as (g' & e & He & G' & EN & EE & _).
  exists g', e. split_and!; [done| |done].
  assert (Hd : n ∉ zids (f :: up)). { apply NoDup_app in Hnd as (_ & H & _). intros Hin. by apply (H n Hin), elem_of_list_singleton. }
  assert (Hfr : forall m, m <> fid f -> g_nodes g' !! m = g_nodes g !! m /\ kids (g_edges g') m = kids (g_edges g) m).
  { intros m Hm. rewrite EN, EE, kids_cons. split; [done|]. by destruct (decide (fid f = m)). }
  assert (Hnd' : NoDup (zids (f :: up))) by (by apply NoDup_app in Hnd as []).
  rewrite zids_cons in Hnd', Hd. apply NoDup_cons in Hnd' as [Hf Hnd'].
  constructor.
  - done.
  - simpl. unfold faddc, fid, fnt, fcs. simpl. fold (fid f) (fnt f) (fcs f). rewrite EN. split_and!.
    + done.
    + rewrite EE, kids_cons. destruct (decide _); [|done]. rewrite S2, map_app, rev_app_distr. done.
    + apply Forall_app. split.
      * apply (Forall_holds_frame (g_nodes g) (g_edges g)); [done|]. intros m Hm. rewrite <- EN at 1. apply Hfr. set_solver.
      * constructor; [|constructor]. constructor; [done|]. rewrite (proj2 (Hfr n ltac:(set_solver))). done.
    + rewrite <- EN. apply (zup_frame (g_nodes g) (g_edges g)); [done|]. intros m Hm. apply Hfr. set_solver.
  - rewrite app_nil_r, zids_addc. simpl. apply NoDup_cons. rewrite zids_cons. split; [done|]. by apply NoDup_cons.
  - intros m. rewrite EN, Hall, app_nil_r, zids_addc. simpl. set_solver.
  - intros r. rewrite EE. intros [->|Hr]%elem_of_cons; [done|auto].
Qed.
(** Opening a new node below the innermost one. *)
Lemma Inv_push g f up ex nt g1 m :
  Inv g (f :: up) ex -> add_node g (NT nt) = (g1, m) ->
  exists g' e, add_edge g1 (fid f) m (Primary None) = Ret (g', e) /\ Inv g' ((m, nt, []) :: f :: up) ex /\
    (forall n, n ∈ ex -> g_nodes g' !! n = g_nodes g !! n /\ kids (g_edges g') n = kids (g_edges g) n).
Proof.
  intros [G (S1 & S2 & S3 & S4) Hnd Hall Hprim] Hadd.
  destruct (add_node_spec g (NT nt) g1 m G Hadd) as (G1 & Hm & EN1 & EE1).
  assert (Hmf : m <> fid f) by (intros ->; congruence).
  destruct (add_edge_spec g1 (fid f) m (Primary None) G1) as (g' & e & He & G' & EN & EE & _).
  { rewrite EN1, lookup_insert_ne by done. eauto. }
  { rewrite EN1, lookup_insert. eauto. }
  exists g', e.
  assert (Hfr : forall n, n <> fid f -> n <> m -> g_nodes g' !! n = g_nodes g !! n /\ kids (g_edges g') n = kids (g_edges g) n).
  { intros n Hn1 Hn2. rewrite EN, EE, EN1, EE1, kids_cons. rewrite lookup_insert_ne by done. by destruct (decide (fid f = n)). }
  assert (Hme : m ∉ zids (f :: up) ++ ex). { intros H%Hall. rewrite Hm in H. by destruct H. }
  assert (Hmz : m ∉ zids (f :: up)) by set_solver.
  assert (Hzn : NoDup (zids (f :: up))) by (by apply NoDup_app in Hnd as []).
  pose proof Hzn as Hzn'. rewrite zids_cons in Hzn'. apply NoDup_cons in Hzn' as [Hf Hzn'].
  split_and!; [done| |].
  - constructor; [done| | | |].
    + simpl. unfold fid, fnt, fcs. simpl. fold (fid f) (fnt f) (fcs f).
      split_and!.
      * by rewrite EN, EN1, lookup_insert.
      * rewrite EE, EE1, kids_cons. destruct (decide (fid f = m)); [done|]. by apply kids_fresh.
      * constructor.
      * rewrite EN, EN1, lookup_insert_ne by done. done.
      * rewrite EE, EE1, kids_cons. destruct (decide _); [|done]. by rewrite S2.
      * apply (Forall_holds_frame (g_nodes g) (g_edges g)); [done|]. intros n Hn.
        apply Hfr; [set_solver|]. intros ->. apply Hmz. rewrite zids_cons. set_solver.
      * apply (zup_frame (g_nodes g) (g_edges g)); [done|]. intros n Hn.
        apply Hfr; [set_solver|]. intros ->. apply Hmz. rewrite zids_cons. set_solver.
    + rewrite (zids_cons (m, nt, [])). simpl. by apply NoDup_cons.
    + intros n. rewrite EN, EN1. rewrite (zids_cons (m, nt, [])). unfold fid at 1. cbn [fst snd fcs map concat app].
      rewrite elem_of_cons, <- Hall.
      destruct (decide (n = m)) as [->|Hne]; [rewrite lookup_insert; split; [by left|eauto]|]. rewrite lookup_insert_ne by done.
      naive_solver.
    + intros r. rewrite EE, EE1. intros [->|Hr]%elem_of_cons; [done|auto].
  - intros n Hn. apply Hfr.
    + intros ->. apply NoDup_app in Hnd as (_ & H & _). apply (H (fid f)); [|done]. rewrite zids_cons. set_solver.
    + intros ->. apply Hme. set_solver.
Qed.
(** Finishing the innermost open node: nothing happens in the graph. *)
Lemma Inv_pop g f h up ex : Inv g (f :: h :: up) ex -> Inv g (faddc (fclose f) h :: up) ex.
Proof.
  intros [G (S1 & S2 & S3 & S4 & S5 & S6 & S7) Hnd Hall Hprim].
  assert (HP : zids (faddc (fclose f) h :: up) ≡ₚ zids (f :: h :: up)).
  { rewrite zids_addc. done. }
  constructor; [done| | | |done].
  - simpl. unfold faddc, fid, fnt, fcs. simpl. fold (fid h) (fnt h) (fcs h). split_and!; try done.
    + rewrite S5, map_app, rev_app_distr. done.
    + apply Forall_app. split; [done|]. constructor; [|constructor]. by constructor.
  - by rewrite HP.
  - intros n. by rewrite HP.
Qed.
(** Changing the innermost open node. *)
Lemma Inv_set g f up ex nt' :
  Inv g (f :: up) ex -> Inv (set_node g (fid f) (NT nt')) ((fid f, nt', fcs f) :: up) ex /\
    forall n, n ∈ ex -> g_nodes (set_node g (fid f) (NT nt')) !! n = g_nodes g !! n.
Proof.
  intros [G (S1 & S2 & S3 & S4) Hnd Hall Hprim].
  assert (Hzn : NoDup (zids (f :: up))) by (by apply NoDup_app in Hnd as []).
  rewrite zids_cons in Hzn. apply NoDup_cons in Hzn as [Hf Hzn].
  assert (Hfr : forall n, n <> fid f -> g_nodes (set_node g (fid f) (NT nt')) !! n = g_nodes g !! n).
  { intros n Hn. simpl. by rewrite lookup_insert_ne. }
  split.
  - constructor.
    + apply set_node_ok; [done|]. eauto.
    + change (g_edges (set_node g (fid f) (NT nt'))) with (g_edges g). split_and!.
      * simpl. by rewrite lookup_insert.
      * done.
      * apply (Forall_holds_frame (g_nodes g) (g_edges g)); [done|]. intros n Hn. split; [|done]. apply Hfr. set_solver.
      * apply (zup_frame (g_nodes g) (g_edges g)); [done|]. intros n Hn. split; [|done]. apply Hfr. set_solver.
    + done.
    + intros n. simpl. rewrite <- (Hall n). destruct (decide (n = fid f)) as [->|Hne].
      * rewrite lookup_insert, S1. split; eauto.
      * by rewrite lookup_insert_ne.
    + done.
  - intros n Hn. apply Hfr. intros ->. apply NoDup_app in Hnd as (_ & H & _). apply (H (fid f)); [|done].
    rewrite zids_cons. set_solver.
Qed.
Lemma Inv_top g f up ex : Inv g (f :: up) ex -> g_nodes g !! fid f = Some (NT (fnt f)).
Proof. by intros [_ (? & _) _ _ _]. Qed.

(** *** The spine *)
Lemma zst_link N es st i f h :
  zst N es st -> st !! i = Some f -> st !! S i = Some h ->
  head (kids es (fid h)) = Some (fid f) /\ N !! fid f = Some (NT (fnt f)).
Proof.
  destruct st as [|f0 up]; [done|]. intros (S1 & _ & _ & S4) Hi Hh. simpl in Hh.
  assert (H : forall c up i, zup N es up c -> forall f h, up !! i = Some f -> up !! S i = Some h ->
            head (kids es (fid h)) = Some (fid f) /\ N !! fid f = Some (NT (fnt f))).
  { clear. intros c up. revert c. induction up as [|f1 up IH]; intros c i H f h Hf Hh; [done|].
    destruct H as (H1 & H2 & H3 & H4). destruct i as [|i]; simpl in *; [|eauto]. injection Hf as <-.
    destruct up as [|f2 up]; [done|]. injection Hh as <-. destruct H4 as (_ & E & _). by rewrite E. }
  destruct i as [|i]; [|by eapply H]. injection Hi as <-. destruct up as [|f2 up]; [done|]. injection Hh as <-.
  destruct S4 as (_ & E & _). by rewrite E.
Qed.
Lemma nbrs_kids g n : nbrs_out g n = kids (g_edges g) n.
Proof. done. Qed.
Lemma spine_step g st ex j f h :
  Inv g st ex -> st !! (length st - 2 - j) = Some f -> st !! (length st - 1 - j) = Some h -> S j < length st ->
  head (nbrs_out g (fid h)) = Some (fid f) /\ inner_node g (fid f) = true.
Proof.
  intros HI Hf Hh Hj. rewrite nbrs_kids.
  destruct (zst_link (g_nodes g) (g_edges g) st (length st - 2 - j) f h (i_st _ _ _ HI) Hf) as [H1 H2].
  { by replace (S (length st - 2 - j)) with (length st - 1 - j) by lia. }
  split; [done|]. unfold inner_node. by rewrite H2.
Qed.
Lemma descend_common_down g st ex root k idx j : 
  Inv g st ex -> last st = Some root -> j <= length st - 1 -> j <= k ->
  exists f, st !! (length st - 1 - j) = Some f /\
    descend_common g (fid root) 1 k (length st - 1) idx = descend_common g (fid f) (S j) (k - j) (length st - 1) idx.
Proof.
  intros HI Hr. induction j as [|j IH]; intros Hj Hk.
  - exists root. rewrite last_lookup in Hr. split; [|by rewrite Nat.sub_0_r].
    by replace (length st - 1 - 0) with (pred (length st)) by lia.
  - destruct IH as (h & Hh & ->); [lia|lia|].
    destruct (lookup_lt_is_Some_2 st (length st - 1 - S j)) as [f Hf]; [lia|]. exists f. split; [done|].
    destruct (spine_step g st ex j f h HI) as [H1 H2]; [by replace (length st - 2 - j) with (length st - 1 - S j) by lia|done|lia|].
    replace (k - j) with (S (k - S j)) by lia. cbn [descend_common]. rewrite H1, H2.
    destruct (Nat.ltb_spec (length st - 1) (S j)); [lia|]. done.
Qed.
Lemma descend_inner_down g st ex root j :
  Inv g st ex -> last st = Some root -> j <= length st - 1 ->
  exists f, st !! (length st - 1 - j) = Some f /\
    descend_inner g (fid root) (length st - 1) = descend_inner g (fid f) (length st - 1 - j).
Proof.
  intros HI Hr. induction j as [|j IH]; intros Hj.
  - exists root. rewrite last_lookup in Hr. split; [|by rewrite Nat.sub_0_r].
    by replace (length st - 1 - 0) with (pred (length st)) by lia.
  - destruct IH as (h & Hh & ->); [lia|].
    destruct (lookup_lt_is_Some_2 st (length st - 1 - S j)) as [f Hf]; [lia|]. exists f. split; [done|].
    destruct (spine_step g st ex j f h HI) as [H1 H2]; [by replace (length st - 2 - j) with (length st - 1 - S j) by lia|done|lia|].
    replace (length st - 1 - j) with (S (length st - 1 - S j)) by lia. cbn [descend_inner].
    destruct (nbrs_out g (fid h)) as [|a l]; [done|]. simpl in H1. injection H1 as ->.
    rewrite filter_cons_True by done. done.
Qed.
Lemma descend_inner_top g f up ex root :
  Inv g (f :: up) ex -> last (f :: up) = Some root -> descend_inner g (fid root) (length up) = fid f.
Proof.
  intros HI Hr. destruct (descend_inner_down g (f :: up) ex root (length up) HI Hr) as (h & Hh & E); [simpl; lia|].
  simpl length in *. replace (S (length up) - 1) with (length up) in * by lia. rewrite Nat.sub_diag in *. injection Hh as <-. done.
Qed.

(** New nodes below the spine. *)
Lemma descend_chain k : forall g f up ex i p idx root,
  Inv g (f :: up) ex -> p < i -> last (f :: up) = Some root ->
  exists g' f' up', descend_common g (fid f) i k p idx = Ret (g', fid f') /\ Inv g' (f' :: up') ex /\
    map erf (f' :: up') = replicate k dummy ++ map erf (f :: up) /\ last (f' :: up') = Some root /\
    (forall n, n ∈ ex -> g_nodes g' !! n = g_nodes g !! n /\ kids (g_edges g') n = kids (g_edges g) n).
Proof.
  induction k as [|k IH]; intros g f up ex i p idx root HI Hp Hr.
  - exists g, f, up. done.
  - cbn [descend_common]. destruct (Nat.ltb_spec p i); [|lia].
    destruct (add_node g (NT (nt_new DUMMY (span_of idx)))) as [g1 m] eqn:Ea.
    destruct (Inv_push g f up ex _ g1 m HI Ea) as (g2 & e & He & HI2 & Hex). rewrite He. cbn [mbind outcome_bind].
    destruct (IH g2 (m, nt_new DUMMY (span_of idx), []) (f :: up) ex (S i) p idx root HI2 ltac:(lia) ltac:(done))
      as (g' & f' & up' & H1 & H2 & H3 & H4 & H5).
    exists g', f', up'. split_and!; [done|done| |done|].
    + rewrite H3. cbn [map]. change (erf (m, nt_new DUMMY (span_of idx), [])) with dummy.
      change (dummy :: erf f :: map erf up) with ([dummy] ++ map erf (f :: up)).
      rewrite app_assoc. f_equal. change (replicate (S k) dummy) with (dummy :: replicate k dummy). by rewrite replicate_cons_app.
    + intros n Hn. destruct (H5 n Hn) as [-> ->]. by apply Hex.
Qed.

(** *** Erasure of the operations *)
Fixpoint zpops (k : nat) (st : list zframe) : list zframe :=
  match k, st with S k, f :: g :: st => zpops k (faddc (fclose f) g :: st) | _, _ => st end.
Lemma erf_addc x f : erf (faddc x f) = addc (er x) (erf f).
Proof. unfold erf, faddc, addc, fcs, fnt. simpl. by rewrite map_app. Qed.
Lemma erf_close f : er (fclose f) = pclose (erf f).
Proof. done. Qed.
Lemma zpops_er k : forall st, map erf (zpops k st) = pops k (map erf st).
Proof.
  induction k as [|k IH]; intros [|f [|h st]]; try done. cbn [zpops map pops]. rewrite IH. cbn [map].
  by rewrite erf_addc, erf_close.
Qed.
Lemma zpops_Inv k : forall g st ex, Inv g st ex -> Inv g (zpops k st) ex.
Proof. induction k as [|k IH]; intros g [|f [|h st]] ex HI; try done. cbn [zpops]. apply IH. by apply Inv_pop. Qed.
Lemma zpops_ids k : forall st, k < length st -> map fid (zpops k st) = drop k (map fid st).
Proof.
  induction k as [|k IH]; intros [|f [|h st]]; simpl; intros Hk; try done; try lia. rewrite IH by (simpl; lia). done.
Qed.
Lemma relabel_NT nt s : exists nt', relabel (NT nt) s = NT nt' /\ forall n cs, erf (n, nt', cs) = plabel s (erf (n, nt, cs)).
Proof.
  unfold relabel, plabel. destruct (rsplit_us s) as [[c l]|]; simpl; eexists; (split; [reflexivity|]); intros n cs; done.
Qed.

(** *** The loop *)
Definition spine_ok (g : graph) (st : list zframe) (rootid : nat) (prev : option nat) (prev_n : nat) : Prop :=
  Inv g st [] /\ last (map fid st) = Some rootid /\ prev_n = length st - 1 /\
  (prev = None /\ prev_n = 0 \/ exists f up, st = f :: up /\ prev = Some (fid f)).
Lemma last_fid st rootid : last (map fid st) = Some rootid -> exists root, last st = Some root /\ fid root = rootid.
Proof. rewrite fmap_last. intros (r & -> & ->)%fmap_Some. eauto. Qed.
Lemma Inv_node g st w g1 n :
  Inv g st [] -> add_node g w = (g1, n) ->
  Inv g1 st [n] /\ g_nodes g1 !! n = Some w /\ kids (g_edges g1) n = [].
Proof.
  intros [G Hst Hnd Hall Hprim] Ha. destruct (add_node_spec g w g1 n G Ha) as (G1 & Hn & EN & EE).
  assert (Hz : n ∉ zids st). { intros H. rewrite app_nil_r in Hall. apply Hall in H. rewrite Hn in H. by destruct H. }
  split_and!; [|by rewrite EN, lookup_insert|rewrite EE; by apply kids_fresh].
  assert (Hfr : forall m, m ∈ zids st -> g_nodes g1 !! m = g_nodes g !! m /\ kids (g_edges g1) m = kids (g_edges g) m).
  { intros m Hm. rewrite EN, EE. rewrite lookup_insert_ne by set_solver. done. }
  constructor; [done| | | |].
  - destruct st as [|f up]; [done|]. destruct Hst as (S1 & S2 & S3 & S4). rewrite zids_cons in Hfr.
    destruct (Hfr (fid f) ltac:(set_solver)) as [F1 F2]. split_and!.
    + by rewrite F1.
    + by rewrite F2.
    + apply (Forall_holds_frame (g_nodes g) (g_edges g)); [done|]. intros m Hm. apply Hfr. set_solver.
    + apply (zup_frame (g_nodes g) (g_edges g)); [done|]. intros m Hm. apply Hfr. set_solver.
  - rewrite app_nil_r in Hnd. apply NoDup_app. split_and!; [done|set_solver|apply NoDup_singleton].
  - intros m. rewrite EN, elem_of_app, elem_of_list_singleton. rewrite app_nil_r in Hall.
    destruct (decide (m = n)) as [->|Hne]; [rewrite lookup_insert; split; [by right|eauto]|].
    rewrite lookup_insert_ne, Hall by done. naive_solver.
  - intros r. rewrite EE. auto.
Qed.

Lemma add_edge_set g n w a b ew :
  is_Some (g_nodes g !! n) ->
  add_edge (set_node g n w) a b ew =
  match add_edge g a b ew with Ret (g', e) => Ret (set_node g' n w, e) | Panic => Panic | Diverge => Diverge end.
Proof.
  intros Hn. unfold add_edge.
  assert (Hc : forall m, contains_node (set_node g n w) m = contains_node g m).
  { intros m. unfold contains_node. apply bool_decide_ext. simpl. destruct (decide (m = n)) as [->|Hne].
    - rewrite lookup_insert. split; eauto.
    - by rewrite lookup_insert_ne. }
  rewrite !Hc. destruct (contains_node g a && contains_node g b)%bool; [|done]. simpl. by destruct (g_efree g).
Qed.
Lemma decode_step nt g st rootid prev prev_n a u tm l idx :
  spine_ok g st rootid prev prev_n -> (a = None -> nt <> 1) -> (forall b, a = Some b -> 1 <= ab_common b) ->
  exists g' st' prev' prev_n', 
    decode_loop nt ((a, u, tm) :: l) idx g rootid prev prev_n = decode_loop nt l (S idx) g' rootid prev' prev_n' /\
    spine_ok g' st' rootid prev' prev_n' /\ map erf st' = pstep (map erf st) (a, u, tm).
Proof.
  intros (HI & Hlast & Hpn & Hprev) Hnt Hpos. cbn [decode_loop].
  set (w := match u with Some c => node_insert_feat (T tm) unary_chain (Some c) | None => T tm end).
  assert (Hw : w = T (put_chain u tm)) by (unfold w; by destruct u).
  rewrite Hw. clear Hw w. destruct (add_node g (T (put_chain u tm))) as [g1 term] eqn:Ea.
  destruct (Inv_node g st _ g1 term HI Ea) as (HI1 & Hterm & Hkt).
  destruct (last_fid st rootid Hlast) as (root & Hr & Hrid).
  destruct st as [|f up]; [by destruct (i_st _ _ _ HI)|].
  assert (Hlu : length up = prev_n) by (simpl in Hpn; lia).
  destruct a as [b|].
  - specialize (Hpos b eq_refl). set (d := ab_common b - 1) in *.
    unfold pstep. cbn [fst snd attach]. fold d. rewrite !map_length. cbn [length].
    replace (S (length up) - 1) with prev_n by lia.
    destruct (decide (d < prev_n)) as [Hd|Hd].
    + (* the word belongs to the innermost open node, which is then left *)
      destruct (descend_common_down g1 (f :: up) [term] root d idx d HI1 Hr) as (h & Hh & E); [simpl; lia|lia|].
      cbn [length] in Hh, E. replace (S (length up) - 1) with prev_n in * by lia. rewrite Nat.sub_diag in E. cbn [descend_common] in E.
      rewrite <- Hrid, E. cbn [mbind outcome_bind].
      destruct Hprev as [[_ Hp0]|(f0 & up0 & [= <- <-] & ->)]; [lia|].
      (* first, abstractly, attach the leaf *)
      assert (Hhl : g_nodes g1 !! fid h = Some (NT (fnt h))).
      { destruct (prev_n - d) as [|i] eqn:Ei; [lia|]. simpl in Hh.
        assert (Hx : exists c, zup (g_nodes g1) (g_edges g1) up c) by (eexists; apply HI1).
        destruct Hx as [c Hx]. clear -Hx Hh. revert c i Hx Hh. induction up as [|f1 up IH]; intros c i Hx Hh; [done|].
        destruct Hx as (H1 & _ & _ & H4). destruct i as [|i]; simpl in Hh; [by injection Hh as <-|eauto]. }
      rewrite Hhl. cbn [unwrap mbind outcome_bind].
      destruct (relabel_NT (fnt h) (ab_label b)) as (nt' & -> & Hrel).
      assert (Hlt : Nat.ltb prev_n (ab_common b) = false) by (apply Nat.ltb_ge; unfold d in *; lia). rewrite Hlt.
      cbn [mbind outcome_bind].
      (* the graph operations commute: set the label first or last *)
      rewrite add_edge_set by eauto.
      destruct (Inv_leaf g1 f up term _ HI1 Hterm Hkt) as (g2 & e & He & HI2 & EN2). rewrite He. cbn [mbind outcome_bind].
      pose proof (zpops_Inv (prev_n - d) _ _ _ HI2) as HI3. set (st2 := faddc _ f :: up) in *.
      assert (Hids : map fid st2 = map fid (f :: up)) by done.
      assert (Hzi : map fid (zpops (prev_n - d) st2) = drop (prev_n - d) (map fid (f :: up))).
      { rewrite <- Hids. apply zpops_ids. unfold st2. simpl. lia. }
      destruct (zpops (prev_n - d) st2) as [|h' up3] eqn:Ez; [by destruct (i_st _ _ _ HI3)|].
      assert (Hhid : fid h' = fid h).
      { apply (f_equal head) in Hzi. cbn [map head] in Hzi. change (fid f :: map fid up) with (map fid (f :: up)) in Hzi. rewrite head_lookup, lookup_drop, Nat.add_0_r, list_lookup_fmap, Hh in Hzi.
        by injection Hzi. }
      pose proof (Inv_top _ _ _ _ HI3) as Htop. rewrite EN2, Hhid, Hhl in Htop. injection Htop as Hnt'.
      destruct (Inv_set g2 h' up3 [] nt' HI3) as [HI4 _]. rewrite Hhid in HI4.
      assert (Hsub : sub_chk (ab_common b) 1 = Ret d). { unfold sub_chk. destruct (Nat.leb_spec 1 (ab_common b)); [done|lia]. }
      rewrite Hsub. cbn [mbind outcome_bind].
      eexists _, ((fid h, nt', fcs h') :: up3), _, _. split; [reflexivity|]. split.
      * split_and!; [exact HI4| | |].
        -- change (map fid ((fid h, nt', fcs h') :: up3)) with (fid h :: map fid up3). rewrite <- Hhid.
           change (fid h' :: map fid up3) with (map fid (h' :: up3)). rewrite Hzi, Hrid.
           rewrite <- Hlast. rewrite !last_lookup, lookup_drop, drop_length. f_equal. rewrite map_length. simpl. lia.
        -- apply (f_equal length) in Hzi. rewrite drop_length, !map_length in Hzi. simpl in *. lia.
        -- right. eauto.
      * cbn [map]. rewrite Hrel. apply (f_equal (map erf)) in Ez. rewrite zpops_er in Ez. unfold st2 in Ez. cbn [map] in Ez.
        rewrite erf_addc in Ez. cbn [er] in Ez. cbn [map padd]. rewrite Ez. cbn [map prelabel]. do 2 f_equal.
        destruct h' as [[n3 nt3] cs3]. unfold fnt, fid in *. simpl in *. subst. by destruct h as [[? ?] ?].
    + (* new nodes are opened, the last one gets the label and the word *)
      destruct (descend_common_down g1 (f :: up) [term] root d idx prev_n HI1 Hr) as (h & Hh & E); [simpl; lia|lia|].
      cbn [length] in Hh, E. replace (S (length up) - 1) with prev_n in * by lia. rewrite Nat.sub_diag in Hh. injection Hh as <-.
      rewrite <- Hrid, E.
      destruct (descend_chain (d - prev_n) g1 f up [term] (S prev_n) prev_n idx root HI1 ltac:(lia) Hr)
        as (g2 & f2 & up2 & H1 & HI2 & H3 & H4 & H5).
      rewrite H1. cbn [mbind outcome_bind]. rewrite (Inv_top _ _ _ _ HI2). cbn [unwrap mbind outcome_bind].
      destruct (relabel_NT (fnt f2) (ab_label b)) as (nt' & -> & Hrel).
      destruct (Inv_set g2 f2 up2 [term] nt' HI2) as [HI3 Hk3].
      assert (Htgt : (match prev with None => Ret (fid f2) | Some p => if Nat.ltb prev_n (ab_common b) then Ret (fid f2) else Ret p end) = Ret (fid f2)).
      { destruct prev; [|done]. destruct (Nat.ltb_spec prev_n (ab_common b)); [done|]. unfold d in *. lia. }
      rewrite Htgt. cbn [mbind outcome_bind].
      destruct (Inv_leaf _ _ up2 term (put_chain u tm) HI3) as (g4 & e & He & HI4 & EN4).
      { rewrite Hk3 by set_solver. rewrite (proj1 (H5 term ltac:(set_solver))). done. }
      { change (g_edges (set_node g2 (fid f2) (NT nt'))) with (g_edges g2). rewrite (proj2 (H5 term ltac:(set_solver))). done. }
      change (fid (fid f2, nt', fcs f2)) with (fid f2) in He. rewrite He. cbn [mbind outcome_bind].
      assert (Hsub : sub_chk (ab_common b) 1 = Ret d). { unfold sub_chk. destruct (Nat.leb_spec 1 (ab_common b)); [done|lia]. }
      rewrite Hsub. cbn [mbind outcome_bind].
      eexists _, (faddc (IL term (put_chain u tm)) (fid f2, nt', fcs f2) :: up2), _, _. split; [reflexivity|]. split.
      * split_and!; [exact HI4| | |].
        -- change (last (map fid (f2 :: up2)) = Some (fid root)). rewrite fmap_last, H4. done.
        -- apply (f_equal length) in H3. rewrite app_length, replicate_length, !map_length in H3. simpl in *. lia.
        -- right. eexists _, _. split; [reflexivity|]. done.
      * cbn [map]. rewrite erf_addc, Hrel. cbn [er]. change (erf f :: map erf up) with (map erf (f :: up)). rewrite <- H3. cbn [map prelabel padd]. do 3 f_equal.
  - destruct (Nat.eqb_spec nt 1) as [Hn1|Hn1]; [by destruct (Hnt eq_refl)|].
    rewrite <- Hrid, <- Hlu, (descend_inner_top g1 f up [term] root HI1 Hr).
    destruct (Inv_leaf g1 f up term _ HI1 Hterm Hkt) as (g2 & e & He & HI2 & EN2). rewrite He. cbn [mbind outcome_bind].
    eexists _, (faddc (IL term (put_chain u tm)) f :: up), _, _. split; [reflexivity|]. split.
    + split_and!; [exact HI2| |simpl; lia|].
      * rewrite Hrid. done.
      * destruct Hprev as [[-> Hp0]|(f0 & up0 & [= <- <-] & ->)]; [left; split; [done|lia]|]. right. eexists _, _. split; [reflexivity|]. done.
    + cbn [map]. rewrite erf_addc. done.
Qed.
Lemma decode_loop_spec nt : forall l idx g st rootid prev prev_n,
  spine_ok g st rootid prev prev_n ->
  (forall e, e ∈ l -> e.1.1 = None -> nt <> 1) -> (forall e b, e ∈ l -> e.1.1 = Some b -> 1 <= ab_common b) ->
  exists g' st', decode_loop nt l idx g rootid prev prev_n = Ret (g', rootid) /\ Inv g' st' [] /\
    last (map fid st') = Some rootid /\ map erf st' = foldl pstep (map erf st) l.
Proof.
  induction l as [|[[a u] tm] l IH]; intros idx g st rootid prev prev_n HS H1 H2.
  - exists g, st. destruct HS as (? & ? & _). done.
  - destruct (decode_step nt g st rootid prev prev_n a u tm l idx HS) as (g' & st' & prev' & prev_n' & -> & HS' & E).
    { intros ->. apply (H1 (None, u, tm)); [set_solver|done]. }
    { intros b ->. apply (H2 (Some b, u, tm)); [set_solver|done]. }
    destruct (IH (S idx) g' st' rootid prev' prev_n' HS') as (g2 & st2 & Hd & HI & Hl & E2).
    { intros e He. apply H1. set_solver. }
    { intros e b He. apply H2. set_solver. }
    exists g2, st2. split_and!; [done|done|done|]. by rewrite E2, E.
Qed.

(** Closing the spine. *)
Fixpoint zplug (x : it) (up : list zframe) : it :=
  match up with [] => x | f :: up => zplug (fclose (faddc x f)) up end.
Lemma zplug_er up : forall x, er (zplug x up) = plug (er x) (map erf up).
Proof. induction up as [|f up IH]; intros x; cbn [zplug map plug]; [done|]. by rewrite IH, erf_close, erf_addc. Qed.
Lemma Inv_laid_up up : forall g f, Inv g (f :: up) [] ->
  laid_out g (zplug (fclose f) up) /\ Some (iid (zplug (fclose f) up)) = last (map fid (f :: up)).
Proof.
  induction up as [|h up IH]; intros g f HI.
  - destruct HI as [G (S1 & S2 & S3 & S4) Hnd Hall Hprim]. split; [|done]. simpl.
    assert (E : zids [f] ++ [] = ids (fclose f)) by (rewrite zids_cons; simpl; by rewrite !app_nil_r). rewrite E in *. constructor; try done.
    + by constructor.
    + intros n. apply Hall.
  - apply Inv_pop in HI. destruct (IH g _ HI) as [H1 H2]. split; [done|]. cbn [zplug]. rewrite H2. done.
Qed.
Lemma Inv_laid g st rootid :
  Inv g st [] -> last (map fid st) = Some rootid ->
  exists x, laid_out g x /\ iid x = rootid /\ er x = pfinish (map erf st).
Proof.
  intros HI Hl. destruct st as [|f up]; [by destruct (i_st _ _ _ HI)|].
  destruct (Inv_laid_up up g f HI) as [H1 H2]. exists (zplug (fclose f) up). split_and!; [done| |].
  - rewrite Hl in H2. by injection H2.
  - rewrite zplug_er. done.
Qed.

(** *** [decode] *)
Definition decoded (enc : abs_enc) (terms : list terminal) : pt :=
  match zip enc terms with
  | [(None, u, tm)] => if decide (length terms = 1) then PL (put_chain u tm) else pfinish (foldl pstep [dummy] (zip enc terms))
  | l => pfinish (foldl pstep [dummy] l)
  end.
Lemma decode_spec enc terms :
  length terms <= length enc -> terms <> [] ->
  (forall a u, (Some a, u) ∈ take (length terms) enc -> 1 <= ab_common a) ->
  map t_span terms = map span_of (seq 0 (length terms)) ->
  exists t, EncModel.decode enc terms = Ret t /\ WF t /\ is_projective t = true /\ tr_nterm t = length terms /\
    (forall e, e ∈ edges t -> e_w e = Primary None) /\ exists r, Reads t r /\ forget r = decoded enc terms /\ leaves r = zip_with (fun e tm => put_chain e.2 tm) enc terms.
Proof.
  intros HL Hne Hpos Hsp. set (n := length terms) in *.
  assert (Hzl : length (zip enc terms) = n). { rewrite zip_with_length. fold n. lia. }
  assert (Hgen : forall x, forall g, laid_out g x -> pfull (er x) -> pleaves (er x) = map (fun e => put_chain e.1.2 e.2) (zip enc terms) ->
     er x = decoded enc terms -> 
     exists t, reset_nt_spans (mk_tree g n (iid x) 0) = Ret t /\ WF t /\ is_projective t = true /\ tr_nterm t = n /\
       (forall e, e ∈ edges t -> e_w e = Primary None) /\ exists r, Reads t r /\ forget r = decoded enc terms /\ leaves r = zip_with (fun e tm => put_chain e.2 tm) enc terms).
  { intros x g Hlo Hf Hlv Her. rewrite er_leaves in Hlv.
    assert (Hat : at_positions x n).
    { unfold at_positions. rewrite <- Hsp. rewrite <- (map_map snd t_span), Hlv, map_map.
      transitivity (map (fun e : option abs_anc * option str * terminal => t_span e.2) (zip enc terms)).
      - apply map_ext. intros [[? [?|]] ?]; done.
      - rewrite <- (map_map snd t_span). f_equal. apply snd_zip. done. }
    destruct (laid_tree g x n 0 Hlo (er_full x Hf) Hat) as (t & Ht & W & Hp & Hn & Hpe & r & Hr & Hfr).
    exists t. split_and!; try done. exists r. split_and!; [done|by rewrite Hfr|].
    rewrite <- leaves_forget, Hfr, er_leaves, Hlv. clear. revert terms.
    induction enc as [|e enc IH]; intros [|tm terms]; simpl; try done. f_equal. apply IH. }
  unfold EncModel.decode. fold n.
  destruct (add_node graph_empty (NT (nt_new DUMMY (span_of 0)))) as [g root] eqn:Ea.
  destruct (add_node_spec _ _ _ _ graph_empty_ok Ea) as (G & Hn & EN & EE).
  assert (HI0 : Inv g [(root, nt_new DUMMY (span_of 0), [])] []).
  { constructor; [done| | | |].
    - simpl. unfold fid, fnt. simpl. rewrite EN, lookup_insert, EE. done.
    - simpl. apply NoDup_singleton.
    - intros m. rewrite EN. simpl. rewrite elem_of_list_singleton. simpl. unfold fid. simpl. 
      destruct (decide (m = root)) as [->|Hne']; [rewrite lookup_insert; split; eauto|].
      rewrite lookup_insert_ne by done. rewrite lookup_empty. split; [intros [? ?]; done|done].
    - intros r. rewrite EE. simpl. intros Hr. by apply elem_of_nil in Hr. }
  assert (HS : spine_ok g [(root, nt_new DUMMY (span_of 0), [])] root None 0) by (split_and!; [done|done|done|by left]).
  assert (Hin : forall e, e ∈ zip enc terms -> e.1 ∈ take n enc).
  { intros e [i Hi]%elem_of_list_lookup. apply lookup_lt_Some in Hi as Hlt. apply lookup_zip_with_Some in Hi as (a & b & -> & Ha & Hb).
    apply elem_of_list_lookup. exists i. simpl. rewrite lookup_take; [done|lia]. }
  assert (Hcase : (exists u tm, zip enc terms = [(None, u, tm)]) \/ ~ exists u tm, zip enc terms = [(None, u, tm)]).
  { destruct (zip enc terms) as [|[[[?|] u] tm] [|e' l]]; try (right; intros (? & ? & ?); done). left. eauto. }
  destruct Hcase as [Hone|Hone].
  - destruct Hone as (u & tm & Hone). assert (n = 1) as Hn1 by (by rewrite <- Hzl, Hone).
    rewrite Hone. cbn [decode_loop].
    set (w := match u with Some c => node_insert_feat (T tm) unary_chain (Some c) | None => T tm end).
    assert (Hw : w = T (put_chain u tm)) by (unfold w; by destruct u). rewrite Hw. clear Hw w.
    destruct (add_node g (T (put_chain u tm))) as [g1 term] eqn:Ea1.
    destruct (add_node_spec _ _ _ _ G Ea1) as (G1 & Hn' & EN1 & EE1). rewrite Hn1. cbn [Nat.eqb].
    assert (Hrt : term <> root) by (intros ->; by rewrite EN, lookup_insert in Hn').
    destruct (remove_node_g_spec g1 root (NT (nt_new DUMMY (span_of 0))) G1) as (g2 & Hrm & G2 & EN2 & EE2).
    { rewrite EN1, lookup_insert_ne by done. by rewrite EN, lookup_insert. }
    rewrite Hrm. cbn [mbind outcome_bind]. rewrite <- Hn1.
    assert (EE2' : g_edges g2 = []) by (by rewrite EE2, EE1, EE).
    assert (HN2 : forall m, g_nodes g2 !! m = if decide (m = term) then Some (T (put_chain u tm)) else None).
    { intros m. rewrite EN2, EN1, EN. destruct (decide (m = term)) as [->|Hm].
      - rewrite lookup_delete_ne by done. by rewrite lookup_insert.
      - destruct (decide (m = root)) as [->|Hm']; [apply lookup_delete|].
        rewrite lookup_delete_ne by done. rewrite !lookup_insert_ne by done. apply lookup_empty. }
    apply (Hgen (IL term (put_chain u tm)) g2).
    + constructor; [done| |simpl; apply NoDup_singleton| |].
      * constructor; [rewrite HN2; by rewrite decide_True|]. by rewrite EE2'.
      * intros m. rewrite HN2. destruct (decide (m = term)) as [->|]; [simpl; set_solver|]. by intros [? ?].
      * intros r. rewrite EE2'. intros Hr. by apply elem_of_nil in Hr.
    + done.
    + by rewrite Hone.
    + unfold decoded. rewrite Hone. fold n. by rewrite decide_True.
  - destruct (decode_loop_spec n (zip enc terms) 0 g _ root None 0 HS) as (g' & st' & Hd & HI' & Hl' & Her').
    { intros e He He1 Hn1. apply Hone. destruct (zip enc terms) as [|e' l]; [by apply elem_of_nil in He|].
      destruct l; [|simpl in Hzl; lia]. apply elem_of_list_singleton in He as ->. destruct e' as [[? u] tm]. simpl in He1. subst. eauto. }
    { intros e b He Eb. apply Hin in He. destruct e as [[a u] tm]. simpl in *. subst. by apply (Hpos b u). }
    rewrite Hd. cbn [mbind outcome_bind].
    destruct (Inv_laid g' st' root HI' Hl') as (x & Hx & Hxi & Hxe). rewrite <- Hxi.
    change (map erf [(root, nt_new DUMMY (span_of 0), [])]) with [dummy] in Her'. rewrite Her' in Hxe.
    assert (Hzne : zip enc terms <> []). { intros E. rewrite E in Hzl. simpl in Hzl. subst n. by destruct terms. }
    assert (Hready : ready (foldl pstep [dummy] (zip enc terms))).
    { apply ready_steps; [repeat constructor|done|done]. }
    apply (Hgen x g' Hx).
    + rewrite Hxe. by apply finish_full.
    + rewrite Hxe, pleaves_finish by (intros E; by rewrite E in Hready; destruct Hready).
      rewrite sleaves_steps by done. done.
    + rewrite Hxe. unfold decoded. destruct (zip enc terms) as [|[[[?|] u] tm] [|e' l]]; try done.
      destruct Hone. eauto.
Qed.
