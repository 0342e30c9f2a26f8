(** Property C40: writing in the NEGRA format and reading back. *)
From Coq Require Import Lia.
From Verif Require Import NegraModel TreeSpec BaseProofs SpanProofs ShapeProofs GraphProofs SortProofs TreeOps Api
  RoseProofs PtbRound EqProofs NegraSpec NegraWrite NegraRead NegraWF NegraRound NegraRound2 NegraRound3 NegraRound4 IsoRose PropsTree PropsEq PropsPtb PropsNegra.

(** What is kept of a terminal and of a nonterminal. *)
Definition same_term (a b : terminal) : Prop :=
  t_form a = t_form b /\ t_pos a = t_pos b /\ t_lemma a = t_lemma b /\ t_span a = t_span b /\
  forall m, has_feat (t_feats a) (lit "morph") m <-> has_feat (t_feats b) (lit "morph") m.
Definition same_nt (a b : nonterminal) : Prop :=
  nt_label a = nt_label b /\ nt_span a = nt_span b /\
  forall m, has_feat (nt_feats a) (lit "node_annotation") m <-> has_feat (nt_feats b) (lit "node_annotation") m.
(** Sentence number and metadata of the root: [sid] is the number that was written for [t]. *)
Definition same_root (t t' : tree) (sid : str) : Prop :=
  exists a b, nodes t !! tr_root t = Some (NT a) /\ nodes t' !! tr_root t' = Some (NT b) /\
    has_feat (nt_feats b) (lit "sentence_id") (Some sid) /\
    forall m, has_feat (nt_feats a) (lit "metadata") m <-> has_feat (nt_feats b) (lit "metadata") m.

Lemma back_root t t' k meta M nt : nodes t !! tr_root t = Some (NT nt) ->
  has_feat (nt_feats nt) (lit "metadata") meta -> back t t' k meta M -> same_root t t' (print_nat k).
Proof.
  intros Hn Hm (_ & Hr & _ & _ & _ & _ & H & _). specialize (H _ _ Hr). rewrite Hn in H.
  destruct (nodes t' !! tr_root t') as [[b|]|] eqn:Eb; [|done|done]. rewrite decide_True in H by done. destruct H as [_ Hf].
  exists nt, b. split_and!; try done.
  - rewrite Hf. unfold has_feat. simpl. destruct meta; simpl; [rewrite lookup_insert_ne by done|]; by rewrite lookup_insert.
  - intros m. assert (Hb : has_feat (nt_feats b) (lit "metadata") meta).
    { rewrite Hf. unfold has_feat. destruct meta as [x|]; simpl; [by rewrite lookup_insert|]. by rewrite lookup_insert_ne. }
    split; intros E; [by rewrite (has_feat_fun _ _ _ _ E Hm)|by rewrite (has_feat_fun _ _ _ _ E Hb)].
Qed.

Lemma bind_is {A B} (m : outcome A) (x : A) (f : A -> outcome B) : m = Ret x -> (y ← m; f y) = f x.
Proof. by intros ->. Qed.
Lemma read_after (ls : list str) post xs : (exists pre eos, ls = pre ++ [eos] /\ is_eos eos) ->
  negra_read (map Some ls) = Ret xs -> negra_read (map Some (ls ++ post)) = (ys ← negra_read (map Some post); Ret (xs ++ ys)).
Proof.
  intros (pre & eos & -> & He) H. rewrite <- app_assoc. cbn [app]. rewrite map_app. cbn [map].
  rewrite C38_resync by done. rewrite map_app in H. cbn [map] in H.
  exact (bind_is _ _ _ H).
Qed.
Lemma read_blank post : negra_read (map Some ([] :: post)) = negra_read (map Some post).
Proof. apply (C38_outside [[]] (map Some post)). apply plain_all. by vm_compute. Qed.

Lemma read_text (ls : list str) s xs ys : (forall l, l ∈ ls ++ [[]] -> clean l) -> (exists pre eos, ls = pre ++ [eos] /\ is_eos eos) ->
  negra_read (map Some ls) = Ret xs -> negra_read (map Some (text_lines s)) = Ret ys ->
  negra_read (map Some (text_lines (unlines (ls ++ [[]]) ++ s))) = Ret (xs ++ ys).
Proof.
  intros Hcl He H1 H2. rewrite text_lines_app by done. rewrite <- app_assoc. cbn [app].
  refine (eq_trans (read_after ls ([] :: text_lines s) xs He H1) _).
  exact (bind_is _ _ _ (eq_trans (read_blank (text_lines s)) H2)).
Qed.
Lemma read_text1 (ls : list str) t : (forall l, l ∈ ls ++ [[]] -> clean l) -> (exists pre eos, ls = pre ++ [eos] /\ is_eos eos) ->
  negra_read (map Some ls) = Ret [Ok t] -> negra_read (map Some (text_lines (unlines (ls ++ [[]])))) = Ret [Ok t].
Proof. intros H1 H2 H3. rewrite <- (app_nil_r (unlines _)). by apply (read_text ls [] [Ok t] []). Qed.

(** A tree whose strings fit the format is written without failure, and reading the text gives one
    tree: with the same structure, labels, annotations, edge labels, word forms, tags, lemmas,
    morphology and spans, the sentence number that was written and the same metadata. *)
Theorem C40_roundtrip t c r : WF t -> writable t -> (N.of_nat c < usize_bound)%N -> Reads t r ->
  exists s c' sid t' r', negra_write c t = Ret (s, c') /\ negra_read (map Some (text_lines s)) = Ret [Ok t'] /\
    WF t' /\ Reads t' r' /\ rose_rel same_term same_nt eq r r' /\ sid_of t c sid c' /\ same_root t t' sid.
Proof.
  intros W A Hc D. destruct (negra_round t c W A Hc) as (ls & c' & k & meta & t' & M & H1 & H2 & H3 & He & (nt & Hnt & Hm) & H4 & HB).
  destruct (Reads_total t') as [r' D']; [apply HB|].
  exists (unlines (ls ++ [[]])), c', (print_nat k), t', r'. split_and!; try done.
  - by apply read_text1.
  - apply HB.
  - by eapply back_rose.
  - by eapply back_root.
Qed.

(** Writing trees one after the other; the sentence counter goes from one to the next. *)
Inductive written : nat -> list tree -> str -> nat -> Prop :=
  | written_nil c : written c [] [] c
  | written_cons c t ts s c' s' c'' : negra_write c t = Ret (s, c') -> written c' ts s' c'' -> written c (t :: ts) (s ++ s') c''.
Definition same_sentence (t t' : tree) : Prop :=
  WF t' /\ exists r r', Reads t r /\ Reads t' r' /\ rose_rel same_term same_nt eq r r'.

(** A file of such trees is written without failure and read back tree by tree, none lost, none
    added, none changed by its neighbours. *)
Theorem C40_stream ts : forall c, Forall (fun t => WF t /\ writable t) ts -> (N.of_nat (c + length ts) < usize_bound)%N ->
  exists s c' ts', written c ts s c' /\ negra_read (map Some (text_lines s)) = Ret (map Ok ts') /\ Forall2 same_sentence ts ts'.
Proof.
  induction ts as [|t ts IH]; intros c HF Hc.
  - exists [], c, []. split_and!; [constructor|done|constructor].
  - apply Forall_cons in HF as [[W A] HF]. simpl in Hc.
    destruct (negra_round t c W A) as (ls & c1 & k & meta & t' & M & H1 & H2 & H3 & He & (nt & Hnt & Hm) & H4 & HB); [lia|].
    assert (c1 <= c + 1) by (destruct H2 as (w & [v|] & _ & _ & H2); lia).
    destruct (IH c1 HF) as (s & c' & ts' & I1 & I2 & I3); [lia|].
    exists (unlines (ls ++ [[]]) ++ s), c', (t' :: ts'). split_and!.
    + by econstructor.
    + by apply (read_text ls s [Ok t'] (map Ok ts')).
    + constructor; [|done]. destruct (Reads_total t' ltac:(apply HB)) as [r' D']. destruct (Reads_total t W) as [r D].
      split; [apply HB|]. exists r, r'. split_and!; try done. by eapply back_rose.
Qed.

(** If the format also has a place for every feature of the tree, the tree read back is equal to
    the tree written in the sense of the program's own equality. *)
Definition only (f : option features) (keys : list str) : Prop :=
  forall key v, default ∅ f !! key = Some v -> key ∈ keys /\ is_Some v.
Definition fits (t : tree) : Prop :=
  (forall n tm, nodes t !! n = Some (T tm) -> only (t_feats tm) [lit "morph"]) /\
  (forall n nt, nodes t !! n = Some (NT nt) ->
    if decide (n = tr_root t) then only (nt_feats nt) [lit "sentence_id"; lit "metadata"] /\ ~ has_feat (nt_feats nt) (lit "sentence_id") None
    else only (nt_feats nt) [lit "node_annotation"]).
Lemma has_feat_val f key v : has_feat f key v <-> (match default ∅ f !! key with Some v => v | None => None end) = v.
Proof. unfold has_feat. destruct f; simpl; [done|]. by rewrite lookup_empty. Qed.
Lemma only_same f g keys : only f keys -> only g keys ->
  (forall key v, key ∈ keys -> has_feat f key v -> has_feat g key v) -> same_feats f g.
Proof.
  intros Hf Hg H. unfold same_feats. apply map_eq. intros key.
  destruct (default ∅ f !! key) as [v|] eqn:Ef.
  - destruct (Hf _ _ Ef) as [Hk [x ->]]. specialize (H key (Some x) Hk). rewrite !has_feat_val, Ef in H. specialize (H eq_refl).
    destruct (default ∅ g !! key); [congruence|done].
  - destruct (default ∅ g !! key) as [v|] eqn:Eg; [|done]. destruct (Hg _ _ Eg) as [Hk [x ->]].
    specialize (H key None Hk). rewrite !has_feat_val, Ef, Eg in H. by specialize (H eq_refl).
Qed.
Theorem C40_equal t c : WF t -> writable t -> fits t -> (N.of_nat c < usize_bound)%N ->
  exists s c' t', negra_write c t = Ret (s, c') /\ negra_read (map Some (text_lines s)) = Ret [Ok t'] /\ tree_eqb t t' = Ret true.
Proof.
  intros W A [F1 F2] Hc. destruct (negra_round t c W A Hc) as (ls & c' & k & meta & t' & M & H1 & H2 & H3 & He & (nt & Hnt & Hm) & H4 & HB).
  assert (W' : WF t') by apply HB.
  destruct (Reads_total t' W') as [r' D']. destruct (Reads_total t W) as [r D].
  exists (unlines (ls ++ [[]])), c', t'. split_and!; [done| |].
  { by apply read_text1. }
  destruct (C30_equality_partial t t' r r' W W' D D') as (b & -> & _ & Heq & _). f_equal. apply Heq. clear Heq.
  destruct HB as (_ & Hr & _ & _ & _ & _ & Hn & Hfw & Hbw).
  eapply (rose_rel_impl (fun a b => (term_back a b /\ only (t_feats a) [lit "morph"]) /\ t_span a = t_span b) term_same
    (fun a b => nt_same a b /\ nt_span a = nt_span b) nt_same eq eq).
  - intros a b0 (((E1 & E2 & E3 & m & E4 & E5) & E6) & E7). split; [done|]. split_and!; [done|done| |unfold t_idx; congruence].
    apply (only_same _ _ [lit "morph"]); [done| |].
    + rewrite E5. intros key v. unfold morph_feats. destruct m; simpl; [|by rewrite lookup_empty].
      rewrite lookup_insert_Some, lookup_empty. intros [[<- <-]|[_ ?]]; [|done]. split; [by apply elem_of_list_singleton|eauto].
    + intros key v ->%elem_of_list_singleton Hv. rewrite (has_feat_fun _ _ _ _ Hv E4), E5.
      unfold has_feat, morph_feats. destruct m; [by rewrite lookup_insert|done].
  - intros a b0 [? ?]. done.
  - done.
  - eapply (corr_rose t t' M); try done. intros x y HM. specialize (Hn x y HM).
    destruct (nodes t !! x) as [[a|a]|] eqn:Ea; [| |done]; destruct (nodes t' !! y) as [[c0|c0]|]; try done.
    + specialize (F2 _ _ Ea). case_decide as Ex.
      * destruct Hn as [E1 E2]. split; [done|]. destruct F2 as [F2 F3]. subst x. assert (nt = a) as -> by congruence.
        apply (only_same _ _ [lit "sentence_id"; lit "metadata"]); [done| |].
        -- rewrite E2. intros key v. destruct meta as [m|]; simpl.
           ++ rewrite !lookup_insert_Some, lookup_empty. intros [(<- & <-)|(_ & [(<- & <-)|(_ & ?)])]; [| |done].
              all: split; [|by eauto]; rewrite !elem_of_cons; auto.
           ++ rewrite !lookup_insert_Some, lookup_empty. intros [[<- <-]|[_ ?]]; [|done].
              split; [|by eauto]; rewrite !elem_of_cons; auto.
        -- intros key v Hk Hv. apply elem_of_cons in Hk as [->| ->%elem_of_list_singleton].
           ++ destruct H2 as (w & v' & Hw & Hv' & H2). assert (w = NT a) as -> by congruence. cbn [node_feats] in Hv'.
              rewrite (has_feat_fun _ _ _ _ Hv Hv') in *. destruct v' as [s|]; [|done]. destruct H2 as [<- _].
              rewrite E2. unfold has_feat. destruct meta; simpl; [rewrite lookup_insert_ne by done|]; by rewrite lookup_insert.
           ++ rewrite (has_feat_fun _ _ _ _ Hv Hm), E2. unfold has_feat.
              destruct meta as [z|]; simpl; [by rewrite lookup_insert|]. by rewrite lookup_insert_ne.
      * destruct Hn as (E1 & m & E4 & E5). split; [done|]. apply (only_same _ _ [lit "node_annotation"]); [done| |].
        -- rewrite E5. intros key v. unfold ann_feats. destruct m; simpl; [|by rewrite lookup_empty].
           rewrite lookup_insert_Some, lookup_empty. intros [[<- <-]|[_ ?]]; [|done]. split; [by apply elem_of_list_singleton|eauto].
        -- intros key v ->%elem_of_list_singleton Hv. rewrite (has_feat_fun _ _ _ _ Hv E4), E5.
           unfold has_feat, ann_feats. destruct m; [by rewrite lookup_insert|done].
    + destruct Hn as [E1 E2]. split_and!; [done|by eapply F1|done].
Qed.

(** Deciding [writable] on concrete trees. *)
Definition wordb (s : str) : bool := (negb (str_eqb s []) && forallb (fun c => negb (is_white c)) s)%bool.
Definition valueb (s : str) : bool := (wordb s && negb (str_eqb s (lit "--")))%bool.
Definition featv (f : option features) (k : str) : option str :=
  match f with Some m => match m !! k with Some v => v | None => None end | None => None end.
Definition allb {A} (o : option A) (f : A -> bool) : bool := match o with Some a => f a | None => true end.
Definition in_str (c : char) (s : str) : bool := existsb (N.eqb c) s.
Definition writableb (t : tree) : bool :=
  (match nodes t !! tr_root t with
   | Some (NT nt) =>
       str_eqb (nt_label nt) (lit "VROOT") && negb (someb (featv (nt_feats nt) (lit "node_annotation"))) &&
       allb (featv (nt_feats nt) (lit "sentence_id"))
         (fun s => match parse_usize s with Some k => str_eqb s (print_nat k) && N.ltb (N.of_nat k) usize_bound | None => false end) &&
       allb (featv (nt_feats nt) (lit "metadata")) (fun m => negb (str_eqb m []) && negb (in_str 10%N m) && str_eqb (trim m) m)
   | _ => false
   end &&
   forallb (fun kv =>
     match snd kv with
     | T tm => wordb (t_form tm) && negb (starts_with (lit "#") (t_form tm)) && wordb (t_pos tm) &&
               allb (t_lemma tm) valueb && allb (featv (t_feats tm) (lit "morph")) valueb
     | NT nt => Nat.eqb (fst kv) (tr_root t) ||
                wordb (nt_label nt) && negb (in_str 61%N (nt_label nt)) &&
                allb (featv (nt_feats nt) (lit "node_annotation"))
                  (fun s => forallb (fun c => negb (is_white c)) s && negb (in_str 61%N s))
     end) (map_to_list (nodes t)) &&
   forallb (fun r => if is_primary (e_w r) then allb (edge_label (e_w r)) valueb
                     else match nodes t !! e_src r with Some (NT _) => allb (edge_label (e_w r)) wordb | _ => false end) (edges t) &&
   N.ltb (N.of_nat (500 + size (nodes t))) usize_bound)%bool.
Lemma nowhite_ok s : forallb (fun c => negb (is_white c)) s = true -> Forall (fun c => is_white c = false) s.
Proof. rewrite forallb_forall. intros H. apply Forall_forall. intros c Hc%elem_of_list_In. by apply negb_true_iff, H. Qed.
Lemma wordb_ok s : wordb s = true -> word s.
Proof.
  intros [H1 H2]%andb_true_iff. split; [|by apply nowhite_ok]. intros ->. done.
Qed.
Lemma valueb_ok s : valueb s = true -> value s.
Proof. intros [H1 H2]%andb_true_iff. split; [by apply wordb_ok|]. intros ->. done. Qed.
Lemma in_str_ok c s : negb (in_str c s) = true -> c ∉ s.
Proof.
  intros H Hin. apply negb_true_iff, not_true_iff_false in H. apply H, existsb_exists. exists c.
  split; [by apply elem_of_list_In|apply N.eqb_refl].
Qed.
Lemma featv_ok f k v : has_feat f k v -> featv f k = v.
Proof. by intros ->. Qed.
Lemma writableb_ok t : writableb t = true -> writable t.
Proof.
  intros H. unfold writableb in H. repeat rewrite andb_true_iff in H. destruct H as [[[H1 H2] H3] H4].
  rewrite forallb_forall in H2, H3.
  destruct (nodes t !! tr_root t) as [[nt|]|] eqn:Er; [|done|done].
  repeat rewrite andb_true_iff in H1. destruct H1 as [[[R1 R2] R3] R4].
  split.
  - exists nt. split_and!.
    + done.
    + by apply str_eqb_iff.
    + unfold has_feat. fold (featv (nt_feats nt) (lit "node_annotation")).
      destruct (featv (nt_feats nt) (lit "node_annotation")) eqn:E; [done|]. unfold featv in E. done.
    + intros s Hs%featv_ok. rewrite Hs in R3. simpl in R3. destruct (parse_usize s) as [k|]; [|done].
      apply andb_true_iff in R3 as [E1 E2]. exists k. split; [by apply N.ltb_lt|by apply str_eqb_iff].
    + intros m Hm%featv_ok. rewrite Hm in R4. simpl in R4. repeat rewrite andb_true_iff in R4. destruct R4 as [[E1 E2] E3].
      split_and!; [|by apply in_str_ok|by apply str_eqb_iff]. intros ->. done.
  - intros n tm Hn. specialize (H2 (n, T tm)). cbn [fst snd] in H2.
    rewrite elem_of_list_In in H2 || idtac.
    assert (Hin : In (n, T tm) (map_to_list (nodes t))) by (by apply elem_of_list_In, elem_of_map_to_list).
    specialize (H2 Hin). repeat rewrite andb_true_iff in H2. destruct H2 as [[[[E1 E2] E3] E4] E5]. split_and!.
    + by apply wordb_ok.
    + intros s E. apply negb_true_iff, not_true_iff_false in E2. apply E2, is_prefix_spec. by exists s.
    + by apply wordb_ok.
    + intros s E. rewrite E in E4. by apply valueb_ok.
    + intros s E%featv_ok. rewrite E in E5. by apply valueb_ok.
  - intros n nt' Hn Hne. specialize (H2 (n, NT nt')). cbn [fst snd] in H2.
    assert (Hin : In (n, NT nt') (map_to_list (nodes t))) by (by apply elem_of_list_In, elem_of_map_to_list).
    specialize (H2 Hin). apply orb_true_iff in H2 as [E%Nat.eqb_eq|H2]; [done|].
    repeat rewrite andb_true_iff in H2. destruct H2 as [[E1 E2] E3]. apply wordb_ok in E1 as [E1 E1']. split_and!; [done|by apply in_str_ok|done|].
    intros s E%featv_ok. rewrite E in E3. simpl in E3. apply andb_true_iff in E3 as [E3 E4].
    split; [by apply nowhite_ok|by apply in_str_ok].
  - intros r s Hr%elem_of_list_In Hp Hl. apply H3 in Hr. rewrite Hp, Hl in Hr. by apply valueb_ok.
  - intros r Hr%elem_of_list_In Hp. apply H3 in Hr. rewrite Hp in Hr.
    destruct (nodes t !! e_src r) as [[nt'|]|]; [|done|done]. split; [eauto|]. intros s E. rewrite E in Hr. by apply wordb_ok.
  - by apply N.ltb_lt.
Qed.

(** A discontinuous tree with annotations, lemmas, morphology, edge labels and a secondary edge. *)
Definition ex_negra : tree :=
  build (lit "the") (lit "D")
    [OAbove 0 (lit "NP"); OPush (lit "dog") (lit "N"); OAbove 1 (lit "VROOT"); OPush (lit "barks") (lit "V");
     OPush (lit "loudly") (lit "ADV"); OAbove 4 (lit "VP"); OMove 0 2; OEditEdge 0 (Some (lit "HD"));
     OEditT 2 (lit "dog") (lit "N") (Some (lit "hund")) (Some {[ lit "morph" := Some (lit "nom.sg") ]});
     OEditNT 3 (lit "VROOT") (Some {[ lit "sentence_id" := Some (lit "17"); lit "metadata" := Some (lit "a b") ]});
     OEditNT 1 (lit "NP") (Some {[ lit "node_annotation" := Some (lit "subj") ]}); OAddSec 1 4 (Some (lit "X"))].
Lemma ex_negra_ok : WF ex_negra /\ writable ex_negra.
Proof. split; [apply build_WF|apply writableb_ok; by vm_compute]. Qed.
Example C40_ex : WF ex_negra /\ writable ex_negra /\ Reads ex_negra (rose_of ex_negra) /\ is_projective ex_negra = false /\
  match negra_write 3 ex_negra with Ret (s, c') => c' = 3 /\ length (text_lines s) = 9 | _ => False end.
Proof.
  split; [apply ex_negra_ok|]. split; [apply ex_negra_ok|]. split; [apply rose_of_ok, ex_negra_ok|]. by vm_compute.
Qed.

(** Two copies of the tree in a file, with different sentence numbers. *)
Example C40_stream_ex : Forall (fun t => WF t /\ writable t) [ex_negra; ex_negra] /\ (N.of_nat (3 + 2) < usize_bound)%N.
Proof. split; [|done]. apply Forall_cons. split; [apply ex_negra_ok|]. apply Forall_cons. split; [apply ex_negra_ok|apply Forall_nil_2]. Qed.

Definition onlyb (f : option features) (keys : list str) : bool :=
  forallb (fun kv => (existsb (str_eqb (fst kv)) keys && someb (snd kv))%bool) (map_to_list (default ∅ f)).
Lemma onlyb_ok f keys : onlyb f keys = true -> only f keys.
Proof.
  unfold onlyb. rewrite forallb_forall. intros H key v Hv. specialize (H (key, v)). cbn [fst snd] in H.
  rewrite <- elem_of_list_In, elem_of_map_to_list, andb_true_iff, existsb_exists in H. destruct (H Hv) as [(x & Hx & E%str_eqb_iff) Hs].
  split; [by rewrite E; apply elem_of_list_In|by apply someb_spec].
Qed.
Definition fitsb (t : tree) : bool :=
  forallb (fun kv => match snd kv with
    | T tm => onlyb (t_feats tm) [lit "morph"]
    | NT nt => if decide (fst kv = tr_root t)
               then onlyb (nt_feats nt) [lit "sentence_id"; lit "metadata"] && someb (featv (nt_feats nt) (lit "sentence_id"))
               else onlyb (nt_feats nt) [lit "node_annotation"]
    end) (map_to_list (nodes t)).
Lemma fitsb_ok t : fitsb t = true -> fits t.
Proof.
  unfold fitsb. rewrite forallb_forall. intros H. split.
  - intros n tm Hn. specialize (H (n, T tm)). rewrite <- elem_of_list_In, elem_of_map_to_list in H. by apply onlyb_ok, H.
  - intros n nt Hn. specialize (H (n, NT nt)). rewrite <- elem_of_list_In, elem_of_map_to_list in H. specialize (H Hn).
    cbn [fst snd] in H. destruct (decide (n = tr_root t)); [|by apply onlyb_ok].
    apply andb_true_iff in H as [H1 H2]. split; [by apply onlyb_ok|]. intros E%featv_ok. by rewrite E in H2.
Qed.
Example C40_equal_ex : WF ex_negra /\ writable ex_negra /\ fits ex_negra.
Proof. split; [apply ex_negra_ok|]. split; [apply ex_negra_ok|apply fitsb_ok; by vm_compute]. Qed.

(** The conditions are needed. *)
Definition ex_guard (word root : string) (sid : string) : tree :=
  build (lit "the") (lit "D")
    [OAbove 0 (lit "NP"); OPush (lit word) (lit "N"); OAbove 1 (lit root); OPush (lit "barks") (lit "V");
     OEditNT 3 (lit root) (Some {[ lit "sentence_id" := Some (lit sid) ]})].
Lemma ex_guard_WF w r s : WF (ex_guard w r s).
Proof. apply build_WF. Qed.
Definition rejected (n : nat) (o : outcome (str * nat)) : bool :=
  match o with
  | Ret (s, _) => match negra_read (map Some (text_lines s)) with
      | Ret rs => Nat.eqb (length rs) n && forallb (fun r => match r with Err => true | Ok _ => false end) rs
      | _ => false
      end
  | _ => false
  end.
Lemma rejected_ok n t : rejected n (negra_write 1 t) = true ->
  exists s c', negra_write 1 t = Ret (s, c') /\ negra_read (map Some (text_lines s)) = Ret (replicate n Err).
Proof.
  destruct (negra_write 1 t) as [[s c']| |]; [|done|done]. simpl. intros H. exists s, c'. split; [done|].
  destruct (negra_read (map Some (text_lines s))) as [rs| |]; [|done|done]. f_equal.
  apply andb_true_iff in H as [<-%Nat.eqb_eq H2]. clear c'. induction rs as [|[?|] rs IH]; [done|done|]. simpl. f_equal. by apply IH.
Qed.
(** A word that starts with a hash sign is taken for a nonterminal: the sentence is lost. *)
Theorem C40_hash_refuted : exists t s c' tm n, WF t /\ nodes t !! n = Some (T tm) /\ word (t_form tm) /\ t_form tm = lit "#1" /\
  negra_write 1 t = Ret (s, c') /\ negra_read (map Some (text_lines s)) = Ret [Err; Err].
Proof.
  destruct (rejected_ok 2 (ex_guard "#1" "VROOT" "17")) as (s & c' & H1 & H2); [by vm_compute|].
  exists (ex_guard "#1" "VROOT" "17"), s, c', (term_new (lit "#1") (lit "N") 1), 2.
  split; [apply ex_guard_WF|]. split; [by vm_compute|]. split; [apply wordb_ok; by vm_compute|]. split; [done|]. split; [exact H1|exact H2].
Qed.
(** A sentence number with a leading zero is written as it is and refused by the reader, which
    compares it with the printed number. *)
Theorem C40_number_refuted : exists t s c', t = ex_guard "dog" "VROOT" "03" /\ WF t /\
  negra_write 1 t = Ret (s, c') /\ negra_read (map Some (text_lines s)) = Ret [Err].
Proof.
  destruct (rejected_ok 1 (ex_guard "dog" "VROOT" "03")) as (s & c' & H1 & H2); [by vm_compute|].
  exists (ex_guard "dog" "VROOT" "03"), s, c'. split; [reflexivity|]. split; [apply ex_guard_WF|]. split; [exact H1|exact H2].
Qed.
Definition root_is (t : tree) (l : str) : bool :=
  match nodes t !! tr_root t with Some (NT a) => str_eqb (nt_label a) l | _ => false end.
Lemma root_is_ok t l : root_is t l = true -> exists a, nodes t !! tr_root t = Some (NT a) /\ nt_label a = l.
Proof. unfold root_is. destruct (nodes t !! tr_root t) as [[a|]|]; [|done|done]. intros H%str_eqb_iff. eauto. Qed.
Lemma root_gen t l : match negra_write 1 t with Ret (s, _) => (one_tree (text_lines s) && root_is (the_tree (text_lines s)) l)%bool | _ => false end = true ->
  exists s c' t' b, negra_write 1 t = Ret (s, c') /\ negra_read (map Some (text_lines s)) = Ret [Ok t'] /\
    nodes t' !! tr_root t' = Some (NT b) /\ nt_label b = l.
Proof.
  destruct (negra_write 1 t) as [[s c']| |]; [|done|done]. intros [H1 (b & H2 & H3)%root_is_ok]%andb_true_iff.
  exists s, c', (the_tree (text_lines s)), b. split; [done|]. split; [by apply one_tree_spec|done].
Qed.
(** The label of the root is not written: it is always read back as [VROOT]. *)
Theorem C40_root_refuted : exists t s c' t' a b, WF t /\ nodes t !! tr_root t = Some (NT a) /\ nt_label a = lit "S" /\
  negra_write 1 t = Ret (s, c') /\ negra_read (map Some (text_lines s)) = Ret [Ok t'] /\
  nodes t' !! tr_root t' = Some (NT b) /\ nt_label b = lit "VROOT".
Proof.
  destruct (root_is_ok (ex_guard "dog" "S" "3") (lit "S")) as (a & A1 & A2); [by vm_compute|].
  destruct (root_gen (ex_guard "dog" "S" "3") (lit "VROOT")) as (s & c' & t' & b & H1 & H2 & H3 & H4); [by vm_compute|].
  exists (ex_guard "dog" "S" "3"), s, c', t', a, b.
  split; [apply ex_guard_WF|]. split; [exact A1|]. split; [exact A2|]. split; [exact H1|]. split; [exact H2|]. split; [exact H3|exact H4].
Qed.
