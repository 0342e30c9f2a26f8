(** C58: reading sentences with arbitrary tags, as a tagger produces them. *)
From Coq Require Import Lia ZArith.
From Verif Require Import ConllModel PtbModel TreeSpec RoseSpec EncSpec BaseProofs ShapeProofs EqProofs SpanProofs FeatProofs GraphProofs SortProofs EditProofs CollapseProofs RoseProofs TreeOps EncConv EncTree EncTree2 DecPure ItProofs DecGraph ExpProofs RestoreProofs ConllProofs
  PtbPrint PropsEnc PropsDec Ordered.

(** ** Specification *)
(** The text stored under [key], with the label part before ['~'] and the chain after it. *)
Definition tag_parts (key : str) (k : token) (a : str) (chain : option str) : Prop :=
  exists f v rest : str, k_feats k = Some f /\ feats_as_map f !! key = Some (Some v) /\ v = a ++ rest /\ tilde ∉ a /\
    ((rest = [] /\ chain = None) \/
     exists c more : str, rest = tilde :: c ++ more /\ tilde ∉ c /\ (more = [] \/ exists m, more = tilde :: m) /\
       chain = (if decide (c = []) then None else Some c)).
(** [LABEL+NUMBER]; whatever follows a second ['+'] is ignored. *)
Definition numbered_tag (s label number : str) : Prop :=
  exists more, s = label ++ plus_sign :: number ++ more /\ plus_sign ∉ label /\ plus_sign ∉ number /\
    (more = [] \/ exists m, more = plus_sign :: m).
Definition abs_tag (s : str) (x : option abs_anc) : Prop :=
  (s = lit "NONE" /\ x = None) \/
  (s <> lit "NONE" /\ exists label number d, numbered_tag s label number /\ parse_usize number = Some d /\ x = Some (mk_abs d label)).
Definition rel_tag (s : str) (x : option rel_anc) : Prop :=
  (s = lit "NONE" /\ x = None) \/
  (s <> lit "NONE" /\ s <> [] /\ plus_sign ∉ s /\ x = Some (RRoot s)) \/
  (s <> lit "NONE" /\ exists label number d, label <> [] /\ numbered_tag s label number /\ parse_isize number = Some d /\ x = Some (RRegular d label)).
(** One token and its entry. *)
Definition abs_entry (k : token) (e : option abs_anc * option str) : Prop :=
  exists a, tag_parts (lit "abs_ancestor") k a e.2 /\ abs_tag a e.1.
Definition rel_entry (k : token) (e : option rel_anc * option str) : Prop :=
  exists a, tag_parts (lit "rel_ancestor") k a e.2 /\ rel_tag a e.1.
(** The words of the sentence: position, form and tag (["_"] if there is none). *)
Definition words_of (l : list token) : list (str * str * span) :=
  imap (fun i k => (k_form k, default (lit "_") (k_pos k), span_of i)) l.

(** ** Splitting *)
Lemma split_cut c s : (c ∉ s /\ split_char c s = [s]) \/
  exists a b, s = a ++ c :: b /\ c ∉ a /\ split_char c s = a :: split_char c b.
Proof.
  destruct (decide (c ∈ s)) as [H|H].
  - right. apply elem_of_list_split_l in H as (a & b & -> & Ha). exists a, b. split_and!; try done. by apply split_char_app.
  - left. split; [done|]. by apply split_char_none.
Qed.
Lemma split_first c b : exists p ps more, split_char c b = p :: ps /\ b = p ++ more /\ c ∉ p /\ (more = [] \/ exists m, more = c :: m).
Proof.
  destruct (split_cut c b) as [[H ->]|(a & d & -> & H & ->)].
  - exists b, [], []. rewrite app_nil_r. split_and!; try done. by left.
  - eexists a, _, (c :: d). split_and!; try done. right. by exists d.
Qed.
Lemma split_first_eq c p more : c ∉ p -> (more = [] \/ exists m, more = c :: m) -> exists ps, split_char c (p ++ more) = p :: ps.
Proof.
  intros H [-> | [m ->]].
  - rewrite app_nil_r, split_char_none by done. by exists [].
  - rewrite split_char_app by done. by eexists.
Qed.
Lemma str_eqb_dec a b : str_eqb a b = if decide (a = b) then true else false.
Proof. destruct (decide (a = b)) as [E|E]; [by apply str_eqb_iff|]. destruct (str_eqb a b) eqn:H; [|done]. by apply str_eqb_iff in H. Qed.
Lemma read_tag_iff {A} key (tf : str -> result A) k x chain :
  read_tag key tf k = Ok (x, chain) <->
  exists a, tag_parts key k a chain /\ ((a = lit "NONE" /\ x = None) \/ (a <> lit "NONE" /\ exists y, tf a = Ok y /\ x = Some y)).
Proof.
  unfold read_tag, tag_parts. split.
  - destruct (k_feats k) as [f|]; [|done]. destruct (feats_as_map f !! key) as [[v|]|] eqn:EF; try done.
    intros H. destruct (split_cut tilde v) as [[Hv E]|(a & b & -> & Ha & E)]; rewrite E in H.
    + exists v. split. { exists f, v, []. rewrite app_nil_r. split_and!; try done. left. split; [done|]. rewrite str_eqb_dec in H. destruct (decide _); [by simplify_eq|]. destruct (tf v); by simplify_eq. }
      rewrite str_eqb_dec in H. destruct (decide _); [left; by simplify_eq|]. right. split; [done|]. destruct (tf v) as [y|]; [|done]. exists y. by simplify_eq.
    + destruct (split_first tilde b) as (c & ps & more & E2 & -> & Hc & Hm). rewrite E2 in H. cbn iota in H.
      rewrite !str_eqb_dec in H. exists a. split.
      * exists f, (a ++ tilde :: c ++ more), (tilde :: c ++ more). split_and!; try done. right. exists c, more. split_and!; try done.
        repeat case_decide; try destruct (tf a); by simplify_eq.
      * case_decide; [left; by simplify_eq|]. right. split; [done|]. destruct (tf a) as [y|]; [|done]. exists y. by simplify_eq.
  - intros (a & (f & v & rest & -> & -> & -> & Ha & HR) & HX).
    assert (exists ps, split_char tilde (a ++ rest) = a :: ps /\
      chain = match ps with c :: _ => if str_eqb c [] then None else Some c | [] => None end) as (ps & -> & ->).
    { destruct HR as [[-> ->]|(c & more & -> & Hc & Hm & ->)].
      - exists []. split; [|done]. rewrite app_nil_r. by apply split_char_none.
      - rewrite split_char_app by done. destruct (split_first_eq tilde c more Hc Hm) as [ps ->].
        eexists. split; [done|]. cbn iota. rewrite str_eqb_dec. repeat case_decide; done. }
    rewrite str_eqb_dec. destruct HX as [[-> ->]|(Hn & y & Hy & ->)].
    + by rewrite decide_True.
    + rewrite decide_False by done. by rewrite Hy.
Qed.
Lemma numbered_iff s label number : numbered_tag s label number <-> exists ps, split_char plus_sign s = label :: number :: ps.
Proof.
  unfold numbered_tag. split.
  - intros (more & -> & H1 & H2 & H3). rewrite split_char_app by done. destruct (split_first_eq plus_sign number more H2 H3) as [ps ->]. by eexists.
  - intros [ps E]. destruct (split_cut plus_sign s) as [[Hv E2]|(a & b & -> & Ha & E2)]; rewrite E2 in E; [done|].
    destruct (split_first plus_sign b) as (c & qs & more & E3 & -> & Hc & Hm). rewrite E3 in E. simplify_eq. eauto.
Qed.
Lemma abs_try_iff s a : abs_try_from s = Ok a <-> exists label number d, numbered_tag s label number /\ parse_usize number = Some d /\ a = mk_abs d label.
Proof.
  unfold abs_try_from. split.
  - intros H. destruct (split_char plus_sign s) as [|l [|o ps]] eqn:E; try done. destruct (parse_usize o) as [d|] eqn:Ed; [|done].
    exists l, o, d. split_and!; try done; [apply numbered_iff; eauto|by simplify_eq].
  - intros (l & o & d & [ps ->]%numbered_iff & Hd & ->). by rewrite Hd.
Qed.
Lemma rel_try_iff s a : rel_try_from s = Ok a <-> (s <> [] /\ plus_sign ∉ s /\ a = RRoot s) \/
  exists label number d, label <> [] /\ numbered_tag s label number /\ parse_isize number = Some d /\ a = RRegular d label.
Proof.
  unfold rel_try_from. split.
  - intros H. destruct (split_cut plus_sign s) as [[Hv E]|(l & b & -> & Ha & E)]; rewrite E in H.
    + left. destruct s; [done|]. simplify_eq. done.
    + right. destruct (split_first plus_sign b) as (c & qs & more & E3 & -> & Hc & Hm). rewrite E3 in H. destruct l as [|x l]; [done|].
      destruct (parse_isize c) as [d|] eqn:Ed; [|done]. simplify_eq. exists (x :: l), c, d. split_and!; try done.
      exists more. split_and!; done.
  - intros [(H1 & H2 & ->)|(l & o & d & Hl & [ps ->]%numbered_iff & Hd & ->)].
    + rewrite split_char_none by done. by destruct s.
    + destruct l; [done|]. by rewrite Hd.
Qed.
Lemma read_abs_iff k e : read_tag ABS_KEY abs_try_from k = Ok e <-> abs_entry k e.
Proof.
  destruct e as [x chain]. rewrite read_tag_iff. unfold abs_entry, abs_tag. change ABS_KEY with (lit "abs_ancestor"). simpl.
  split; intros (a & Hp & H); exists a; (split; [done|]); (destruct H as [H|[Hn H]]; [by left|right; split; [done|]]).
  - destruct H as (y & (l & o & d & H1 & H2 & ->)%abs_try_iff & ->). eauto 8.
  - destruct H as (l & o & d & H1 & H2 & ->). exists (mk_abs d l). split; [|done]. apply abs_try_iff. eauto 8.
Qed.
Lemma read_rel_iff k e : read_tag REL_KEY rel_try_from k = Ok e <-> rel_entry k e.
Proof.
  destruct e as [x chain]. rewrite read_tag_iff. unfold rel_entry, rel_tag. change REL_KEY with (lit "rel_ancestor"). simpl.
  split; intros (a & Hp & H); exists a; (split; [done|]).
  - destruct H as [H|(Hn & y & [(H1 & H2 & ->)|(l & o & d & H0 & H1 & H2 & ->)]%rel_try_iff & ->)]; [by left| |].
    + right. by left.
    + right. right. split; [done|]. eauto 8.
  - destruct H as [H|[(Hn & H1 & H2 & ->)|(Hn & l & o & d & H0 & H1 & H2 & ->)]]; [by left| |]; right; (split; [done|]); eexists; (split; [|done]); apply rel_try_iff.
    + by left.
    + right. eauto 8.
Qed.
Lemma read_tokens_err {A} key (tf : str -> result A) l : forall idx,
  (exists e terms, read_tokens key tf idx l = Ok (e, terms) /\ Forall2 (fun k x => read_tag key tf k = Ok x) l e) \/
  (read_tokens key tf idx l = Err /\ exists k, k ∈ l /\ read_tag key tf k = Err).
Proof.
  induction l as [|k l IH]; intros idx; simpl; [left; by exists [], []|].
  destruct (read_tag key tf k) as [x|] eqn:E.
  - destruct (IH (S idx)) as [(e & terms & -> & HF)|(-> & k' & Hk & He)].
    + left. eexists _, _. split; [done|]. by constructor.
    + right. split; [done|]. exists k'. split; [set_solver|done].
  - right. split; [done|]. exists k. split; [set_solver|done].
Qed.

(** ** Chain features of a decoded tree have a value *)
Definition cgood (f : option features) : Prop := default ∅ f !! unary_chain <> Some None.
Fixpoint pgood (x : pt) : Prop :=
  match x with PL tm => cgood (t_feats tm) | PN _ f cs => cgood f /\ foldr (fun c Q => pgood c /\ Q) True cs end.
Lemma pgood_PN l f cs : pgood (PN l f cs) <-> cgood f /\ Forall pgood cs.
Proof.
  simpl. split; intros [H1 H2]; split; try done; clear H1; induction cs as [|c cs IH]; simpl in *.
  - constructor.
  - constructor; naive_solver.
  - done.
  - inversion H2; subst. naive_solver.
Qed.
Definition fgood (f : pframe) : Prop := cgood f.1.2 /\ Forall pgood f.2.
Lemma addc_good x f : pgood x -> fgood f -> fgood (addc x f).
Proof. intros Hx [H1 H2]. split; [done|]. simpl. apply Forall_app. split; [done|]. by constructor. Qed.
Lemma pclose_good f : fgood f -> pgood (pclose f).
Proof. intros H. by apply pgood_PN. Qed.
Lemma padd_good x st : pgood x -> Forall fgood st -> Forall fgood (padd x st).
Proof. intros Hx H. destruct H; simpl; [done|]. constructor; [by apply addc_good|done]. Qed.
Lemma pops_good k : forall st, Forall fgood st -> Forall fgood (pops k st).
Proof.
  induction k as [|k IH]; intros [|f [|g st]] H; try done. cbn [pops]. apply IH.
  apply Forall_cons in H as [H1 H]. apply Forall_cons in H as [H2 H]. constructor; [|done]. apply addc_good; [by apply pclose_good|done].
Qed.
Lemma prelabel_good s st : Forall fgood st -> Forall fgood (prelabel s st).
Proof.
  intros H. destruct H as [|f st [H1 H2] H]; simpl; [done|]. constructor; [|done]. unfold plabel.
  destruct (rsplit_us s) as [[c l]|]; split; try done. simpl. unfold cgood. simpl. change unary_chain with (lit "unary_chain"). by rewrite lookup_insert.
Qed.
Lemma attach_good x a st : pgood x -> Forall fgood st -> Forall fgood (attach x a st).
Proof.
  intros Hx H. destruct a as [a|]; simpl; [|by apply padd_good]. destruct (decide _).
  - by apply prelabel_good, pops_good, padd_good.
  - apply padd_good; [done|]. apply prelabel_good, Forall_app. split; [|done]. apply Forall_replicate. split; [done|constructor].
Qed.
Lemma plug_good up : forall x, pgood x -> Forall fgood up -> pgood (plug x up).
Proof. induction up as [|f up IH]; intros x Hx H; simpl; [done|]. apply Forall_cons in H as [H1 H]. apply IH; [|done]. by apply pclose_good, addc_good. Qed.
Lemma pfinish_good st : Forall fgood st -> pgood (pfinish st).
Proof. intros H. destruct H; simpl; [done|]. apply plug_good; [by apply pclose_good|done]. Qed.
Lemma put_chain_good u tm : t_feats tm = None -> cgood (t_feats (put_chain u tm)).
Proof.
  intros E. destruct u as [c|]; simpl; unfold cgood; rewrite E; simpl; [|done].
  change unary_chain with (lit "unary_chain"). by rewrite lookup_insert.
Qed.
Lemma decoded_good enc terms : (forall tm, tm ∈ terms -> t_feats tm = None) -> pgood (decoded enc terms).
Proof.
  intros HT. assert (HG : forall l st, (forall e, e ∈ l -> t_feats e.2 = None) -> Forall fgood st -> Forall fgood (foldl pstep st l)).
  { induction l as [|e l IH]; intros st Hl Hst; simpl; [done|]. apply IH; [set_solver|]. apply attach_good; [|done].
    simpl. apply put_chain_good, Hl. set_solver. }
  assert (HZ : forall e, e ∈ zip enc terms -> t_feats e.2 = None).
  { intros [e tm] He. apply HT. by apply elem_of_zip_r in He. }
  assert (HD : Forall fgood [dummy]). { constructor; [split; [done|constructor]|constructor]. }
  unfold decoded. destruct (zip enc terms) as [|[[[a|] u] tm] [|e l]] eqn:E; try (apply pfinish_good, HG; done).
  destruct (decide _); [|apply pfinish_good, HG; done]. simpl. apply put_chain_good, (HZ (None, u, tm)). set_solver.
Qed.
Lemma good_feats r : pgood (forget r) -> forall w, w ∈ rnodes r -> chain_feat w <> Some None.
Proof.
  induction r as [tm|nt cs IH] using rose_ind'; intros Hg w Hw.
  - simpl in Hw. apply elem_of_list_singleton in Hw as ->. done.
  - cbn [forget] in Hg. apply pgood_PN in Hg as [H1 H2]. simpl in Hw. apply elem_of_cons in Hw as [-> | Hw]; [done|].
    apply elem_of_concat in Hw as (l & Hw & (c & -> & Hc)%elem_of_list_fmap).
    apply (proj1 (Forall_forall _ _) IH c); [done| |done]. apply (proj1 (Forall_forall _ _) H2). apply elem_of_list_fmap. by exists c.
Qed.

(** ** Decoding and restoring, for any labels *)
Fixpoint lleaves (x : ltree) : list (str * str * span) :=
  match x with LL f p s => [(f, p, s)] | LN _ cs => concat (map lleaves cs) end.
Lemma lleaves_wrapl ls : forall x, lleaves (wrapl ls x) = lleaves x.
Proof. unfold wrapl. induction ls as [|l ls IH]; intros x; simpl; [done|]. rewrite IH. simpl. apply app_nil_r. Qed.
Definition word3 (tm : terminal) : str * str * span := (t_form tm, t_pos tm, t_span tm).
Lemma concat_ext {A B C} (f : A -> list B) (g : A -> list C) (h : C -> B) cs :
  Forall (fun c => f c = map h (g c)) cs -> concat (map f cs) = map h (concat (map g cs)).
Proof. induction 1 as [|c cs H _ IH]; simpl; [done|]. by rewrite map_app, H, IH. Qed.
Lemma lleaves_shape r : lleaves (shape r) = map word3 (leaves r).
Proof.
  induction r as [tm|nt cs IH] using rose_ind'; [done|]. simpl. rewrite map_map. by apply (concat_ext (fun c => lleaves (shape c.2)) (fun c => leaves c.2)).
Qed.
Lemma lleaves_expand d r : lleaves (expand d r) = map word3 (leaves r).
Proof.
  induction r as [tm|nt cs IH] using rose_ind'; simpl; rewrite lleaves_wrapl; [done|]. simpl. rewrite map_map.
  by apply (concat_ext (fun c => lleaves (expand d c.2)) (fun c => leaves c.2)).
Qed.
Lemma word3_chains (e : abs_enc) : forall terms, length e = length terms -> map word3 (zip_with (fun (e : option abs_anc * option str) tm => put_chain e.2 tm) e terms) = map word3 terms.
Proof.
  induction e as [|[a u] e IH]; intros [|tm terms] H; try done. simpl. rewrite IH by (simpl in H; lia). f_equal. by destruct u.
Qed.
Lemma decode_restore_any e l :
  length e = length l -> l <> [] -> depths_pos e ->
  let terms := imap (fun i k => term_new (k_form k) (default (lit "_") (k_pos k)) (0 + i)) l in
  exists t r r1, decode_restore e terms = Ret (Ok t) /\ WF t /\ is_projective t = true /\ tr_nterm t = length l /\
    Reads t r /\ map word3 (leaves r) = words_of l /\
    forget r1 = decoded e terms /\ shape r = expand (lit "_") r1.
Proof.
  intros HL Hne HD terms.
  assert (HT : length terms = length l) by (unfold terms; by rewrite imap_length).
  assert (HW : map word3 terms = words_of l).
  { unfold words_of, terms. apply list_eq. intros i. rewrite list_lookup_fmap, !list_lookup_imap. by destruct (l !! i). }
  destruct (decode_spec e terms) as (t3 & Ht3 & W3 & Hp3 & Hn3 & _ & r3 & Hr3 & Hf & Hl).
  { lia. }
  { intros E. rewrite E in HT. by destruct l. }
  { intros a u Hin. apply (HD a u). eapply elem_of_take in Hin as (i & Hi & _). by eapply elem_of_list_lookup_2. }
  { apply list_eq. intros i. rewrite !list_lookup_fmap. unfold terms. rewrite list_lookup_imap, imap_length.
    destruct (l !! i) as [k|] eqn:E; simpl.
    - apply lookup_lt_Some in E as Hi. by rewrite lookup_seq_lt.
    - apply lookup_ge_None in E. by rewrite lookup_seq_ge. }
  destruct (restore_reads (lit "_") t3 r3 W3 Hp3) as (t4 & r4 & Ht4 & W4 & Hp4 & Hn4 & Hr4 & Hs4); [|done|].
  { intros n w Hn. apply (good_feats r3); [|apply (Reads_rnodes t3 r3 w W3 Hr3); eauto]. rewrite Hf. apply decoded_good.
    intros tm (i & Hi)%elem_of_list_lookup. unfold terms in Hi. rewrite list_lookup_imap in Hi. destruct (l !! i); [|done]. simpl in Hi. by simplify_eq. }
  exists t4, r4, r3. split_and!; try done.
  - unfold decode_restore. rewrite Ht3. cbn [mbind outcome_bind]. rewrite Ht4. done.
  - by rewrite Hn4, Hn3.
  - rewrite <- lleaves_shape, Hs4, lleaves_expand, Hl, word3_chains by lia. done.
Qed.

(** A depth of zero underflows. *)
Lemma descend_total g cur i k prev_n idx : descend_common g cur i k prev_n idx <> Diverge.
Proof.
  revert g cur i. induction k as [|k IH]; intros g cur i; simpl; [done|].
  match goal with |- context [match ?x with Some n => descend_common _ n _ _ _ _ | None => _ end] => destruct x end; [apply IH|].
  destruct (add_node g _) as [g1 n]. destruct (add_edge g1 cur n (Primary None)) as [[g2 e]| |] eqn:E; simpl; [apply IH|done|].
  unfold add_edge in E. destruct (_ && _)%bool; [destruct (g_efree g1); done|done].
Qed.
Lemma add_edge_total g a b w : add_edge g a b w <> Diverge.
Proof. unfold add_edge. destruct (_ && _)%bool; [destruct (g_efree g); done|done]. Qed.
Lemma decode_loop_zero nt : forall l idx g root prev prev_n,
  (forall e, e ∈ l -> e.1.1 = None -> nt <> 1) -> (exists e b, e ∈ l /\ e.1.1 = Some b /\ ab_common b = 0) ->
  decode_loop nt l idx g root prev prev_n = Panic.
Proof.
  induction l as [|[[a u] tm] l IH]; intros idx g root prev prev_n H1 (e & b & He & Hb & H0); [by apply elem_of_nil in He|].
  simpl. destruct (add_node g _) as [g1 term].
  assert (HX : decode_loop nt l = decode_loop nt l) by done. clear HX.
  destruct a as [a|].
  - destruct (descend_common g1 root 1 (ab_common a - 1) prev_n idx) as [[g2 cur]| |] eqn:E1; simpl; [|done|by apply descend_total in E1].
    destruct (g_nodes g2 !! cur) as [wc|]; simpl; [|done].
    assert (exists tg, (match prev with None => Ret cur | Some p => if Nat.ltb prev_n (ab_common a) then Ret cur else Ret p end) = Ret tg) as [tg ->].
    { destruct prev; [destruct (Nat.ltb _ _)|]; eauto. }
    simpl. destruct (add_edge _ tg term (Primary None)) as [[g3 e3]| |] eqn:E2; simpl; [|done|by apply add_edge_total in E2].
    unfold sub_chk. destruct (Nat.leb_spec 1 (ab_common a)) as [Hle|Hle]; simpl; [|done].
    apply IH; [intros e' He'; apply H1; set_solver|]. apply elem_of_cons in He as [-> |He]; [simpl in Hb; simplify_eq; lia|eauto].
  - destruct (Nat.eqb_spec nt 1) as [->|Hn]; [by destruct (H1 (None, u, tm) ltac:(set_solver) eq_refl)|].
    destruct (add_edge _ _ term (Primary None)) as [[g3 e3]| |] eqn:E2; simpl; [|done|by apply add_edge_total in E2].
    apply IH; [intros e' He'; apply H1; set_solver|]. apply elem_of_cons in He as [-> |He]; [done|eauto].
Qed.
Lemma decode_zero e terms : length e = length terms -> (exists b u, (Some b, u) ∈ e /\ ab_common b = 0) -> EncModel.decode e terms = Panic.
Proof.
  intros HL (b & u & Hb & H0). unfold EncModel.decode. destruct (add_node graph_empty _) as [g root].
  rewrite decode_loop_zero; [done| |].
  - intros [[a u'] tm] He Ha Hn. simpl in Ha. subst a. destruct e as [|e0 [|e1 e]]; simpl in HL; [by apply elem_of_nil in Hb| |lia].
    apply elem_of_list_singleton in Hb as <-. destruct terms as [|tm0 [|]]; try done. simpl in He. apply elem_of_list_singleton in He. done.
  - apply elem_of_list_lookup in Hb as [i Hi]. destruct (lookup_lt_is_Some_2 terms i) as [tm Htm]. { rewrite <- HL. by eapply lookup_lt_Some. }
    exists (Some b, u, tm), b. split_and!; [|done|done]. eapply elem_of_list_lookup_2. apply lookup_zip_with_Some. eexists _, _. split_and!; [|exact Hi|exact Htm]. done.
Qed.
Lemma depths_pos_dec e : depths_pos e \/ exists b u, (Some b, u) ∈ e /\ ab_common b = 0.
Proof.
  unfold depths_pos. induction e as [|[[b|] u] e IH].
  - left. intros a u H. by apply elem_of_nil in H.
  - destruct (decide (ab_common b = 0)) as [|Hb]; [right; exists b, u; split; [set_solver|done]|].
    destruct IH as [IH|(b' & u' & H1 & H2)]; [left|right; exists b', u'; split; [set_solver|done]].
    intros a u' [H|H]%elem_of_cons; [simplify_eq; lia|by eapply IH].
  - destruct IH as [IH|(b' & u' & H1 & H2)]; [left|right; exists b', u'; split; [set_solver|done]].
    intros a u' [H|H]%elem_of_cons; [done|by eapply IH].
Qed.

(** ** C58 *)
(** The tree [t] stands for the sentence [l] with entries [e]: it is well-formed, projective and has
    exactly the words of the sentence; its structure is that of the right-spine decoder with the
    chains put back. *)
Definition reads_sentence (l : list token) (e : abs_enc) (t : tree) : Prop :=
  WF t /\ is_projective t = true /\ tr_nterm t = length l /\
  exists r r1, Reads t r /\ map word3 (leaves r) = words_of l /\
    forget r1 = decoded e (imap (fun i k => term_new (k_form k) (default (lit "_") (k_pos k)) i) l) /\
    shape r = expand (lit "_") r1.
(** Absolute tags: fails iff a token has no readable tag; panics iff the sentence is empty or some
    depth is zero; otherwise delivers the tree. *)
Theorem C58_absolute l :
  ((exists k, k ∈ l /\ ~ exists e, abs_entry k e) -> from_conllx_absolute l = Ret Err) /\
  (forall e, Forall2 abs_entry l e -> l <> [] -> depths_pos e ->
     exists t, from_conllx_absolute l = Ret (Ok t) /\ reads_sentence l e t) /\
  (forall e, Forall2 abs_entry l e -> l = [] \/ ~ depths_pos e -> from_conllx_absolute l = Panic).
Proof.
  assert (HR : forall e, Forall2 abs_entry l e -> read_tokens ABS_KEY abs_try_from 0 l =
     Ok (e, imap (fun i k => term_new (k_form k) (default (lit "_") (k_pos k)) (0 + i)) l)).
  { intros e HF. apply read_tokens_ok. eapply Forall2_impl; [exact HF|]. intros k x. apply read_abs_iff. }
  split_and!.
  - intros (k & Hk & Hn). unfold from_conllx_absolute.
    destruct (read_tokens_err ABS_KEY abs_try_from l 0) as [(e & terms & E & HF)|[-> _]]; [|done].
    exfalso. apply elem_of_list_lookup in Hk as [i Hi]. destruct (Forall2_lookup_l _ _ _ _ _ HF Hi) as (x & _ & Hx).
    apply Hn. exists x. by apply read_abs_iff.
  - intros e HF Hne HD. unfold from_conllx_absolute. rewrite (HR e HF).
    destruct (decode_restore_any e l) as (t & r & r1 & H1 & H2 & H3 & H4 & H5); [by rewrite (Forall2_length _ _ _ HF)|done|done|].
    exists t. split; [done|]. split_and!; try done. by exists r, r1.
  - intros e HF [-> |HN].
    + apply Forall2_nil_inv_l in HF as ->. by vm_compute.
    + unfold from_conllx_absolute. rewrite (HR e HF). unfold decode_restore. rewrite decode_zero; [done| |].
      * rewrite imap_length. by rewrite (Forall2_length _ _ _ HF).
      * by destruct (depths_pos_dec e).
Qed.
Print Assumptions C58_absolute.
(** Relative tags: the depths are repaired, so only the empty sentence and sums of offsets beyond
    [isize] remain. *)
Theorem C58_relative_partial l :
  ((exists k, k ∈ l /\ ~ exists e, rel_entry k e) -> from_conllx_relative l = Ret Err) /\
  (forall e, Forall2 rel_entry l e -> l <> [] -> offsets_repr e ->
     exists t a, from_conllx_relative l = Ret (Ok t) /\ answers fixed e a /\ depths_pos a /\ reads_sentence l a t).
Proof.
  assert (HR : forall e, Forall2 rel_entry l e -> read_tokens REL_KEY rel_try_from 0 l =
     Ok (e, imap (fun i k => term_new (k_form k) (default (lit "_") (k_pos k)) (0 + i)) l)).
  { intros e HF. apply read_tokens_ok. eapply Forall2_impl; [exact HF|]. intros k x. apply read_rel_iff. }
  split.
  - intros (k & Hk & Hn). unfold from_conllx_relative.
    destruct (read_tokens_err REL_KEY rel_try_from l 0) as [(e & terms & E & HF)|[-> _]]; [|done].
    exfalso. apply elem_of_list_lookup in Hk as [i Hi]. destruct (Forall2_lookup_l _ _ _ _ _ HF Hi) as (x & _ & Hx).
    apply Hn. exists x. by apply read_rel_iff.
  - intros e HF Hne HO. unfold from_conllx_relative. rewrite (HR e HF).
    destruct (C44_fix_partial e HO) as (c & a & -> & Hu & HA & HD & _). cbn [mbind outcome_bind].
    unfold unwrap_or_fix in Hu. rewrite Hu. cbn [mbind outcome_bind].
    destruct (decode_restore_any a l) as (t & r & r1 & H1 & H2 & H3 & H4 & H5); [|done|done|].
    { destruct HA as [-> _]. by rewrite (Forall2_length _ _ _ HF). }
    exists t, a. do 3 (split; [done|]). split_and!; try done. by exists r, r1.
Qed.
Print Assumptions C58_relative_partial.

(** Tags that no encoder would produce: a jump to depth 3, then back to depth 2, and [NONE] in the middle. *)
Definition ex_tok (form tag : string) (key : string) : token :=
  mk_tok (lit form) None (Some (lit "P")) (Some (lit key ++ [58%N] ++ lit tag)).
Definition ex_abs : list token :=
  [ex_tok "a" "X_NP+3~CH" "abs_ancestor"; ex_tok "b" "NONE" "abs_ancestor"; ex_tok "c" "VP+2~" "abs_ancestor"; ex_tok "d" "S+1+junk" "abs_ancestor"].
Definition ex_rel : list token :=
  [ex_tok "a" "S" "rel_ancestor"; ex_tok "b" "NP+-4~CH" "rel_ancestor"; ex_tok "c" "VP+1" "rel_ancestor"; ex_tok "d" "NONE" "rel_ancestor"].
Fixpoint read_all {A} key (tf : str -> result A) (l : list token) : option (list (option A * option str)) :=
  match l with
  | [] => Some []
  | k :: l => match read_tag key tf k, read_all key tf l with Ok x, Some e => Some (x :: e) | _, _ => None end
  end.
Lemma read_all_ok {A} key (tf : str -> result A) (P : token -> option A * option str -> Prop) l :
  (forall k x, read_tag key tf k = Ok x -> P k x) -> forall e, read_all key tf l = Some e -> Forall2 P l e.
Proof.
  intros HP. induction l as [|k l IH]; intros e H; simpl in H; [simplify_eq; constructor|].
  destruct (read_tag key tf k) as [x|] eqn:E; [|done]. destruct (read_all key tf l) as [e'|]; [|done]. simplify_eq.
  constructor; [by apply HP|]. by apply IH.
Qed.
Definition positive (e : abs_enc) : bool := forallb (fun x => match x.1 with Some a => Nat.leb 1 (ab_common a) | None => true end) e.
Lemma positive_ok e : positive e = true -> depths_pos e.
Proof. unfold positive. rewrite forallb_forall. intros H a u Hin. apply elem_of_list_In, H in Hin. simpl in Hin. by apply Nat.leb_le. Qed.
Definition shown (m : outcome (result tree)) : outcome (result str) :=
  match m with Ret (Ok t) => tree_to_string Simple t | Ret Err => Ret Err | Panic => Panic | Diverge => Diverge end.
Example C58_absolute_ex : exists e, Forall2 abs_entry ex_abs e /\ depths_pos e /\ ex_abs <> [] /\
  shown (from_conllx_absolute ex_abs) = Ret (Ok (lit "(S (VP (X (NP (CH (P a)) (P b) (P c))) (P d)))")).
Proof.
  eexists. split; [eapply read_all_ok; [intros k x; apply read_abs_iff|vm_compute; reflexivity]|].
  split; [apply positive_ok; by vm_compute|]. split; [done|]. by vm_compute.
Qed.
Example C58_relative_ex : exists e, Forall2 rel_entry ex_rel e /\ offsets_repr e /\ ex_rel <> [] /\
  shown (from_conllx_relative ex_rel) = Ret (Ok (lit "(S (P a) (NP (CH (P b)) (VP (P c) (P d))))")).
Proof.
  eexists. split; [eapply read_all_ok; [intros k x; apply read_rel_iff|vm_compute; reflexivity]|].
  split; [|split; [done|by vm_compute]]. split; [|by vm_compute].
  intros o l u H. repeat (apply elem_of_cons in H as [H|H]; [simplify_eq; vm_compute; by intros ?|]). by apply elem_of_nil in H.
Qed.
(** A token without a tag, and tags that panic. *)
Example C58_err_ex : from_conllx_absolute [ex_tok "a" "S+1" "abs_ancestor"; ex_tok "b" "S+x" "abs_ancestor"] = Ret Err /\
  from_conllx_absolute [ex_tok "a" "S+0" "abs_ancestor"; ex_tok "b" "NONE" "abs_ancestor"] = Panic.
Proof. split; by vm_compute. Qed.
(** The bound on the offsets is needed: two offsets of 2^63 - 1 overflow. *)
Theorem C58_overflow_refuted : exists l e, l <> [] /\ Forall2 rel_entry l e /\ from_conllx_relative l = Panic.
Proof.
  set (l := [ex_tok "a" "S+9223372036854775807" "rel_ancestor"; ex_tok "b" "S+1" "rel_ancestor"]).
  set (e := [(Some (RRegular 9223372036854775807 (lit "S")), None); (Some (RRegular 1 (lit "S")), None)] : rel_enc).
  exists l, e. split; [done|].
  assert (HF : Forall2 (fun k x => read_tag REL_KEY rel_try_from k = Ok x) l e). { repeat constructor; by vm_compute. }
  split; [eapply Forall2_impl; [exact HF|]; intros k x; apply read_rel_iff|].
  unfold from_conllx_relative. rewrite (read_tokens_ok REL_KEY rel_try_from l e 0 HF).
  unfold try_from_relative, e. cbn [abs_from_rel]. reflexivity.
Qed.
Print Assumptions C58_overflow_refuted.
(** The claim that tagger output never panics is false: an empty sentence, or a depth of zero. *)
Theorem C58_no_panic_refuted : (from_conllx_absolute [] = Panic /\ from_conllx_relative [] = Panic) /\
  exists l e, l <> [] /\ Forall2 abs_entry l e /\ from_conllx_absolute l = Panic.
Proof.
  split; [split; by vm_compute|].
  exists [ex_tok "a" "S+0" "abs_ancestor"; ex_tok "b" "NONE" "abs_ancestor"]. eexists. split; [done|].
  split; [eapply read_all_ok; [intros k x; apply read_abs_iff|vm_compute; reflexivity]|]. by vm_compute.
Qed.
Print Assumptions C58_no_panic_refuted.
