(** Properties C31 to C37: bracketed trees. *)
From Coq Require Import Lia.
From Verif Require Import ModModel TreeSpec BaseProofs ShapeProofs GraphProofs SortProofs Api PropsTree RoseSpec RoseProofs EqProofs PtbSpec PtbProofs PtbBuild PtbPrint PtbRound PtbReader.

(** Example texts and trees. *)
Definition ex_text : str := lit "(S:-- (NP=X:ON (D:HD the)(N:-- dog)) (V:b barks))".
Definition ex_parsed (f : ptb_format) (s : str) : tree :=
  match string_to_tree f s with Ret (Ok t) => t | _ => tree_new [] [] end.
Definition ex_bracket : ast :=
  ANode (lit "S:--") [ANode (lit "NP=X:ON") [APre (lit "D:HD") (lit "the"); APre (lit "N:--") (lit "dog")];
                      APre (lit "V:b") (lit "barks")].
Lemma word_check s : (match s with [] => false | _ => true end && forallb is_char s)%bool = true -> word s.
Proof.
  intros [H1 H2]%andb_true_iff. split; [by destruct s|]. apply Forall_forall. intros c Hc.
  rewrite forallb_forall in H2. apply elem_of_list_In, H2 in Hc. unfold is_char, is_ws in Hc.
  apply negb_true_iff in Hc. rewrite !orb_false_iff, !N.eqb_neq in Hc. set_solver.
Qed.
Lemma ex_text_bracketed : bracketed ex_bracket ex_text.
Proof.
  destruct (p_tree_spec ex_text) as (r & E & H). apply H. by vm_compute in E; injection E as <-.
Qed.

(** ** C31 *)
(** For every text and format parsing terminates without a panic, and it succeeds exactly on the
    bracketed trees. *)
Theorem C31_language f s :
  exists r, string_to_tree f s = Ret r /\ ((exists t, r = Ok t) <-> exists a, bracketed a s).
Proof. destruct (string_to_tree_spec f s) as (r & H1 & _ & H2). eauto. Qed.
(** A text is the notation of at most one tree. *)
Theorem C31_unique a a' s : bracketed a s -> bracketed a' s -> a = a'.
Proof. apply bracketed_unique. Qed.
Example C31_ex :
  bracketed ex_bracket ex_text /\ ~ (exists a, bracketed a (lit "(S (NP)")) /\ ~ (exists a, bracketed a (lit "(S (D the) x)")).
Proof.
  split; [apply ex_text_bracketed|].
  split; intros [a Ha].
  - destruct (p_tree_spec (lit "(S (NP)")) as (r & E & H). apply H in Ha. vm_compute in E. congruence.
  - destruct (p_tree_spec (lit "(S (D the) x)")) as (r & E & H). apply H in Ha. vm_compute in E. congruence.
Qed.
Print Assumptions C31_language.
Print Assumptions C31_unique.

(** ** C32 *)
Lemma ast_rose_words f : forall a e r, ast_rose f a e r -> map t_form (leaves r) = words a.
Proof.
  induction a as [label form|label cs IH] using ast_ind'; intros e r H; inversion H as [? ? ? ? ? ? _ Hf|? ? ? ? ? ? ds _ _ _ HF]; subst; simpl; [done|].
  clear H. induction HF as [|c d cs ds Hcd HF IHF]; simpl; [done|].
  apply Forall_cons in IH as [IHc IH]. by rewrite map_app, (IHc _ _ Hcd), IHF.
Qed.
Theorem C32_parsed f s t :
  string_to_tree f s = Ret (Ok t) ->
  exists a edge r, bracketed a s /\ WF t /\ Reads t r /\ ast_rose f a edge r /\
    map t_form (leaves r) = words a /\ map t_idx (leaves r) = seq 0 (tr_nterm t) /\
    (forall n i j k, yields (nodes t) (edges t) n i -> yields (nodes t) (edges t) n k -> i < j < k ->
       yields (nodes t) (edges t) n j).
Proof.
  intros H. destruct (string_to_tree_spec f s) as (r & H1 & H2 & _). rewrite H1 in H. injection H as ->.
  destruct (H2 t eq_refl) as (a & Ha & W & Hp & edge & ro & D & HA & Hi).
  exists a, edge, ro. split_and!; try done; [by eapply ast_rose_words|].
  exact (proj1 (C09_projective t W) Hp).
Qed.
Example C32_ex : exists t, string_to_tree TueBa ex_text = Ret (Ok t) /\ tr_nterm t = 3.
Proof. eexists. split; [vm_compute; reflexivity|]. done. Qed.
Print Assumptions C32_parsed.

(** ** C33 - C35: writing and reading back *)

(** A checker for the side condition, for examples. *)
Definition plain_b (no : list char) (s : str) : bool :=
  forallb (fun c => negb (existsb (N.eqb c) ([32; 10; 13; 40; 41]%N ++ no))) s.
Lemma plain_b_ok no s : plain_b no s = true -> plain no s.
Proof.
  intros H. apply Forall_forall. intros c Hc Hin. unfold plain_b in H. rewrite forallb_forall in H.
  apply elem_of_list_In, H, negb_true_iff in Hc. apply not_true_iff_false in Hc. apply Hc.
  apply existsb_exists. exists c. split; [by apply elem_of_list_In|by apply N.eqb_refl].
Qed.
Definition nonempty (s : str) : bool := match s with [] => false | _ => true end.
Definition word_b (s : str) : bool := (nonempty s && plain_b [] s)%bool.
Lemma word_b_ok s : word_b s = true -> word s.
Proof. intros [H1 H2]%andb_true_iff. apply word_plain. split; [by destruct s|by apply plain_b_ok]. Qed.
Definition edge_b (e : option str) : bool :=
  match e with Some s => (plain_b [58%N] s && negb (str_eqb s (lit "--")))%bool | None => true end.
Lemma edge_b_ok e : edge_b e = true -> edge_fits e.
Proof.
  intros H s ->. apply andb_true_iff in H as [H1 H2]. split; [by apply plain_b_ok|].
  intros ->. by vm_compute in H2.
Qed.
Fixpoint fits_b (f : ptb_format) (e : option str) (r : rose) : bool :=
  match r with
  | RLeaf tm =>
      (word_b (t_form tm) &&
       match f with
       | Simple => word_b (t_pos tm)
       | PTB => word_b (t_pos tm) && negb (existsb (N.eqb 45%N) (t_pos tm))
       | TueBa => plain_b [58%N; 61%N] (t_pos tm) && edge_b e
       end)%bool
  | RNode nt cs =>
      (match f with
       | Simple => word_b (nt_label nt)
       | PTB => word_b (nt_label nt) && negb (existsb (N.eqb 45%N) (nt_label nt)) &&
                match nt_annotation nt with Some a => plain_b [] a | None => true end
       | TueBa => plain_b [58%N; 61%N] (nt_label nt) &&
                  match nt_annotation nt with Some a => plain_b [58%N; 61%N] a | None => true end && edge_b e
       end && forallb (fun c => fits_b f c.1 c.2) cs)%bool
  end.
Lemma notin_b (c : char) s : negb (existsb (N.eqb c) s) = true -> c ∉ s.
Proof.
  intros H Hc. apply negb_true_iff, not_true_iff_false in H. apply H, existsb_exists. exists c.
  split; [by apply elem_of_list_In|by apply N.eqb_refl].
Qed.
Lemma fits_b_ok f : forall r e, fits_b f e r = true -> fits f e r.
Proof.
  induction r as [tm|nt cs IH] using rose_ind'; intros e H; cbn [fits_b] in H.
  - apply andb_true_iff in H as [H1 H2]. constructor. split; [by apply word_b_ok|]. destruct f.
    + apply andb_true_iff in H2 as [H2 H3]. split; [by apply word_b_ok|by apply notin_b].
    + by apply word_b_ok.
    + apply andb_true_iff in H2 as [H2 H3]. split; [by apply plain_b_ok|by apply edge_b_ok].
  - apply andb_true_iff in H as [H1 H2]. constructor.
    + destruct f; simpl.
      * apply andb_true_iff in H1 as [[H1 H3]%andb_true_iff H4]. split_and!; [by apply word_b_ok|by apply notin_b|].
        intros a Ha. apply annotated_spec in Ha. rewrite Ha in H4. by apply plain_b_ok.
      * by apply word_b_ok.
      * apply andb_true_iff in H1 as [[H1 H3]%andb_true_iff H4]. split_and!; [by apply plain_b_ok| |by apply edge_b_ok].
        intros a Ha. apply annotated_spec in Ha. rewrite Ha in H3. by apply plain_b_ok.
    + rewrite forallb_forall in H2. rewrite Forall_forall in IH. apply Forall_forall. intros c Hc.
      apply IH; [done|]. by apply H2, elem_of_list_In.
Qed.

(** (S (NP=subj the dog) (VP barks)), with edge labels. *)
Definition ex_tueba : tree :=
  build (lit "the") (lit "D")
    [OAbove 0 (lit "NP"); OPush (lit "dog") (lit "N"); OAbove 1 (lit "S"); OPush (lit "barks") (lit "V");
     OAbove 4 (lit "VP"); OEditEdge 0 (Some (lit "HD"));
     OEditNT 1 (lit "NP") (Some {[ lit "node_annotation" := Some (lit "subj") ]}); OAddSec 1 4 None].
Lemma ex_tueba_WF : WF ex_tueba.
Proof. apply build_WF. Qed.
Example ex_tueba_text :
  tree_to_string TueBa ex_tueba = Ret (Ok (lit "(S:--(NP=subj:--(D:HD the)(N:-- dog))(VP:--(V:-- barks)))")).
Proof. by vm_compute. Qed.
Lemma ex_fits f : is_projective ex_tueba = true /\ fits f None (rose_of ex_tueba).
Proof. split; [by vm_compute|]. apply fits_b_ok. destruct f; by vm_compute. Qed.

(** Simple format: structure, labels, tags, forms and positions survive. *)
Theorem C33_simple t r :
  WF t -> is_projective t = true -> Reads t r -> fits Simple None r ->
  exists s t' r', tree_to_string Simple t = Ret (Ok s) /\ string_to_tree Simple s = Ret (Ok t') /\
    WF t' /\ Reads t' r' /\
    rose_rel (fun a b => t_form a = t_form b /\ t_pos a = t_pos b /\ t_span a = t_span b)
             (fun a b => nt_label a = nt_label b /\ nt_span a = nt_span b)
             (fun _ b => b = None) r r'.
Proof.
  intros W Hp D HF. destruct (ptb_round Simple t r W Hp D HF) as (s & t' & r' & H1 & H2 & H3 & H4 & H5 & H6).
  exists s, t', r'. split_and!; try done. eapply rose_rel_impl; [| | |exact H6]; [done| |done].
  intros a b (E1 & E2 & _). done.
Qed.
Example C33_ex : WF ex_tueba /\ is_projective ex_tueba = true /\ Reads ex_tueba (rose_of ex_tueba) /\ fits Simple None (rose_of ex_tueba).
Proof. split_and!; [apply ex_tueba_WF|apply (ex_fits Simple)|apply rose_of_ok, ex_tueba_WF|apply ex_fits]. Qed.
Print Assumptions C33_simple.

(** TueBa format: also node annotations and edge labels. *)
Theorem C34_tueba t r :
  WF t -> is_projective t = true -> Reads t r -> fits TueBa None r ->
  exists s t' r', tree_to_string TueBa t = Ret (Ok s) /\ string_to_tree TueBa s = Ret (Ok t') /\
    WF t' /\ Reads t' r' /\
    rose_rel (fun a b => t_form a = t_form b /\ t_pos a = t_pos b /\ t_span a = t_span b)
             (fun a b => nt_label a = nt_label b /\ nt_span a = nt_span b /\
                         forall s, annotated a s <-> annotated b s)
             (fun a b => a = b) r r'.
Proof.
  intros W Hp D HF. destruct (ptb_round TueBa t r W Hp D HF) as (s & t' & r' & H1 & H2 & H3 & H4 & H5 & H6).
  exists s, t', r'. split_and!; try done.
Qed.
Example C34_ex : WF ex_tueba /\ is_projective ex_tueba = true /\ Reads ex_tueba (rose_of ex_tueba) /\ fits TueBa None (rose_of ex_tueba).
Proof. split_and!; [apply ex_tueba_WF|apply (ex_fits TueBa)|apply rose_of_ok, ex_tueba_WF|apply ex_fits]. Qed.
Print Assumptions C34_tueba.

(** PTB format: the hyphen stays in the annotation that is read, and is written twice. *)
Theorem C35_hyphen_refuted :
  exists s t, string_to_tree PTB s = Ret (Ok t) /\ s = lit "(NP-SBJ (N dogs))" /\
    (exists n nt, nodes t !! n = Some (NT nt) /\ nt_label nt = lit "NP" /\ annotated nt (lit "-SBJ") /\ ~ annotated nt (lit "SBJ")) /\
    tree_to_string PTB t = Ret (Ok (lit "(NP--SBJ (N dogs))")).
Proof.
  exists (lit "(NP-SBJ (N dogs))"), (ex_parsed PTB (lit "(NP-SBJ (N dogs))")). split_and!; [by vm_compute|done| |by vm_compute].
  exists 0. eexists. split; [by vm_compute|]. rewrite !annotated_spec. split_and!; by vm_compute.
Qed.
(** What holds instead: labels, tags, forms, positions and structure survive; every annotation comes
    back with one more hyphen in front.  Missing: the annotation itself. *)
Theorem C35_ptb_partial t r :
  WF t -> is_projective t = true -> Reads t r -> fits PTB None r ->
  exists s t' r', tree_to_string PTB t = Ret (Ok s) /\ string_to_tree PTB s = Ret (Ok t') /\
    WF t' /\ Reads t' r' /\
    rose_rel (fun a b => t_form a = t_form b /\ t_pos a = t_pos b /\ t_span a = t_span b)
             (fun a b => nt_label a = nt_label b /\ nt_span a = nt_span b /\
                         forall s, annotated b s <-> exists s', s = 45%N :: s' /\ annotated a s')
             (fun _ b => b = None) r r'.
Proof.
  intros W Hp D HF. destruct (ptb_round PTB t r W Hp D HF) as (s & t' & r' & H1 & H2 & H3 & H4 & H5 & H6).
  exists s, t', r'. split_and!; try done.
Qed.
Example C35_ex : WF ex_tueba /\ is_projective ex_tueba = true /\ Reads ex_tueba (rose_of ex_tueba) /\ fits PTB None (rose_of ex_tueba).
Proof. split_and!; [apply ex_tueba_WF|apply (ex_fits PTB)|apply rose_of_ok, ex_tueba_WF|apply ex_fits]. Qed.
Print Assumptions C35_hyphen_refuted.
Print Assumptions C35_ptb_partial.

(** ** C36 *)
Theorem C36_fails f t :
  WF t -> exists res, tree_to_string f t = Ret res /\
    (res = Err <-> ~ forall n i j k, yields (nodes t) (edges t) n i -> yields (nodes t) (edges t) n k ->
                       i < j < k -> yields (nodes t) (edges t) n j).
Proof.
  intros W. destruct (Reads_total t W) as [r D]. rewrite (tree_to_string_spec f t r W D).
  eexists. split; [done|]. rewrite <- (C09_projective t W). by destruct (is_projective t).
Qed.
(** The text is a bracketed tree whose words are the sentence, with brackets in the words escaped. *)
Theorem C36_text_partial f t r :
  WF t -> is_projective t = true -> Reads t r -> printable f None r ->
  exists s a, tree_to_string f t = Ret (Ok s) /\ bracketed a s /\ balanced s /\
    Forall2 escaped (map t_form (leaves r)) (words a) /\ map t_idx (leaves r) = seq 0 (tr_nterm t).
Proof.
  intros W Hp D HP. exists (rshow f None r), (ast_of f None r).
  rewrite (tree_to_string_spec f t r W D), Hp.
  pose proof (rshow_G f r None (WF_inhabited t _ r W D) HP) as HG. split_and!; [done| | | |].
  - exists [], (rshow f None r), []. rewrite app_nil_r. split_and!; [done|constructor|constructor|done].
  - by eapply G_balanced.
  - rewrite ast_of_words. induction (leaves r) as [|tm l IH]; simpl; constructor; [by apply esc_escaped|done].
  - by apply Reads_idx.
Qed.
(** Brackets are balanced whenever labels, annotations and edge labels have none. *)
Theorem C36_balanced_partial f t r :
  WF t -> is_projective t = true -> Reads t r -> labels_bracketless None r ->
  exists s, tree_to_string f t = Ret (Ok s) /\ balanced s.
Proof.
  intros W Hp D HL. exists (rshow f None r). rewrite (tree_to_string_spec f t r W D), Hp.
  split; [done|]. by apply rshow_balanced.
Qed.
(** A bracket in a label is written as it is. *)
Definition ex_bad_label : tree := build (lit "x") (lit "X") [OAbove 0 (lit "A(B")].
Theorem C36_unbalanced_refuted :
  exists t s, WF t /\ is_projective t = true /\ tree_to_string Simple t = Ret (Ok s) /\ ~ balanced s.
Proof.
  exists ex_bad_label, (lit "(A(B (X x))"). split_and!; [apply build_WF|by vm_compute|by vm_compute|].
  intros H. apply balanced_count in H. by vm_compute in H.
Qed.
Example C36_ex f : WF ex_tueba /\ is_projective ex_tueba = true /\ Reads ex_tueba (rose_of ex_tueba) /\
  printable f None (rose_of ex_tueba) /\ labels_bracketless None (rose_of ex_tueba).
Proof.
  split_and!; [apply ex_tueba_WF|apply (ex_fits f)|apply rose_of_ok, ex_tueba_WF|apply fits_printable, ex_fits|].
  apply printable_bracketless, fits_printable, ex_fits.
Qed.
Print Assumptions C36_fails.
Print Assumptions C36_text_partial.
Print Assumptions C36_balanced_partial.
Print Assumptions C36_unbalanced_refuted.

(** ** C37 *)
(** Single-line mode: one result for every line that is not a comment, in order. *)
Theorem C37_single f ls :
  exists rs, ptb_read f SingleLine ls = Ret rs /\
    single_results (fun s r => string_to_tree f s = Ret r) Err ls rs.
Proof. apply (read_single f). lia. Qed.
(** Multi-line mode: the reader never hangs, and it returns results exactly when the stream splits
    into balanced groups of lines, one result per group (a trailing unfinished group is dropped).
    Missing: a line that closes more brackets than are open makes the reader panic. *)
Theorem C37_multi_partial f ls :
  ptb_read f MultiLine ls <> Diverge /\
  forall rs, ptb_read f MultiLine ls = Ret rs <->
             multi_results (fun s r => string_to_tree f s = Ret r) Err ls rs.
Proof.
  unfold ptb_read. destruct (read_multi_sound f (S (length ls)) ls ltac:(lia)) as [H1 H2].
  split; [done|]. intros rs. split; [apply H2|]. intros H. apply (read_multi_complete f ls rs H). lia.
Qed.
Theorem C37_no_panic_refuted : exists ls, ptb_read PTB MultiLine ls = Panic.
Proof. exists [Some (lit "(S (D the)))")]. by vm_compute. Qed.
(** Balanced groups of lines that are bracketed trees are all delivered. *)
Theorem C37_groups f gs :
  Forall (fun g => balanced_group g /\ exists a, bracketed a (concat g)) gs ->
  exists ts, ptb_read f MultiLine (concat (map (map Some) gs)) = Ret (map Ok ts) /\
    Forall2 (fun g t => string_to_tree f (concat g) = Ret (Ok t)) gs ts.
Proof.
  intros H.
  assert (exists ts, Forall2 (fun g t => string_to_tree f (concat g) = Ret (Ok t)) gs ts) as [ts Hts].
  { clear -H. induction H as [|g gs [_ Ha] H IH]; [exists []; constructor|]. destruct IH as [ts Hts].
    destruct (C31_language f (concat g)) as (r & Hr & Hok). apply Hok in Ha as [t ->]. exists (t :: ts). by constructor. }
  exists ts. split; [|done]. apply C37_multi_partial.
  induction Hts as [|g t gs ts Hg Hts IH]; simpl; [constructor|].
  apply Forall_cons in H as [[Hb _] H]. apply mr_group; [done|done|by apply IH].
Qed.
Example C37_ex :
  let gs := [[lit "(S (D the)"; lit "% no comment"; lit " (N dog))"]; [lit "(S (D the) (N dog))"]] in
  Forall balanced_group gs /\ bracketed (ANode (lit "S") [APre (lit "D") (lit "the"); APre (lit "N") (lit "dog")]) (concat [lit "(S (D the)"; lit " (N dog))"]).
Proof.
  split.
  - constructor; [|constructor; [|constructor]].
    + split; [eexists _, _; split_and!; [done|done|intros [s H]; done]|]. split; [by vm_compute|].
      intros i Hi. simpl in Hi. destruct i as [|[|[|i]]]; [lia| | |lia]; vm_compute; lia.
    + split; [eexists _, _; split_and!; [done|done|intros [s H]; done]|]. split; [by vm_compute|].
      intros i Hi. simpl in Hi. lia.
  - destruct (p_tree_spec (concat [lit "(S (D the)"; lit " (N dog))"])) as (r & E & H). apply H. by vm_compute in E; injection E as <-.
Qed.
Print Assumptions C37_single.
Print Assumptions C37_multi_partial.
Print Assumptions C37_no_panic_refuted.
Print Assumptions C37_groups.
