(** C54 - C57: what the conversion tool does. *)
From Coq Require Import Lia ZArith.
From Verif Require Import ConvModel TreeSpec BaseProofs SpanProofs ShapeProofs GraphProofs SortProofs ResetProofs NavProofs AnnotProofs CollapseProofs
  FilterProofs Api EncTree2 PtbPrint PropsTree PropsMod PropsMod2 PropsMod3 PropsDec2 PropsEnc PropsFeat PropsPtb PropsConll PropsNegra Ordered
  EqProofs ConvSpec ConvProofs ConvPipe.

(** ** C54: the readers number words in sentence order *)
(** All readers deliver trees whose node numbers grow with the positions of the words. *)
Theorem C54_readers :
  (forall f m ls rs t, read_text f m ls = Ret rs -> Ok t ∈ rs -> ordered t) /\
  (forall f ss rs t, read_sentences f ss = Ret rs -> Ok t ∈ rs -> ordered t).
Proof.
  assert (HM : forall (g : list token -> outcome (result tree)) ss rs t, mapO g ss = Ret rs -> Ok t ∈ rs -> exists l, g l = Ret (Ok t)).
  { intros g ss. induction ss as [|s ss IH]; intros rs t H Ht; simpl in H; [simplify_eq; by apply elem_of_nil in Ht|].
    destruct (g s) as [r| |] eqn:E; try done. simpl in H. destruct (mapO g ss) as [rs'| |]; try done. simpl in H. simplify_eq.
    apply elem_of_cons in Ht as [<-|Ht]; [by exists s|]. by eapply IH. }
  split.
  - intros [| | |f] m ls rs t H Ht; simpl in H; [simplify_eq; by apply elem_of_nil in Ht..|by eapply negra_read_ordered|by eapply ptb_read_ordered].
  - intros [| | |f] ss rs t H Ht; simpl in H.
    + destruct (HM _ _ _ _ H Ht) as [l Hl]. eapply from_conllx_ordered. by left.
    + destruct (HM _ _ _ _ H Ht) as [l Hl]. eapply from_conllx_ordered. by right.
    + simplify_eq. by apply elem_of_nil in Ht.
    + simplify_eq. by apply elem_of_nil in Ht.
Qed.
Print Assumptions C54_readers.
(** For such trees [annotate_pos] tags in sentence order, without a further condition. *)
Theorem C54_pos t tags : WF t -> ordered t ->
  exists t' r, annotate_pos t tags = Ret (t', r) /\ (r = Ok () <-> length tags = tr_nterm t) /\
    (r = Ok () -> sentence_tagged t tags t').
Proof. apply annotate_pos_ordered. Qed.
Print Assumptions C54_pos.
(** [insert_intermediate] groups all neighbouring terminals. *)
Theorem C54_insert t f : WF t -> ordered t -> (forall t1 t2 n, nodes t1 !! n = nodes t2 !! n -> f t1 n = f t2 n) ->
  (bare t -> insert_intermediate t f = Ret (t, Err)) /\
  (~ bare t -> exists t', insert_intermediate t f = Ret (t', Ok ()) /\ grouped t t' f).
Proof.
  intros W O Hf. destruct (C26_insert_intermediate_partial t f W Hf (ordered_siblings t O)) as [H1 H2]. split.
  - intros B. by apply H1, orphan_bare.
  - intros B. by apply H2, not_bare_parent.
Qed.
Print Assumptions C54_insert.

Definition monob (t : tree) : bool :=
  forallb (fun a => forallb (fun b => implb (Nat.ltb a.1 b.1) (Nat.ltb a.2 b.2))
                    (omap (fun kv => pair (fst kv) <$> tpos (nodes t) (fst kv)) (map_to_list (nodes t))))
          (omap (fun kv => pair (fst kv) <$> tpos (nodes t) (fst kv)) (map_to_list (nodes t))).
Lemma monob_ok t : monob t = true -> ordered t.
Proof.
  unfold monob. rewrite forallb_forall. intros H. apply mono_ordered. intros x y i j Hx Hy Hlt.
  assert (HI : forall n k, tpos (nodes t) n = Some k ->
     In (n, k) (omap (fun kv => pair (fst kv) <$> tpos (nodes t) (fst kv)) (map_to_list (nodes t)))).
  { intros n k Hn. apply elem_of_list_In, elem_of_list_omap. destruct (nodes t !! n) as [w|] eqn:E.
    - exists (n, w). rewrite elem_of_map_to_list. split; [done|]. simpl. by rewrite Hn.
    - unfold tpos in Hn. by rewrite E in Hn. }
  specialize (H _ (HI x i Hx)). rewrite forallb_forall in H. specialize (H _ (HI y j Hy)). simpl in H.
  rewrite (proj2 (Nat.ltb_lt x y) Hlt) in H. simpl in H. by apply Nat.ltb_lt.
Qed.
(** (S (VP a . c) b (DUMMY (X d))): discontinuous, words in node order. *)
Definition ex_conv : tree :=
  build (lit "a") (lit "D")
    [OAbove 0 (lit "VP"); OPush (lit "b") (lit "$,"); OPush (lit "c") (lit "V"); OAbove 1 (lit "S"); OReattach 4 1;
     OPush (lit "d") (lit "D"); OAbove 5 (lit "X"); OAbove 6 (lit "DUMMY"); OEditEdge 0 (Some (lit "HD"))].
Lemma ex_conv_WF : WF ex_conv.
Proof. apply build_WF. Qed.
Lemma ex_conv_ordered : ordered ex_conv.
Proof. apply monob_ok. by vm_compute. Qed.
Example C54_ex : WF ex_conv /\ ordered ex_conv /\ is_projective ex_conv = false /\ tr_nterm ex_conv = 4 /\ ~ bare ex_conv.
Proof.
  split; [apply ex_conv_WF|]. split; [apply ex_conv_ordered|]. split; [by vm_compute|]. split; [by vm_compute|].
  intros B%bare_nterm; [|apply ex_conv_WF]. by vm_compute in B.
Qed.
(** A text whose trees have two words: both readers' numbering is observable. *)
Example C54_readers_ex : exists rs t, read_text (IBracket Simple) false [Some (lit "(S (D a) (N b))")] = Ret rs /\ rs = [Ok t] /\ tr_nterm t = 2.
Proof. eexists. eexists. split; [vm_compute; reflexivity|]. split; [reflexivity|]. done. Qed.

(** ** C55: one tree *)
(** [choose] picks elements of non-empty sets. *)
Definition picks (choose : nat -> gset nat -> nat) : Prop := forall k s, s <> ∅ -> choose k s ∈ s.
(** With [--reattach] the tree has two words at least; for relative tags it is not astronomically large. *)
Definition convertible (o : options) (t : tree) : Prop :=
  WF t /\ ordered t /\ (o_reattach o <> None -> 2 <= tr_nterm t) /\ room o t.
(** Failures that can be seen in the input: the tags, or a parent is asked for where there is none. *)
Definition bad_input (o : options) (pos : option (list (result (list token)))) (t : tree) : Prop :=
  pos_fails pos t \/ ((o_insert o <> None \/ o_parent o <> None) /\ bare_after o t).

(** The tool exits for bad input; otherwise the tree is edited step by step as the options say, and
    the result is encoded unless tags are wanted for a discontinuous tree, where the tool exits. *)
Theorem C55_convert choose o pos t :
  picks choose -> convertible o t ->
  (bad_input o pos t -> convert_tree choose o pos t = Ret Err) /\
  (~ bad_input o pos t ->
   exists tags t1, pos_tags pos tags /\ edited o tags t t1 /\ kept t t1 /\
     (tags_out o -> is_projective t1 = false -> convert_tree choose o pos t = Ret Err) /\
     (~ (tags_out o /\ is_projective t1 = false) ->
      exists t', convert_tree choose o pos t = Ret (Ok (t', tail <$> pos)) /\ spec_encode o t1 t' /\ kept t t')).
Proof.
  intros HC (W & O & HR & HM). destruct (convert_ok choose o pos t HC W O HR HM) as [H1 H2]. split; [done|].
  intros HN. destruct (H2 HN) as (tags & t1 & A & B & C & _ & _ & D & E). exists tags, t1. done.
Qed.
Print Assumptions C55_convert.
(** It never panics or hangs, and never changes a word, a lemma or the order of the words. *)
Lemma bad_input_dec o pos t : bad_input o pos t \/ ~ bad_input o pos t.
Proof.
  unfold bad_input. destruct (pos_fails_dec pos t) as [|H1]; [auto|].
  assert (HB : bare_after o t \/ ~ bare_after o t).
  { unfold bare_after. destruct (decide (tr_nterm t = 1)) as [E|]; [|right; by intros [? _]].
    destruct (decide (map_Forall (fun n w => match w with NT nt => o_dummies o && str_eqb (nt_label nt) (lit "DUMMY") | T _ => true end%bool = true) (nodes t))) as [HF|HF].
    - left. split; [done|]. intros n nt Hn. pose proof (HF n (NT nt) Hn) as HX. apply andb_true_iff in HX as [? ?%EqProofs.str_eqb_iff]. done.
    - right. intros [_ H]. apply HF. intros n [nt|tm] Hn; [|done]. apply andb_true_iff. rewrite EqProofs.str_eqb_iff. by eapply H. }
  assert (HO : (o_insert o <> None \/ o_parent o <> None) \/ ~ (o_insert o <> None \/ o_parent o <> None)).
  { destruct (o_insert o), (o_parent o); naive_solver. }
  naive_solver.
Qed.
Theorem C55_words choose o pos t :
  picks choose -> convertible o t ->
  exists res, convert_tree choose o pos t = Ret res /\
    forall t' pos', res = Ok (t', pos') ->
      WF t' /\ ordered t' /\ pos' = tail <$> pos /\ tr_nterm t' = tr_nterm t /\
      (forall n tm, nodes t !! n = Some (T tm) -> exists tm', nodes t' !! n = Some (T tm') /\
         t_form tm' = t_form tm /\ t_lemma tm' = t_lemma tm /\ t_span tm' = t_span tm) /\
      (forall n tm', nodes t' !! n = Some (T tm') -> exists tm, nodes t !! n = Some (T tm)).
Proof.
  intros HC HV. destruct (C55_convert choose o pos t HC HV) as [H1 H2]. destruct HV as (W & O & _).
  destruct (bad_input_dec o pos t) as [HB|HB]; [exists Err; by rewrite H1|].
  destruct (H2 HB) as (tags & t1 & Ht & HE & HK & G1 & G2).
  assert (tags_out o /\ is_projective t1 = false \/ ~ (tags_out o /\ is_projective t1 = false)) as [[HO HP]|HG].
  { unfold tags_out. destruct (is_projective t1); [right; by intros [_ ?]|]. destruct (o_out o); naive_solver. }
  { exists Err. by rewrite G1. }
  destruct (G2 HG) as (t' & Hc & _ & HK'). eexists. split; [exact Hc|]. intros t2 pos' E. simplify_eq.
  pose proof HK' as (W' & K' & HT). split_and!; try done; [by eapply kept_ordered| |].
  - intros n tm Hn. specialize (HT n). unfold tword in HT. rewrite Hn in HT.
    destruct (nodes t2 !! n) as [[|tm']|]; try done. exists tm'. by simplify_eq.
  - intros n tm Hn. specialize (HT n). unfold tword in HT. rewrite Hn in HT.
    destruct (nodes t !! n) as [[|tm']|]; try done. eauto.
Qed.
Print Assumptions C55_words.

Definition ex_opts (out : out_format) : options :=
  mk_opts out true true true (Some (lit "$")) (Some (Positive {[ lit "VP" ]})) (lit "id") (Some (Negative {[ lit "X" ]}))
    (Some (Positive {[ lit "S" ]})) (lit "UNK") (Some (lit "parent")).
Definition ex_pos (ws : list string) : option (list (result (list token))) :=
  Some [Ok (map (fun w => mk_tok (lit w) None (Some (lit w)) None) ws)].
Lemma ex_choose_picks : picks ex_choose.
Proof. exact (proj1 C20_ex). Qed.
Lemma ex_convertible out : convertible (ex_opts out) ex_conv.
Proof.
  split; [apply ex_conv_WF|]. split; [apply ex_conv_ordered|]. split; [intros _; vm_compute; lia|].
  intros _. by vm_compute.
Qed.
(** All options at once, on a discontinuous tree: the words are kept, the tags are new. *)
Definition columns (m : outcome (result (tree * option (list (result (list token)))))) : list (str * option str * option str) :=
  match m with
  | Ret (Ok (t', _)) => match to_conllx t' with Ret l => map (fun k => (k_form k, k_pos k, k_feats k)) l | _ => [] end
  | _ => []
  end.
Example C55_ex : picks ex_choose /\ convertible (ex_opts OConllx) ex_conv /\ ~ bad_input (ex_opts OConllx) (ex_pos ["A"; "$B"; "C"; "E"]) ex_conv /\
  columns (convert_tree ex_choose (ex_opts OConllx) (ex_pos ["A"; "$B"; "C"; "E"]) ex_conv) =
    [(lit "a", Some (lit "A"), Some (lit "id:0|parent:UNK")); (lit "b", Some (lit "$B"), Some (lit "id:1|parent:S"));
     (lit "c", Some (lit "C"), Some (lit "id:0|parent:UNK")); (lit "d", Some (lit "E"), Some (lit "id:1|parent:S"))].
Proof.
  split; [apply ex_choose_picks|]. split; [apply ex_convertible|]. split; [|by vm_compute].
  intros [HF|[_ [HB _]]].
  - apply HF. exists (map lit ["A"; "$B"; "C"; "E"]). split; [|by vm_compute]. repeat constructor.
  - by vm_compute in HB.
Qed.

(** The sentence that is written has the words and lemmas of the input tree, in order. *)
Theorem C55_sentence choose o pos t t' pos' c :
  picks choose -> convertible o t -> convert_tree choose o pos t = Ret (Ok (t', pos')) ->
  o_out o = OConllx \/ tags_out o ->
  exists l, write_tree (o_out o) c t' = Ret (Ok (Sentence l, c)) /\ length l = tr_nterm t /\
    forall n tm i, nodes t !! n = Some (T tm) -> t_span tm = span_of i ->
      exists k, l !! i = Some k /\ k_form k = t_form tm /\ k_lemma k = t_lemma tm.
Proof.
  intros HC HV Hc HO. destruct (C55_words choose o pos t HC HV) as (res & Hr & Hw). rewrite Hc in Hr. simplify_eq.
  destruct (Hw t' pos' eq_refl) as (W' & _ & _ & HK & HT & _).
  destruct (C49_to_conllx t' W') as (l & Hl & _ & HL & HS). exists l. split_and!.
  - unfold write_tree. rewrite Hl. destruct HO as [-> |[-> | ->]]; done.
  - congruence.
  - intros n tm i Hn Hi. destruct (HT n tm Hn) as (tm' & Hn' & E1 & E2 & E3).
    destruct (HS i n tm' Hn') as (k & Hk & Hca); [congruence|]. exists k. split; [done|].
    destruct Hca as (-> & -> & _). by rewrite E1, E2.
Qed.
Print Assumptions C55_sentence.
Example C55_sentence_ex : exists t', convert_tree ex_choose (ex_opts OConllx) (ex_pos ["A"; "$B"; "C"; "E"]) ex_conv = Ret (Ok (t', Some [])).
Proof. eexists. vm_compute. reflexivity. Qed.

(** The condition on [--reattach] is needed: for a sentence of one matching word the tool hangs. *)
Theorem C55_one_word_refuted : exists choose o t, picks choose /\ WF t /\ ordered t /\ is_projective t = true /\
  convert_tree choose o None t = Diverge.
Proof.
  exists ex_choose, (mk_opts (OBracket Simple) false false false (Some (lit "$")) None [] None None [] None),
    (build (lit ".") (lit "$.") [OAbove 0 (lit "S")]).
  split; [apply ex_choose_picks|]. split; [apply build_WF|]. split; [apply monob_ok; by vm_compute|]. split; by vm_compute.
Qed.
Print Assumptions C55_one_word_refuted.

(** ** C56: output that needs projective trees *)
(** With [--projectivize], or for projective input, and without [--reattach] the tool never fails
    for a structural reason: bracketed, tag and CONLL-X output is written for every good input. *)
Theorem C56_written choose o pos t c :
  picks choose -> convertible o t -> o_reattach o = None -> o_proj o = true \/ is_projective t = true ->
  ~ bad_input o pos t -> o_out o <> ONegra ->
  exists t' it, convert_tree choose o pos t = Ret (Ok (t', tail <$> pos)) /\ write_tree (o_out o) c t' = Ret (Ok (it, c)).
Proof.
  intros HC (W & O & HR & HM) ER HP HN HG. destruct (convert_ok choose o pos t HC W O HR HM) as [_ H2].
  destruct (H2 HN) as (tags & t1 & _ & _ & K1 & _ & P1 & _ & E1). specialize (P1 ER HP).
  destruct E1 as (t' & Hc & HE & HK). { intros [_ ?]. congruence. }
  exists t'. assert (exists it, write_tree (o_out o) c t' = Ret (Ok (it, c))) as [it ?]; [|eauto].
  pose proof HK as (W' & _). destruct (C49_to_conllx t' W') as (l & Hl & _ & _).
  unfold spec_encode in HE. unfold write_tree, ptb_write, next.
  destruct (o_out o) as [| | |f|]; try done; try (rewrite Hl; eexists; reflexivity).
  subst. destruct (C36_fails f t1 W') as (res & Hres & Hiff). rewrite Hres. simpl. destruct res as [s|]; [by eexists|exfalso].
  apply (proj1 Hiff eq_refl). by apply C09_projective.
Qed.
Print Assumptions C56_written.
Definition ex_opts2 (out : out_format) : options :=
  mk_opts out true true true None (Some (Positive {[ lit "VP" ]})) (lit "id") (Some (Negative {[ lit "X" ]}))
    (Some (Positive {[ lit "S" ]})) (lit "UNK") (Some (lit "parent")).
Definition written (m : outcome (list item * bool)) : list str * bool :=
  match m with
  | Ret (its, ok) => (map (fun i => match i with Text s => s | Sentence _ => [] end) its, ok)
  | _ => ([], false)
  end.
Example C56_ex : picks ex_choose /\ convertible (ex_opts2 (OBracket Simple)) ex_conv /\
  o_reattach (ex_opts2 (OBracket Simple)) = None /\ is_projective ex_conv = false /\ ~ bad_input (ex_opts2 (OBracket Simple)) None ex_conv /\
  written (convert_all (fun _ => ex_choose) (ex_opts2 (OBracket Simple)) None 0 [Ok ex_conv]) =
    ([lit "(S (VP (UNK (D a) ($, b) (V c))) (D d))" ++ [10%N]], true).
Proof.
  split; [apply ex_choose_picks|]. split.
  { split; [apply ex_conv_WF|]. split; [apply ex_conv_ordered|]. split; [done|]. done. }
  split; [done|]. split; [by vm_compute|]. split.
  { intros [HF|[_ [HB _]]]; [done|]. by vm_compute in HB. }
  by vm_compute.
Qed.
(** Without the condition on [--reattach] the claim is false: terminals are reattached after the tree
    was made projective, which can open a gap. *)
Theorem C56_reattach_refuted : exists choose o t, picks choose /\ convertible o t /\ o_proj o = true /\ is_projective t = true /\
  ~ bad_input o None t /\ o_out o = OBracket Simple /\ convert_all (fun _ => choose) o None 0 [Ok t] = Ret ([], false).
Proof.
  exists ex_choose, (mk_opts (OBracket Simple) false true false (Some (lit "$")) None [] None None [] None),
    (build (lit "a") (lit "D") [OAbove 0 (lit "VP"); OPush (lit ",") (lit "$,"); OPush (lit "c") (lit "V"); OAbove 1 (lit "S"); OPush (lit "d") (lit "D")]).
  split; [apply ex_choose_picks|]. split.
  { split; [apply build_WF|]. split; [apply monob_ok; by vm_compute|]. split; [intros _; vm_compute; lia|done]. }
  split; [done|]. split; [by vm_compute|]. split; [intros [[]|[[|] _]]; done|]. split; [done|]. by vm_compute.
Qed.
Print Assumptions C56_reattach_refuted.

(** ** C57: the whole run *)
Lemma step_pos_rest pos t t' pos' : step_pos pos t = Ret (Ok (t', pos')) -> pos' = tail <$> pos.
Proof.
  unfold step_pos, next, or_exit. destruct pos as [[|[s|] rest]|]; try done; simpl.
  - destruct (mapM k_pos s); [|done]. destruct (annotate_pos t l) as [[u [[]|]]| |]; simpl; try done. by intros [= _ <-].
  - by intros [= _ <-].
Qed.
Lemma next_inv {A B} (m : outcome (result A)) (k : A -> outcome (result B)) b :
  next m k = Ret (Ok b) -> exists a, m = Ret (Ok a) /\ k a = Ret (Ok b).
Proof. unfold next. destruct m as [[a|]| |]; simpl; try done. eauto. Qed.
Lemma convert_rest choose o pos t t' pos' : convert_tree choose o pos t = Ret (Ok (t', pos')) -> pos' = tail <$> pos.
Proof.
  unfold convert_tree. intros H. apply next_inv in H as (t1 & _ & H). apply next_inv in H as (t2 & _ & H).
  apply next_inv in H as ([t3 p3] & H3 & H). apply next_inv in H as (t4 & _ & H). simplify_eq. by eapply step_pos_rest.
Qed.
(** Tree number [i] is converted with POS sentence number [i]; the items are written in the order of
    the trees; the run ends with success iff every tree was written, and otherwise stops at the first
    tree that cannot be read, converted or written. *)
Theorem C57_stream rs : forall choose o pos c its ok, convert_all choose o pos c rs = Ret (its, ok) ->
  (ok = true <-> length its = length rs) /\ length its <= length rs /\
  (forall i it, its !! i = Some it -> exists t t' pos' ci ci',
     rs !! i = Some (Ok t) /\ convert_tree (choose i) o (drop i <$> pos) t = Ret (Ok (t', pos')) /\
     write_tree (o_out o) ci t' = Ret (Ok (it, ci'))) /\
  (ok = false -> exists r, rs !! length its = Some r /\
     (r = Err \/ exists t, r = Ok t /\
        (convert_tree (choose (length its)) o (drop (length its) <$> pos) t = Ret Err \/
         exists t' pos' ci, convert_tree (choose (length its)) o (drop (length its) <$> pos) t = Ret (Ok (t', pos')) /\
           write_tree (o_out o) ci t' = Ret Err))).
Proof.
  induction rs as [|[t|] rs IH]; intros choose o pos c its ok H; simpl in H.
  - simplify_eq. simpl. split_and!; done.
  - assert (HD0 : drop 0 <$> pos = pos) by (by destruct pos).
    destruct (convert_tree (choose 0) o pos t) as [[[t' pos']|]| |] eqn:E; try done; simpl in H.
    + pose proof (convert_rest _ _ _ _ _ _ E) as ->.
      destruct (write_tree (o_out o) c t') as [[[it c']|]| |] eqn:E2; try done; simpl in H.
      * destruct (convert_all (fun k => choose (S k)) o (tail <$> pos) c' rs) as [[its' ok']| |] eqn:E3; try done. simpl in H. simplify_eq.
        destruct (IH _ _ _ _ _ _ E3) as (H1 & H2 & H3 & H4).
        assert (HD : forall i, drop i <$> (tail <$> pos) = drop (S i) <$> pos).
        { intros i. destruct pos as [[|p pos]|]; simpl; [by rewrite drop_nil|done|done]. }
        split_and!.
        -- rewrite H1. simpl. split; congruence.
        -- simpl. lia.
        -- intros [|i] it0 Hi; simpl in Hi.
           ++ simplify_eq. exists t, t', (tail <$> pos), c, c'. rewrite HD0. done.
           ++ destruct (H3 i it0 Hi) as (u & u' & p' & ci & ci' & A & B & C). rewrite HD in B. exists u, u', p', ci, ci'. done.
        -- intros Hf. destruct (H4 Hf) as (r & Hr & HX). exists r. split; [done|]. by rewrite HD in HX.
      * simplify_eq. simpl. split_and!; try done; [lia|]. intros _. eexists. split; [done|]. right. exists t. split; [done|]. right.
        exists t', (tail <$> pos), c. by rewrite HD0.
    + simplify_eq. simpl. split_and!; try done; [lia|]. intros _. eexists. split; [done|]. right. exists t. split; [done|]. left. by rewrite HD0.
  - simplify_eq. simpl. split_and!; try done; [lia|]. intros _. eexists. split; [done|]. by left.
Qed.
Print Assumptions C57_stream.
(** What NEGRA output needs: an inner node, and secondary edges that start at inner nodes (C41). *)
Definition negra_ok (t : tree) : Prop :=
  (exists nt, nodes t !! tr_root t = Some (NT nt)) /\
  forall r, r ∈ edges t -> is_primary (e_w r) = false -> exists nt, nodes t !! e_src r = Some (NT nt).
Lemma total_of_negra rs : forall choose o pos c,
  (forall i, picks (choose i)) -> (forall t, Ok t ∈ rs -> convertible o t) ->
  (o_out o = ONegra -> forall i p t t' p', Ok t ∈ rs -> convert_tree (choose i) o p t = Ret (Ok (t', p')) -> negra_ok t') ->
  exists its ok, convert_all choose o pos c rs = Ret (its, ok).
Proof.
  induction rs as [|[t|] rs IH]; intros choose o pos c HC HV HG; simpl; [eauto| |eauto].
  destruct (C55_words (choose 0) o pos t (HC 0)) as (res & Hres & Hw); [apply HV; set_solver|]. rewrite Hres. simpl.
  destruct res as [[t' pos']|]; [|eauto]. destruct (Hw _ _ eq_refl) as (W' & _).
  assert (exists r, write_tree (o_out o) c t' = Ret r) as [r Hr].
  { unfold write_tree, ptb_write, next. destruct (C49_to_conllx t' W') as (l & Hl & _). destruct (o_out o) as [| | |f|] eqn:EO; try (rewrite Hl; simpl; eauto).
    - destruct (HG eq_refl 0 pos t t' pos') as [[nt Hnt] HS]; [set_solver|done|].
      destruct (C41_lines_partial t' c nt W' Hnt HS) as (sid & c' & h & ws & tl & nts & nl & Hn & _). rewrite Hn. simpl. eauto.
    - destruct (C36_fails f t' W') as (res & Hx & _). rewrite Hx. simpl. destruct res; simpl; eauto. }
  rewrite Hr. simpl. destruct r as [[it c']|]; [|eauto].
  destruct (IH (fun k => choose (S k)) o pos' c') as (its & ok & ->); [done|set_solver| |simpl; eauto].
  intros EO i p u u' p' Hu. apply (HG EO (S i)). set_solver.
Qed.
(** Every good file is converted completely. *)
Theorem C57_complete rs : forall choose o c,
  (forall i, picks (choose i)) -> o_reattach o = None -> o_out o <> ONegra ->
  Forall (fun r => exists t, r = Ok t /\ convertible o t /\ (o_proj o = true \/ is_projective t = true) /\ ~ bad_input o None t) rs ->
  exists its, convert_all choose o None c rs = Ret (its, true) /\ length its = length rs.
Proof.
  intros choose o c HC ER EO HF. revert choose HC c. induction HF as [|r rs (t & -> & HV & HP & HN) HF IH]; intros choose HC c; simpl; [by eexists|].
  destruct (C56_written (choose 0) o None t c (HC 0) HV ER HP HN EO) as (t' & it & -> & Hw). simpl. rewrite Hw. simpl.
  destruct (IH (fun k => choose (S k)) (fun i => HC (S i)) c) as (its & -> & HL). simpl. eexists. split; [done|]. simpl. congruence.
Qed.
Print Assumptions C57_complete.
(** A file of two trees, the first one discontinuous. *)
Example C57_ex :
  picks ex_choose /\
  Forall (fun r => exists t, r = Ok t /\ convertible (ex_opts2 OAbsolute) t /\
     (o_proj (ex_opts2 OAbsolute) = true \/ is_projective t = true) /\ ~ bad_input (ex_opts2 OAbsolute) None t) [Ok ex_conv; Ok ex_conv].
Proof.
  split; [apply ex_choose_picks|].
  assert (H : exists t, Ok ex_conv = Ok t /\ convertible (ex_opts2 OAbsolute) t /\
     (o_proj (ex_opts2 OAbsolute) = true \/ is_projective t = true) /\ ~ bad_input (ex_opts2 OAbsolute) None t).
  { exists ex_conv. split; [done|]. split.
    { split; [apply ex_conv_WF|]. split; [apply ex_conv_ordered|]. split; done. }
    split; [by left|]. intros [HF|[_ [HB _]]]; [done|]. by vm_compute in HB. }
  apply Forall_cons. split; [exact H|]. apply Forall_cons. split; [exact H|apply Forall_nil_2].
Qed.
(** The second tree is discontinuous and nothing makes it projective: only the first one is written. *)
Definition ex_conv1 : tree := build (lit "a") (lit "D") [OAbove 0 (lit "NP")].
Example C57_stop_ex : written (convert_all (fun _ => ex_choose)
    (mk_opts (OBracket Simple) false false false None None [] None None [] None) None 0 [Ok ex_conv1; Ok ex_conv; Ok ex_conv1]) =
  ([lit "(NP (D a))" ++ [10%N]], false).
Proof. by vm_compute. Qed.
