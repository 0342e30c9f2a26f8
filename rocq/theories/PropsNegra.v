(** Properties C38, C39, C41: the NEGRA export format. *)
From Coq Require Import Lia.
From Verif Require Import NegraModel TreeSpec BaseProofs SpanProofs ShapeProofs GraphProofs SortProofs TreeOps Api
  NegraSpec NegraStep NegraWrite NegraRead NegraWF NegraAccept PropsTree.

(** Deciding the vocabulary on concrete lines. *)
Definition is_bosb (l : str) : bool := starts_with (lit "#BOS") (trim l).
Definition is_eosb (l : str) : bool := starts_with (lit "#EOS") (trim l).
Lemma plain_dec l : negb (is_bosb l) && negb (is_eosb l) = true -> plain_line l.
Proof.
  intros [H1 H2]%andb_true_iff. apply negb_true_iff in H1, H2. unfold plain_line.
  rewrite <- starts_bos, <- starts_eos. split; by apply not_true_iff_false.
Qed.
Lemma plain_all ls : forallb (fun l => negb (is_bosb l) && negb (is_eosb l)) ls = true -> Forall plain_line ls.
Proof. rewrite forallb_forall. intros H. apply Forall_forall. intros l Hl. apply plain_dec, H. by apply elem_of_list_In. Qed.

Definition ex_bos : str := lit "#BOS 12  3 meta".
Definition ex_eos : str := lit "#EOS 12".
Definition ex_body : list str := text_lines (lit
"Der     --   ART nom  NK 5
Hund    Hund NN  --   HD 5
bellt   --   V   --   -- 6  OA 5
nie     --   ADV --   MO 5 %% comment
schoen  --   ADJ --   -- 0
#5      --   NP=X --  SB 6
#6      --   VP   --  -- 0
").
Lemma ex_bos_ok : is_bos ex_bos.
Proof. apply starts_bos. by vm_compute. Qed.
Lemma ex_eos_ok : is_eos ex_eos.
Proof. apply starts_eos. by vm_compute. Qed.
Lemma ex_body_plain : Forall plain_line ex_body.
Proof. apply plain_all. by vm_compute. Qed.

(** ** C38: the reader on arbitrary streams *)

(** Lines outside of a sentence are skipped. *)
Theorem C38_outside pre ls : Forall plain_line pre -> negra_read (map Some pre ++ ls) = negra_read ls.
Proof. rewrite !negra_read_run. apply run_outside. Qed.
Example C38_outside_ex : Forall plain_line [lit "%% comment"; lit ""; lit "Der -- ART -- NK 500"].
Proof. apply plain_all. by vm_compute. Qed.

(** After any [#EOS] line the reader is in its initial state: what comes before, however malformed,
    does not change what is delivered for the lines after it. *)
Theorem C38_resync pre eos post : is_eos eos ->
  negra_read (pre ++ Some eos :: post) =
    (xs ← negra_read (pre ++ [Some eos]); ys ← negra_read post; Ret (xs ++ ys)).
Proof. rewrite !negra_read_run. intros H. by apply run_eos. Qed.
(** The sentence in the middle is delivered, an error for the malformed one before it. *)
Example C38_resync_ex : is_eos ex_eos /\
  match negra_read (map Some ([lit "#BOS 1"; lit "not a line"; lit "#EOS 1"] ++ ex_bos :: ex_body ++ [ex_eos; lit "#EOS"])) with
  | Ret [Err; Err; Ok t; Err] => tr_nterm t = 5
  | _ => False
  end.
Proof. split; [apply ex_eos_ok|by vm_compute]. Qed.

(** A sentence gives one result, or two errors: one for the header or a line and one for the
    footer, because the sentence was given up at the first one. *)
Theorem C38_block bos body eos rs : is_bos bos -> Forall plain_line body -> is_eos eos ->
  negra_read (Some bos :: map Some body ++ [Some eos]) = Ret rs -> rs = [Err; Err] \/ exists r, rs = [r].
Proof.
  intros Hb Hp He. rewrite negra_read_run.
  destruct (run_sentence bos body eos Hb Hp He) as [->|(als & b & _ & ->)]; [intros [= <-]; by left|].
  intros (r & _ & [= <-])%bind_Ret. eauto.
Qed.
Example C38_block_ex : is_bos ex_bos /\ Forall plain_line ex_body /\ is_eos ex_eos /\
  match negra_read (Some ex_bos :: map Some ex_body ++ [Some ex_eos]) with Ret [Ok t] => tr_nterm t = 5 | _ => False end.
Proof. split; [apply ex_bos_ok|]. split; [apply ex_body_plain|]. split; [apply ex_eos_ok|by vm_compute]. Qed.

(** A complete sentence is delivered. *)
Theorem C38_complete bos body eos : complete bos body eos ->
  exists t, negra_read (Some bos :: map Some body ++ [Some eos]) = Ret [Ok t].
Proof. rewrite negra_read_run. apply run_complete. Qed.

(** Deciding [complete] on concrete sentences: all quantifiers range over the lines. *)
Definition someb {A} (o : option A) : bool := match o with Some _ => true | None => false end.
Definition readableb (l : str) : bool :=
  (someb (parent_id l) &&
   (match fields_of l !! 6 with None => true | Some f => starts_percent f || someb (sec_id l) end) &&
   (negb (starts_with (lit "#") (trim l)) || someb (own_id l)))%bool.
Lemma someb_spec {A} (o : option A) : someb o = true -> is_Some o.
Proof. destruct o; [eauto|done]. Qed.
Lemma readable_all ls : forallb readableb ls = true -> Forall readable ls.
Proof.
  rewrite forallb_forall. intros H. apply Forall_forall. intros l Hl%elem_of_list_In. specialize (H l Hl).
  apply andb_true_iff in H as [H H3]. apply andb_true_iff in H as [H1 H2]. split; [by apply someb_spec|]. split.
  - destruct (fields_of l !! 6) as [f|]; [|by left]. right. apply orb_true_iff in H2 as [H2|H2%someb_spec]; [left|by right].
    destruct f as [|c f]; [done|]. simpl in H2. apply N.eqb_eq in H2 as ->. by exists f.
  - intros [x E]. apply orb_true_iff in H3 as [H3|H3]; [|by apply someb_spec]. exfalso.
    apply negb_true_iff, not_true_iff_false in H3. apply H3. rewrite E. apply is_prefix_spec. by exists x.
Qed.
Definition ids_of (l : str) : option nat * option nat * option nat := (parent_id l, own_id l, sec_id l).
Lemma ex_complete_gen bos body eos x w num rest id :
  trim bos = lit "#BOS" ++ x ++ [w] ++ num ++ rest -> Forall (fun c => is_white c = false) x -> is_white w = true ->
  Forall (fun c => is_white c = false) num -> (rest = [] \/ exists w' s, rest = w' :: s /\ is_white w' = true) ->
  parse_usize num = Some id -> is_eos eos -> fields_of eos !! 1 = Some (print_nat id) ->
  Forall plain_line body -> Forall readable body ->
  map ids_of body =
    [(Some 5, None, None); (Some 5, None, None); (Some 6, None, Some 5); (Some 5, None, None); (Some 0, None, None);
     (Some 6, Some 5, None); (Some 0, Some 6, None)] ->
  complete bos body eos /\ bottom_up body.
Proof.
  intros B1 B2 B3 B4 B5 B6 B7 B8 Hpl Hrd Hfields.
  assert (Hd : forall i l, body !! i = Some l -> map ids_of body !! i = Some (ids_of l)).
  { intros i l Hi. by rewrite list_lookup_fmap, Hi. }
  assert (Hu : forall i x, map ids_of body !! i = Some x -> exists l, body !! i = Some l /\ ids_of l = x).
  { intros i y (l & -> & Hl)%list_lookup_fmap_Some. eauto. }
  rewrite Hfields in Hd, Hu. unfold ids_of in Hd, Hu.
  assert (Hc : forall i l, body !! i = Some l ->
    (i < 5 /\ own_id l = None /\ (parent_id l = Some 5 \/ parent_id l = Some 6 \/ parent_id l = Some 0)) \/
    (i = 5 /\ own_id l = Some 5 /\ parent_id l = Some 6) \/ (i = 6 /\ own_id l = Some 6 /\ parent_id l = Some 0)).
  { intros i l Hi. specialize (Hd i l Hi).
    do 7 (destruct i as [|i]; [injection Hd as [= <- <- _]; first [left; split_and!; [lia|done|by auto]|right; by auto]|]). done. }
  assert (Hs : forall l, l ∈ body -> sec_id l = None \/ sec_id l = Some 5).
  { intros l [i Hi]%elem_of_list_lookup. specialize (Hd i l Hi).
    do 7 (destruct i as [|i]; [injection Hd as [= _ _ <-]; auto|]). done. }
  destruct (Hu 0 _ eq_refl) as (l0 & Hl0 & [= E0 _ _]). destruct (Hu 2 _ eq_refl) as (l2 & Hl2 & [= E2 _ _]).
  destruct (Hu 5 _ eq_refl) as (l5 & Hl5 & [= _ E5 _]). destruct (Hu 6 _ eq_refl) as (l6 & Hl6 & [= _ E6 _]).
  assert (Huniq : forall i j l l' id, body !! i = Some l -> body !! j = Some l' -> own_id l = Some id -> own_id l' = Some id -> i = j).
  { intros i j l l' id' Hi Hj Ho Ho'. destruct (Hc i l Hi) as [(_ & E & _)|[(-> & E & _)|(-> & E & _)]]; [congruence| |];
      destruct (Hc j l' Hj) as [(? & E' & _)|[(-> & E' & _)|(-> & E' & _)]]; congruence. }
  split.
  - unfold complete. split; [by exists x, w, num, rest, id|]. split; [done|]. split; [done|]. split.
    { split; [by intros ->|]. intros l id' Hl Hid. destruct (Hs l Hl) as [E|E]; [congruence|]. right. rewrite E in Hid. injection Hid as [= <-].
      exists l0. split; [by eapply elem_of_list_lookup_2|done]. }
    split.
    { intros i j l l' Hi Hj [y Hy] Hn. destruct (Hc i l Hi) as [(_ & E & _)|[(-> & E & _)|(-> & E & _)]]; [congruence| |];
        destruct (Hc j l' Hj) as [(? & E' & _)|[(-> & E' & _)|(-> & E' & _)]]; try lia; congruence. }
    split; [done|]. split.
    { intros i l id' Hi Ho. destruct (Hc i l Hi) as [(_ & E & _)|[(-> & E & _)|(-> & E & _)]]; [congruence| |].
      - split; [congruence|]. exists 0, l0. split_and!; [lia|done|congruence].
      - split; [congruence|]. exists 2, l2. split_and!; [lia|done|congruence]. }
    intros l id' [i Hi]%elem_of_list_lookup Hp Hne. apply elem_of_list_lookup_2 in Hl5, Hl6.
    destruct (Hc i l Hi) as [(_ & _ & [E|[E|E]])|[(-> & _ & E)|(-> & _ & E)]]; rewrite E in Hp; injection Hp as [= <-];
      first [done|by exists l5|by exists l6].
  - split; [done|]. split.
    + intros l [i Hi]%elem_of_list_lookup. destruct (Hc i l Hi) as [(_ & -> & _)|[(-> & -> & _)|(-> & -> & _)]]; done.
    + intros i j l l' id' Hi Hj Ho Hp. destruct (Hc i l Hi) as [(_ & E & _)|[(-> & E & _)|(-> & E & _)]]; [congruence| |];
        destruct (Hc j l' Hj) as [(? & E' & E'')|[(-> & E' & E'')|(-> & E' & E'')]]; try lia; congruence.
Qed.
Lemma ex_body_ok : complete ex_bos ex_body ex_eos /\ bottom_up ex_body.
Proof.
  apply (ex_complete_gen _ _ _ [] 32%N (lit "12") (lit "  3 meta") 12).
  - by vm_compute.
  - constructor.
  - done.
  - by repeat constructor.
  - right. by exists 32%N, (lit " 3 meta").
  - by vm_compute.
  - apply ex_eos_ok.
  - by vm_compute.
  - apply ex_body_plain.
  - apply readable_all. by vm_compute.
  - by vm_compute.
Qed.
Example C38_complete_ex : complete ex_bos ex_body ex_eos.
Proof. apply ex_body_ok. Qed.

(** No panic for streams whose sentences have a line and whose secondary edges start at known
    nodes.  Missing for the full statement: see the two witnesses below. *)
Theorem C38_no_panic_partial ls :
  (forall bos body eos, block_in ls bos body eos -> sound_body body) -> exists rs, negra_read ls = Ret rs.
Proof. rewrite negra_read_run. apply run_no_panic. Qed.
Lemma plain_before body eos body' eos' (post : list (option str)) :
  Forall plain_line body -> is_eos eos -> Forall plain_line body' -> is_eos eos' ->
  map Some body ++ [Some eos] = map Some body' ++ Some eos' :: post -> body' = body.
Proof.
  intros Hp He. revert body'. induction Hp as [|l body Hl Hp IH]; intros [|l' body'] Hp' He' E; try done.
  - simpl in E. injection E as [= <- E]. inversion Hp' as [|? ? [_ H] _]. done.
  - simpl in E. injection E as [= -> E]. by destruct Hl as [_ ?].
  - simpl in E. injection E as [= -> E]. f_equal. apply IH; [by inversion Hp'|done|done].
Qed.
Lemma one_block bos body eos bos' body' eos' :
  Forall plain_line body -> is_eos eos -> block_in (Some bos :: map Some body ++ [Some eos]) bos' body' eos' -> body' = body.
Proof.
  intros Hp He (Hb & Hp' & He' & pre & post & E). destruct pre as [|o pre].
  - simpl in E. injection E as [= -> E]. exact (plain_before _ _ _ _ _ Hp He Hp' He' E).
  - exfalso. simpl in E. injection E as [= <- E].
    assert (Hin : Some bos' ∈ map Some body ++ [Some eos]) by (rewrite E; set_solver).
    apply elem_of_app in Hin as [Hin|Hin%elem_of_list_singleton].
    + apply elem_of_list_fmap in Hin as (l & [= <-] & Hl). eapply Forall_forall in Hl; [|exact Hp]. by destruct Hl.
    + injection Hin as [= ->]. by eapply bos_eos.
Qed.
(** It applies to a complete sentence, and to a malformed one. *)
Example C38_no_panic_ex bos' body' eos' :
  (block_in (Some ex_bos :: map Some ex_body ++ [Some ex_eos]) bos' body' eos' -> sound_body body') /\
  (block_in (map Some [lit "#BOS 1"; lit "#500 -- --"; lit "#EOS 1"]) bos' body' eos' -> sound_body body').
Proof.
  split.
  - intros H. apply one_block in H as ->; [apply ex_body_ok|apply ex_body_plain|apply ex_eos_ok].
  - intros H. apply (one_block (lit "#BOS 1") [lit "#500 -- --"] (lit "#EOS 1")) in H as ->.
    + split; [done|]. intros l id ->%elem_of_list_singleton.
      assert (sec_id (lit "#500 -- --") = None) as -> by (by vm_compute). done.
    + apply plain_all. by vm_compute.
    + apply starts_eos. by vm_compute.
Qed.

(** An empty sentence panics: the span of the root would be empty (negra.rs:158, span.rs:61). *)
Theorem C38_empty_refuted : exists ls, negra_read (map Some ls) = Panic.
Proof. exists [lit "#BOS 1"; lit "#EOS 1"]. by vm_compute. Qed.
(** An unknown parent of a secondary edge panics (negra.rs:147). *)
Theorem C38_secondary_refuted : exists ls, negra_read (map Some ls) = Panic /\ 2 < length ls.
Proof. exists [lit "#BOS 1"; lit "a -- A -- -- 0 X 500"; lit "#EOS 1"]. vm_compute. split; [done|lia]. Qed.
(** Two results for one sentence. *)
Theorem C38_one_result_refuted : exists bos body eos,
  is_bos bos /\ Forall plain_line body /\ is_eos eos /\
  negra_read (Some bos :: map Some body ++ [Some eos]) = Ret [Err; Err].
Proof.
  exists (lit "#BOS 1"), [lit "a -- A --"], (lit "#EOS 1"). split; [apply starts_bos; by vm_compute|].
  split; [apply plain_all; by vm_compute|]. split; [apply starts_eos|]; by vm_compute.
Qed.
(** A sentence without [#EOS] line takes the next one with it: the complete sentence after it is not
    delivered. *)
Theorem C38_unclosed_refuted : exists pre bos body eos, complete bos body eos /\
  negra_read (map Some pre ++ Some bos :: map Some body ++ [Some eos]) = Ret [Err; Err].
Proof.
  exists [lit "#BOS 1"; lit "a -- A -- -- 0"], ex_bos, ex_body, ex_eos. split; [apply C38_complete_ex|by vm_compute].
Qed.

(** ** C39: delivered trees *)

(** Every delivered tree is the result of a sentence of the stream, and it is well-formed (with
    accurate spans and an accurate [is_projective]) if the lines of nonterminals come after the
    lines of their children.  Missing: other orders, see the witnesses below. *)
Theorem C39_wf_partial ls rs t : negra_read ls = Ret rs -> Ok t ∈ rs ->
  exists bos body eos, block_in ls bos body eos /\ negra_read (Some bos :: map Some body ++ [Some eos]) = Ret [Ok t] /\
    (bottom_up body -> WF t).
Proof. apply read_WF. Qed.
Example C39_ex : bottom_up ex_body /\
  match negra_read (Some ex_bos :: map Some ex_body ++ [Some ex_eos]) with
  | Ret [Ok t] => is_projective t = false /\ tr_nterm t = 5
  | _ => False
  end.
Proof. split; [apply ex_body_ok|by vm_compute]. Qed.

(** The tree of a stream with one result. *)
Definition the_tree (ls : list str) : tree :=
  match negra_read (map Some ls) with Ret [Ok t] => t | _ => tree_new [] [] end.
Definition one_tree (ls : list str) : bool :=
  match negra_read (map Some ls) with Ret [Ok _] => true | _ => false end.
Lemma one_tree_spec ls : one_tree ls = true -> negra_read (map Some ls) = Ret [Ok (the_tree ls)].
Proof. unfold one_tree, the_tree. destruct (negra_read _) as [[|[t|] [|? ?]]| |]; done. Qed.
Global Opaque the_tree.

(** The line of a parent before the line of its child: the span of the parent is wrong, the tree
    claims to be projective. *)
Definition late_child : list str := text_lines (lit
"#BOS 1
a -- A -- -- 500
b -- B -- -- 501
#501 -- Y -- -- 0
#500 -- X -- -- 501
#EOS 1
").
Lemma late_gen t :
  match nodes t !! 4, nodes t !! 1 with
  | Some (NT y), Some (T a) => span_contains (nt_span y) 0 = false /\ t_span a = span_of 0
  | _, _ => False
  end -> PE (edges t) 4 2 -> PE (edges t) 2 1 ->
  ~ WF t /\ exists y nt, nodes t !! y = Some (NT nt) /\ yields (nodes t) (edges t) y 0 /\ ~ covers (nt_span nt) 0.
Proof.
  destruct (nodes t !! 4) as [[y|]|] eqn:Ey; [|done..]. destruct (nodes t !! 1) as [[|a]|] eqn:Ea; [done| |done].
  intros [H1 H2] HP1 HP2.
  assert (Hy : yields (nodes t) (edges t) 4 0).
  { exists 1. split; [eapply rtc_l; [exact HP1|by apply rtc_once]|]. by exists a. }
  assert (Hn : ~ covers (nt_span y) 0) by (unfold covers; congruence).
  split; [|by exists 4, y]. intros W. apply Hn, (wf_nts _ W 4 y Ey). done.
Qed.
Theorem C39_order_refuted : exists ls t, negra_read (map Some ls) = Ret [Ok t] /\ ~ WF t /\
  exists y nt, nodes t !! y = Some (NT nt) /\ yields (nodes t) (edges t) y 0 /\ ~ covers (nt_span nt) 0.
Proof.
  exists late_child, (the_tree late_child). split; [apply one_tree_spec; by vm_compute|].
  apply late_gen; [by vm_compute|apply PE_of_children; by vm_compute|apply PE_of_children; by vm_compute].
Qed.
(** A nonterminal with two lines and one without: the latter is not below the root. *)
Definition twice : list str := text_lines (lit
"#BOS 1
a -- A -- -- 500
b -- B -- -- 501
#500 -- X -- -- 0
#500 -- X -- -- 0
#EOS 1
").
Lemma twice_gen t n : n <> tr_root t -> existsb (fun r => Nat.eqb (e_tgt r) n && is_primary (e_w r)) (edges t) = false ->
  ~ Dom (edges t) (tr_root t) n.
Proof.
  intros Hne He HD. apply rtc_inv_r in HD as [E|(p & _ & r & Hr & Hp & _ & Ht)]; [congruence|].
  apply not_true_iff_false in He. apply He, existsb_exists. exists r. split; [by apply elem_of_list_In|].
  by rewrite Hp, Ht, Nat.eqb_refl.
Qed.
Theorem C39_duplicate_refuted : exists ls t n, negra_read (map Some ls) = Ret [Ok t] /\
  is_Some (nodes t !! n) /\ ~ Dom (edges t) (tr_root t) n.
Proof.
  exists twice, (the_tree twice), 4. split; [apply one_tree_spec; by vm_compute|]. split; [apply someb_spec; by vm_compute|].
  apply twice_gen; by vm_compute.
Qed.
(** Two nonterminals that are the parent of each other: nothing is below the root. *)
Definition cycle : list str := text_lines (lit
"#BOS 1
a -- A -- -- 500
#500 -- X -- -- 501
#501 -- Y -- -- 500
#EOS 1
").
Lemma cycle_gen t p : existsb (fun r => Nat.eqb (e_src r) p) (edges t) = false -> forall c, ~ PE (edges t) p c.
Proof.
  intros He c (r & Hr & _ & Hs & _). apply not_true_iff_false in He. apply He, existsb_exists. exists r.
  split; [by apply elem_of_list_In|]. by apply Nat.eqb_eq.
Qed.
Theorem C39_cycle_refuted : exists ls t, negra_read (map Some ls) = Ret [Ok t] /\
  (forall c, ~ PE (edges t) (tr_root t) c) /\ exists a b, PE (edges t) a b /\ PE (edges t) b a.
Proof.
  exists cycle, (the_tree cycle). split; [apply one_tree_spec; by vm_compute|]. split.
  - apply cycle_gen. by vm_compute.
  - exists 2, 3. split; apply PE_of_children; by vm_compute.
Qed.

(** ** C41: the writer *)

(** Writing succeeds for every well-formed tree whose root is a nonterminal and whose secondary
    edges start at nonterminals: a header, one line per terminal in sentence order, one line per
    nonterminal other than the root, children before parents, numbered 500, 501, ..., a footer and
    an empty line.  Missing: the trees of the two witnesses below. *)
Theorem C41_lines_partial t c nt : WF t -> nodes t !! tr_root t = Some (NT nt) ->
  (forall r, r ∈ edges t -> is_primary (e_w r) = false -> exists nt, nodes t !! e_src r = Some (NT nt)) ->
  exists sid c' header words tl nts nl,
    negra_write c t = Ret (unlines (header :: tl ++ nl ++ [lit "#EOS " ++ sid; []]), c') /\
    sid_of t c sid c' /\ header_line t sid header /\
    sentence t words /\ Forall2 (term_line t nts) words tl /\
    numbering t nts /\ length nl = length nts /\
    (forall i n l, nts !! i = Some n -> nl !! i = Some l -> nt_line t nts (500 + i) n l).
Proof. apply negra_write_ok. Qed.
Lemma no_secondary t : forallb (fun r => is_primary (e_w r)) (edges t) = true ->
  forall r, r ∈ edges t -> is_primary (e_w r) = false -> exists nt, nodes t !! e_src r = Some (NT nt).
Proof. rewrite forallb_forall. intros H r Hr%elem_of_list_In Hf. rewrite H in Hf; done. Qed.
Example C41_ex : WF ex_disc /\ (exists nt, nodes ex_disc !! tr_root ex_disc = Some (NT nt)) /\
  (forall r, r ∈ edges ex_disc -> is_primary (e_w r) = false -> exists nt, nodes ex_disc !! e_src r = Some (NT nt)) /\
  match negra_write 7 ex_disc with Ret (s, c) => length (text_lines s) = 9 /\ c = 8 | _ => False end.
Proof.
  split; [apply ex_disc_WF|]. split; [eexists; by vm_compute|]. split; [apply no_secondary; by vm_compute|]. by vm_compute.
Qed.

(** A tree that is a single terminal panics: [parent().unwrap()] (negra.rs:397). *)
Theorem C41_single_refuted : exists t, WF t /\ negra_write 0 t = Panic.
Proof. exists (tree_new (lit "a") (lit "A")). split; [apply tree_new_WF|by vm_compute]. Qed.
(** The guard on secondary edges holds for every tree the reader delivers (nothing else in the
    library makes secondary edges). *)
Theorem C41_read_guard ls rs t : negra_read ls = Ret rs -> Ok t ∈ rs ->
  (exists nt, nodes t !! tr_root t = Some (NT nt)) /\
  forall r, r ∈ edges t -> is_primary (e_w r) = false -> exists nt, nodes t !! e_src r = Some (NT nt).
Proof.
  rewrite negra_read_run. intros H Hin.
  destruct (run_Ok ls rs t H Hin) as (bos & body & eos & als & b & Hb & Hs & Ht & _).
  pose proof (started_B0 _ _ _ _ Hs) as B.
  destruct (try_into_tree_spec b (trim eos) B) as [_ Hfin]; [apply starts_eos; apply Hb|].
  destruct (Hfin t Ht) as [_ (nt & new & _ & _ & H0 & _ & Hr & _ & _ & HN & HE & Hnew & _)].
  assert (Hnt : forall n w, bnodes b !! n = Some (NT w) -> exists w', nodes t !! n = Some (NT w')).
  { intros n w Hn. rewrite HN. destruct (decide (n = 0)) as [->|Hne]; [rewrite lookup_insert; eauto|]. rewrite lookup_insert_ne by done. eauto. }
  split; [rewrite Hr; by eapply Hnt|]. intros r. rewrite HE. intros [Hr'|Hr']%elem_of_app Hp.
  - destruct (Hnew r Hr') as (id & l & _ & Hid & _). destruct (b0_idx _ B _ _ Hid) as [w Hw]. by eapply Hnt.
  - destruct (b0_leaf _ B r Hr') as [Hp' _]. congruence.
Qed.
Example C41_read_guard_ex : one_tree (ex_bos :: ex_body ++ [ex_eos]) = true /\
  existsb (fun r => negb (is_primary (e_w r))) (edges (the_tree (ex_bos :: ex_body ++ [ex_eos]))) = true.
Proof. by vm_compute. Qed.
