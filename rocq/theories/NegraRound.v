(** Reading back what the NEGRA writer wrote: text and lines. *)
From Coq Require Import Lia.
From Verif Require Import NegraModel TreeSpec BaseProofs SpanProofs ShapeProofs GraphProofs SortProofs TreeOps RoseProofs NegraSpec NegraWrite NegraStep NegraRead NegraWF NegraAccept.

(** ** Text *)
Notation nowhite s := (Forall (fun c => is_white c = false) s).
Lemma split_white_word s : nowhite s -> split_white s = [s].
Proof. induction 1 as [|c s Hc _ IH]; [done|]. simpl. by rewrite Hc, IH. Qed.
Lemma split_white_app p s : nowhite p -> split_white (p ++ 32%N :: s) = p :: split_white s.
Proof. induction 1 as [|c p Hc _ IH]; [done|]. cbn [app split_white]. by rewrite Hc, IH. Qed.
Lemma split_white_spaces k s : split_white (replicate k 32%N ++ s) = replicate k [] ++ split_white s.
Proof. induction k as [|k IH]; [done|]. cbn [replicate app]. rewrite <- IH. done. Qed.
Lemma filter_nonempty_spaces k (l : list str) : filter (fun p => p <> []) (replicate k [] ++ l) = filter (fun p => p <> []) l.
Proof. induction k as [|k IH]; [done|]. cbn [replicate app]. rewrite filter_cons_False; [done|]. tauto. Qed.
Lemma spaced_fields fs s : spaced fs s -> Forall word fs -> split_whitespace s = fs.
Proof.
  unfold split_whitespace. induction 1 as [f|f k fs s Hk H IH]; intros HF.
  - apply Forall_singleton in HF as [Hne Hw]. rewrite split_white_word by done. rewrite filter_cons_True by done. done.
  - apply Forall_cons in HF as [[Hne Hw] HF]. destruct k as [|k]; [lia|]. cbn [replicate app].
    rewrite split_white_app by done. rewrite filter_cons_True by done. f_equal.
    rewrite split_white_spaces, filter_nonempty_spaces. by apply IH.
Qed.
Lemma trim_fix c s d s' : c :: s = s' ++ [d] -> is_white c = false -> is_white d = false -> trim (c :: s) = c :: s.
Proof.
  intros E Hc Hd. unfold trim. cbn [trim_left]. rewrite Hc, E, rev_unit. cbn [trim_left]. rewrite Hd.
  rewrite <- rev_unit, rev_involutive. done.
Qed.
Lemma word_head s : word s -> exists c s', s = c :: s' /\ is_white c = false.
Proof. intros [Hne H]. destruct s as [|c s]; [done|]. apply Forall_cons in H as [H _]. eauto. Qed.
Lemma word_last s : word s -> exists d s', s = s' ++ [d] /\ is_white d = false.
Proof.
  intros [Hne H]. destruct s as [|d s' _] using rev_ind; [done|]. apply Forall_app in H as [_ H].
  apply Forall_cons in H as [H _]. eauto.
Qed.
Lemma spaced_ends fs s : spaced fs s -> Forall word fs ->
  (exists f fs' s', fs = f :: fs' /\ s = f ++ s') /\ exists d s', s = s' ++ [d] /\ is_white d = false.
Proof.
  induction 1 as [f|f k fs s Hk H IH]; intros HF; apply Forall_cons in HF as [Hf HF].
  - split; [exists f, [], []; by rewrite app_nil_r|by apply word_last].
  - split; [by exists f, fs, (replicate k 32%N ++ s)|]. destruct (IH HF) as [_ (d & s' & -> & Hd)].
    exists d, (f ++ replicate k 32%N ++ s'). split; [by rewrite !app_assoc|done].
Qed.
Lemma spaced_trim fs s : spaced fs s -> Forall word fs -> trim s = s.
Proof.
  intros H HF. destruct (spaced_ends _ _ H HF) as [(f & fs' & s' & -> & E) (d & s2 & E2 & Hd)].
  apply Forall_cons in HF as [Hf _]. destruct (word_head f Hf) as (c & f' & -> & Hc).
  rewrite E in *. eapply trim_fix; [exact E2|done|done].
Qed.
Lemma spaced_chars fs s x : spaced fs s -> Forall word fs -> is_white x = true -> x <> 32%N -> x ∉ s.
Proof.
  intros H HF Hx Hne. assert (Hw : forall f, word f -> x ∉ f).
  { intros f [_ Hf] Hin. rewrite Forall_forall in Hf. apply Hf in Hin. congruence. }
  induction H as [f|f k fs s Hk H IH]; apply Forall_cons in HF as [Hf HF]; [by apply Hw|].
  rewrite !not_elem_of_app. split_and!; [by apply Hw| |by apply IH]. intros [? _]%elem_of_replicate. congruence.
Qed.

(** The lines of a text made of lines. *)
Lemma split_unlines ls : (forall l, l ∈ ls -> 10%N ∉ l) -> split_char 10%N (unlines ls) = ls ++ [[]].
Proof.
  unfold unlines. induction ls as [|l ls IH]; intros H; [done|]. cbn [map concat].
  rewrite <- app_assoc. cbn [app]. rewrite split_char_app by (apply H; set_solver). rewrite IH by set_solver. done.
Qed.
Lemma drop_last_empty_app ls : drop_last_empty (ls ++ [[]]) = map drop_cr ls.
Proof. induction ls as [|l ls IH]; [done|]. cbn [app map]. rewrite <- IH. by destruct ls. Qed.
Lemma text_lines_unlines ls : (forall l, l ∈ ls -> 10%N ∉ l /\ forall s, l <> s ++ [13%N]) -> text_lines (unlines ls) = ls.
Proof.
  intros H. unfold text_lines. rewrite split_unlines by (intros; by apply H). rewrite drop_last_empty_app.
  rewrite <- (map_id ls) at 2. apply map_ext_in. intros l Hl%elem_of_list_In. apply H in Hl as [_ Hl].
  unfold drop_cr. destruct l as [|c l _] using rev_ind; [done|]. rewrite rev_unit.
  destruct (N.eqb_spec c 13) as [->|]; [|done]. by destruct (Hl l).
Qed.
Lemma text_lines_app ls s : (forall l, l ∈ ls -> 10%N ∉ l /\ forall s, l <> s ++ [13%N]) ->
  text_lines (unlines ls ++ s) = ls ++ text_lines s.
Proof.
  intros H. unfold text_lines.
  assert (E : split_char 10%N (unlines ls ++ s) = ls ++ split_char 10%N s).
  { unfold unlines. induction ls as [|l ls IH]; [done|]. cbn [map concat app]. rewrite <- !app_assoc. cbn [app].
    rewrite split_char_app by (apply H; set_solver). f_equal. apply IH. set_solver. }
  rewrite E. clear E. pose proof (split_char_nil 10%N s) as Hne. induction ls as [|l ls IH]; [done|]. cbn [app].
  assert (drop_cr l = l) as El.
  { destruct (H l) as [_ Hl]; [set_solver|]. unfold drop_cr. destruct l as [|c l _] using rev_ind; [done|]. rewrite rev_unit.
    destruct (N.eqb_spec c 13) as [->|]; [|done]. by destruct (Hl l). }
  rewrite <- IH by set_solver.
  assert (G : ls ++ split_char 10%N s <> []) by (intros [_ ?]%app_eq_nil; done).
  destruct (ls ++ split_char 10%N s); [done|]. cbn [drop_last_empty]. by rewrite El.
Qed.

Lemma digit_nowhite c : (48 <= c <= 57)%N -> is_white c = false.
Proof.
  intros Hc. unfold is_white. repeat rewrite orb_false_iff.
  split_and!; try (apply N.eqb_neq; lia); apply andb_false_iff; rewrite !N.leb_gt; lia.
Qed.
Lemma print_nat_word k : word (print_nat k).
Proof.
  split; [apply print_nat_nonnil|]. apply Forall_forall. intros c Hc%print_nat_digits. by apply digit_nowhite.
Qed.
Lemma dashes_word : word (lit "--").
Proof. split; [done|repeat constructor]. Qed.
Lemma or_dashes_word o : (forall s, o = Some s -> word s) -> word (or_dashes o).
Proof. intros H. destruct o as [s|]; [by apply H|apply dashes_word]. Qed.
Lemma undash_or o : (forall s, o = Some s -> s <> lit "--") -> undash (or_dashes o) = o.
Proof.
  intros H. unfold undash, str_eqb. destruct o as [s|]; cbn [or_dashes].
  - rewrite bool_decide_eq_false_2; [done|]. by apply H.
  - by rewrite bool_decide_eq_true_2.
Qed.

(** A line that can stand in a text. *)
Definition clean (l : str) : Prop := 10%N ∉ l /\ forall s, l <> s ++ [13%N].
Lemma spaced_clean fs l : spaced fs l -> Forall word fs -> clean l.
Proof.
  intros H HF. split; [by eapply spaced_chars|]. intros s ->. 
  assert (13%N ∉ s ++ [13%N]); [by eapply spaced_chars|set_solver].
Qed.
Definition morph_feats (m : option str) : option features :=
  match m with Some m => Some (<[morph_key := Some m]> ∅) | None => None end.

Section written.
  Context (t : tree) (nts : list nat).
  Hypothesis (W : WF t) (A : writable t) (HN : numbering t nts).

  Lemma nts_bound : length nts <= size (nodes t).
  Proof using HN.
    clear W A. destruct HN as (H1 & H2 & _). rewrite <- size_dom.
    replace (length nts) with (size (list_to_set (C := gset nat) nts)) by (by apply size_list_to_set).
    apply subseteq_size. intros n Hn%elem_of_list_to_set%H2. destruct Hn as [_ [nt Hn]]. apply elem_of_dom. eauto.
  Qed.
  Lemma id_of_bound n k : id_of t nts n k -> (N.of_nat k < usize_bound)%N.
  Proof using A HN.
    pose proof nts_bound. pose proof (wr_size t A). intros [[_ ->]|(i & Hi%lookup_lt_Some & ->)]; lia.
  Qed.
  Lemma id_of_fun n k k' : id_of t nts n k -> id_of t nts n k' -> k = k'.
  Proof using HN.
    destruct HN as (H1 & H2 & _). intros [[-> ->]|(i & Hi & ->)] [[? ->]|(j & Hj & ->)]; try done.
    - apply elem_of_list_lookup_2, H2 in Hj as [Hne _]. done.
    - subst. apply elem_of_list_lookup_2, H2 in Hi as [Hne _]. done.
    - f_equal. by eapply NoDup_lookup.
  Qed.
  Lemma id_of_inj n n' k : id_of t nts n k -> id_of t nts n' k -> n = n'.
  Proof. intros [[-> ->]|(i & Hi & ->)] [[-> ?]|(j & Hj & ?)]; try lia. assert (i = j) as -> by lia. congruence. Qed.
  Lemma id_of_total n nt : nodes t !! n = Some (NT nt) -> exists k, id_of t nts n k.
  Proof using HN.
    intros Hn. destruct (decide (n = tr_root t)) as [->|Hne]; [exists 0; by left|].
    assert (n ∈ nts) as [i Hi]%elem_of_list_lookup by (apply HN; eauto). exists (500 + i). right. eauto.
  Qed.

  (** The secondary edge of a line. *)
  Definition sec_ok (n : nat) (sec : option (str * nat)) : Prop :=
    match sec with
    | Some (l, k) => exists r, r ∈ edges t /\ is_primary (e_w r) = false /\ e_tgt r = n /\ id_of t nts (e_src r) k /\
                     l = or_dashes (edge_label (e_w r))
    | None => forall r, r ∈ edges t -> is_primary (e_w r) = false -> e_tgt r = n ->
                exists r' l, r' ∈ edges t /\ is_primary (e_w r') = false /\ e_tgt r' = n /\ edge_label (e_w r') = Some (37%N :: l)
    end.
  Lemma edge_fields_parse n es : edge_fields t nts n es ->
    exists r k sec, r ∈ edges t /\ is_primary (e_w r) = true /\ e_tgt r = n /\ id_of t nts (e_src r) k /\
      sec_ok n sec /\ Forall word es /\
      forall f0 f1 f2 f3, edge_part (f0 :: f1 :: f2 :: f3 :: es) = Some (edge_label (e_w r), k, sec).
  Proof using A HN.
    intros (r & k & H1 & H2 & H3 & H4 & Hes).
    assert (Hl : word (or_dashes (edge_label (e_w r)))).
    { apply or_dashes_word. intros s Hs. by apply (wr_edge t A r s). }
    assert (Hu : undash (or_dashes (edge_label (e_w r))) = edge_label (e_w r)).
    { apply undash_or. intros s Hs. by apply (wr_edge t A r s). }
    pose proof (parse_print_nat k (id_of_bound _ _ H4)) as Hk.
    destruct Hes as [[Hno ->]|(r2 & k2 & G1 & G2 & G3 & G4 & ->)].
    - exists r, k, None. split_and!; try done.
      + intros r' Hr' Hp Ht. rewrite Hno in Hp; done.
      + repeat constructor; [apply Hl..|apply print_nat_nonnil|apply print_nat_word].
      + intros. unfold edge_part. cbn [lookup list_lookup drop opt_fields]. by rewrite Hk, Hu.
    - assert (Hl2 : word (or_dashes (edge_label (e_w r2)))).
      { apply or_dashes_word. by apply (wr_sec t A r2). }
      pose proof (parse_print_nat k2 (id_of_bound _ _ G4)) as Hk2.
      exists r, k, (if starts_percent (or_dashes (edge_label (e_w r2))) then None else Some (or_dashes (edge_label (e_w r2)), k2)).
      split_and!; try done.
      + destruct (starts_percent (or_dashes (edge_label (e_w r2)))) eqn:Es.
        * intros r' Hr' Hp Ht. destruct (edge_label (e_w r2)) as [[|c s]|] eqn:El; try done.
          simpl in Es. apply N.eqb_eq in Es as ->. by exists r2, s.
        * exists r2. done.
      + repeat constructor; try apply print_nat_nonnil; try apply print_nat_word; try apply Hl; apply Hl2.
      + intros. unfold edge_part. cbn [lookup list_lookup drop opt_fields head]. rewrite Hk, Hu.
        destruct (starts_percent (or_dashes (edge_label (e_w r2)))); [done|]. by rewrite Hk2.
  Qed.

  Lemma term_line_parse n l : term_line t nts n l ->
    exists tm morph r pid sec, nodes t !! n = Some (T tm) /\ has_feat (t_feats tm) (lit "morph") morph /\
      r ∈ edges t /\ is_primary (e_w r) = true /\ e_tgt r = n /\ id_of t nts (e_src r) pid /\ sec_ok n sec /\
      (forall k, parse_line k (trim l) =
        Some (TLine (mk_term (t_form tm) (t_pos tm) (t_lemma tm) (morph_feats morph) (span_of k)) (edge_label (e_w r)) pid sec)) /\
      plain_line l /\ clean l.
  Proof using A HN W.
    intros (tm & morph & es & Htm & Hm & Hes & Hsp).
    destruct (edge_fields_parse n es Hes) as (r & pid & sec & H1 & H2 & H3 & H4 & H5 & H6 & H7).
    destruct (wr_term t A n tm Htm) as (F1 & F2 & F3 & F4 & F5).
    assert (Hmv : forall s, morph = Some s -> value s) by (intros s ->; by apply F5).
    assert (HF : Forall word ([t_form tm; or_dashes (t_lemma tm); t_pos tm; or_dashes morph] ++ es)).
    { apply Forall_app. split; [|done]. repeat apply Forall_cons_2; try done; try (apply Forall_nil_2);
        apply or_dashes_word; intros s Hs; [by apply F4|by apply Hmv]. }
    pose proof (spaced_trim _ _ Hsp HF) as Et. pose proof (spaced_fields _ _ Hsp HF) as Ef.
    assert (Hh : forall s, l <> 35%N :: s).
    { intros s ->. destruct (spaced_ends _ _ Hsp HF) as [(f & fs & s' & [= <- <-] & E) _].
      destruct (t_form tm) as [|c fm] eqn:Efm; [by destruct F1|]. injection E as <- ->. by apply (F2 fm). }
    exists tm, morph, r, pid, sec. split_and!; try done.
    - intros k. unfold parse_line. rewrite Et, Ef.
      assert (starts_with (lit "#") l = false) as ->.
      { destruct l as [|c l]; [done|]. unfold starts_with. simpl. destruct (N.eqb_spec c 35) as [->|]; [by destruct (Hh l)|].
        destruct c as [|p]; [done|]. by repeat (destruct p as [p|p|]; try done). }
      unfold parse_fields. cbn [app lookup list_lookup]. change str with (list N) in *. rewrite H7. unfold term_content.
      rewrite !undash_or; [done| |]; intros s Hs; [by apply Hmv|by apply F4].
    - split; intros (s & E); rewrite Et in E; [by apply (Hh (lit "BOS" ++ s))|by apply (Hh (lit "EOS" ++ s))].
    - by eapply spaced_clean.
  Qed.
  Lemma nt_line_parse k n l : (N.of_nat k < usize_bound)%N -> n <> tr_root t -> nt_line t nts k n l ->
    exists nt ann r pid sec, nodes t !! n = Some (NT nt) /\ has_feat (nt_feats nt) (lit "node_annotation") ann /\
      r ∈ edges t /\ is_primary (e_w r) = true /\ e_tgt r = n /\ id_of t nts (e_src r) pid /\ sec_ok n sec /\
      (forall j, parse_line j (trim l) = Some (NLine k (nt_label nt) ann (edge_label (e_w r)) pid sec)) /\
      plain_line l /\ clean l.
  Proof using A HN W.
    intros Hkb Hroot (nt & ann & es & Hnt & Hm & Hes & Hsp).
    destruct (edge_fields_parse n es Hes) as (r & pid & sec & H1 & H2 & H3 & H4 & H5 & H6 & H7).
    destruct (wr_nt t A n nt Hnt Hroot) as (F1 & F2 & F4 & F3).
    set (lab := nt_label nt ++ match ann with Some a => lit "=" ++ a | None => [] end) in *.
    assert (HF : Forall word ([lit "#" ++ print_nat k; lit "--"; lab; lit "--"] ++ es)).
    { apply Forall_app. split; [|done]. repeat apply Forall_cons_2; try apply Forall_nil_2; try apply dashes_word.
      - split; [done|]. apply Forall_app. split; [by repeat constructor|apply print_nat_word].
      - split; [intros [E E2]%app_eq_nil; destruct (F4 E) as [x Hx]; unfold has_feat in Hm, Hx; rewrite <- Hx in Hm; by subst ann|].
        apply Forall_app. split; [apply F1|].
        destruct ann as [a|]; [|constructor]. apply Forall_app. split; [by repeat constructor|by apply F3]. }
    pose proof (spaced_trim _ _ Hsp HF) as Et. pose proof (spaced_fields _ _ Hsp HF) as Ef.
    assert (Hh : exists s, l = 35%N :: print_nat k ++ s).
    { destruct (spaced_ends _ _ Hsp HF) as [(f & fs & s' & [= <- <-] & E) _]. by exists s'. }
    assert (Hpl : forall c s, l = 35%N :: c :: s -> (48 <= c <= 57)%N).
    { intros c s ->. destruct Hh as [s' [= E]]. pose proof (print_nat_nonnil k) as Hne.
      destruct (print_nat k) as [|d ds] eqn:Ek; [done|]. injection E as -> _. apply (print_nat_digits k). rewrite Ek. set_solver. }
    exists nt, ann, r, pid, sec. split_and!; try done.
    - intros j. unfold parse_line. rewrite Et, Ef.
      assert (starts_with (lit "#") l = true) as ->.
      { destruct Hh as [s ->]. unfold starts_with. apply is_prefix_spec. by exists (print_nat k ++ s). }
      unfold parse_fields. cbn [app lookup list_lookup]. change str with (list N) in *. rewrite H7. cbn [lit tail app].
      simpl. rewrite parse_print_nat by done. 
      assert (split_char 61%N lab = nt_label nt :: match ann with Some a => [a] | None => [] end) as ->.
      { unfold lab. destruct ann as [a|].
        - change (lit "=" ++ a) with (61%N :: a). rewrite split_char_app by done. rewrite split_char_none by (by apply F3). done.
        - rewrite app_nil_r. by apply split_char_none. }
      by destruct ann.
    - split; intros (s & E); rewrite Et in E; [pose proof (Hpl 66%N (lit "OS" ++ s) E)|pose proof (Hpl 69%N (lit "OS" ++ s) E)]; lia.
    - by eapply spaced_clean.
  Qed.
End written.
