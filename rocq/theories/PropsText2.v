(** C63: the conversion tool from NEGRA files to output. *)
From Coq Require Import Lia ZArith.
From Verif Require Import ModModel EncModel Api ConvModel TreeSpec RoseSpec RoseProofs BaseProofs GraphProofs NavProofs Ordered EncTree2 AnnotProofs PropsMod2 PropsMod3 PtbSpec PtbBuild PtbRound ShapeProofs NegraSpec NegraStep
  PropsTree PropsMod PropsPtb PropsNegra ConllProofs ConvSpec ConvProofs ConvPipe PropsTag PropsConv SecProofs PropsSec PropsTotal PropsText PropsRead.
Local Arguments lit : simpl never.

(** ** Specification *)
(** The lines of words, in order. *)
Definition word_lines (body : list str) : list str := filter (fun l => own_id l = None) body.
(** A token with the form and the lemma of a line. *)
Definition token_of (l : str) (k : token) : Prop :=
  exists form lemma, take 2 (fields_of l) = [form; lemma] /\ k_form k = form /\ gives lemma (k_lemma k).
(** Reattaching needs two words; relative tags need numbers that fit. *)
Definition body_fits (o : options) (body : list str) : Prop :=
  (o_reattach o <> None -> 2 <= length (word_lines body)) /\
  (o_out o = ORelative -> (2 * Z.of_nat (length body) + 1 < Z.of_N isize_bound)%Z).
(** A file: complete sentences, each bottom-up, with other lines between them. *)
Inductive negra_file : list str -> list (str * list str * str) -> Prop :=
| nf_end pre : Forall plain_line pre -> negra_file pre []
| nf_next pre bos body eos post gs : Forall plain_line pre -> complete bos body eos -> bottom_up body ->
    negra_file post gs -> negra_file (pre ++ bos :: body ++ eos :: post) ((bos, body, eos) :: gs).

(** ** Trees of sentences *)
Definition sentence_tree (body : list str) (t : tree) : Prop :=
  WF t /\ (exists ns, tree_of_lines body t ns) /\ exists nt, nodes t !! tr_root t = Some (NT nt) /\ nt_label nt = lit "VROOT".
Lemma block_sentence bos body eos t : is_bos bos -> Forall plain_line body -> is_eos eos -> bottom_up body ->
  negra_read (Some bos :: map Some body ++ [Some eos]) = Ret [Ok t] -> sentence_tree body t.
Proof.
  intros Hb Hp He HU H. split; [|].
  - destruct (C39_wf_partial _ _ t H) as (b & bd & e & HB & _ & HW); [by left|]. apply one_block in HB as ->; auto.
  - destruct (C62_content_partial _ _ t H) as (b & bd & e & HB & _ & HW); [by left|]. apply one_block in HB as ->; [|done|done].
    destruct (HW (bottom_up_own _ HU)) as (ns & k & meta & nt & HT & _ & _ & Hn & Hr & _). eauto.
Qed.
Lemma sentence_words body t : sentence_tree body t -> forall i l, body !! i = Some l -> own_id l = None <-> i < tr_nterm t.
Proof.
  intros (W & [ns HT] & nt & Hrt & _) i l Hl. pose proof (wf_terms _ W) as Tm.
  assert (Hn : forall i l, body !! i = Some l -> exists n, ns !! i = Some n).
  { intros j x Hx. apply lookup_lt_is_Some_2. rewrite (tl_len _ _ _ HT). by eapply lookup_lt_Some. }
  destruct (Hn _ _ Hl) as [n Hi]. split.
  - intros Ho. destruct (tl_word _ _ _ HT i l n Hl Hi Ho) as (tm & Htm & _ & _ & _ & _ & _ & _ & _ & _ & _ & Hs).
    destruct (to_pos _ _ Tm n tm Htm) as (j & Hj & Hlt). rewrite Hs in Hj. by injection Hj as ->.
  - intros Hlt. destruct (to_surj _ _ Tm i Hlt) as (m & tm & Hm & Hs).
    assert (m = tr_root t \/ m ∈ ns) as [->|[j Hj]%elem_of_list_lookup] by (apply (tl_nodes _ _ _ HT); eauto); [congruence|].
    assert (exists x, body !! j = Some x) as [x Hx] by (apply lookup_lt_is_Some_2; rewrite <- (tl_len _ _ _ HT); by eapply lookup_lt_Some).
    destruct (own_id x) as [k|] eqn:Ex.
    + destruct (tl_nt _ _ _ HT j x m k Hx Hj Ex) as (nt' & Hnt' & _). congruence.
    + destruct (tl_word _ _ _ HT j x m Hx Hj Ex) as (tm' & Htm & _ & _ & _ & _ & _ & _ & _ & _ & _ & Hs').
      rewrite Hm in Htm. injection Htm as <-. rewrite Hs in Hs'. injection Hs' as E. assert (i = j) as -> by congruence. congruence.
Qed.
Lemma filter_first {A} (P : A -> Prop) `{!forall x, Decision (P x)} k : forall l, k <= length l ->
  (forall i x, l !! i = Some x -> P x <-> i < k) -> filter P l = take k l.
Proof.
  induction k as [|k IH]; intros [|x l] Hk HI; try done.
  - destruct (filter P (x :: l)) as [|y l'] eqn:E; [done|]. assert (Hy : y ∈ filter P (x :: l)) by (rewrite E; by left).
    apply elem_of_list_filter in Hy as [Hy [i Hi]%elem_of_list_lookup]. apply (HI i y Hi) in Hy. lia.
  - rewrite filter_cons, decide_True by (apply (HI 0 x); [done|lia]). simpl. f_equal. apply IH; [simpl in Hk; lia|].
    intros i y Hi. rewrite (HI (S i) y Hi). lia.
Qed.
Lemma sentence_take body t : sentence_tree body t -> word_lines body = take (tr_nterm t) body /\ length (word_lines body) = tr_nterm t.
Proof.
  intros HS. pose proof HS as (_ & [ns HT] & _). pose proof (tl_nterm _ _ _ HT) as E. split; [|done].
  apply filter_first; [|by apply sentence_words]. rewrite E. unfold word_lines. apply filter_length.
Qed.
Lemma sentence_size body t : sentence_tree body t -> size (nodes t) = S (length body).
Proof.
  intros (_ & [ns HT] & _). rewrite <- (tl_len _ _ _ HT). change (S (length ns)) with (length (tr_root t :: ns)).
  rewrite <- (size_list_to_set (C := gset nat) (tr_root t :: ns)) by apply (tl_nodup _ _ _ HT). rewrite <- (size_dom (D := gset nat)).
  f_equal. apply set_eq. intros n. rewrite elem_of_dom, elem_of_list_to_set, elem_of_cons. apply (tl_nodes _ _ _ HT).
Qed.
Lemma sentence_convertible o body t : sentence_tree body t -> ordered t -> body_fits o body -> convertible o t /\ ~ bare_after o t.
Proof.
  intros HS HO [H1 H2]. destruct (sentence_take _ _ HS) as [_ HL]. pose proof (sentence_size _ _ HS) as HZ.
  pose proof HS as (W & [ns HT] & nt & Hn & Hl). split.
  - split; [done|]. split; [done|]. split; [by rewrite <- HL|]. intros E. specialize (H2 E).
    assert (tr_nterm t <= length body) by (rewrite <- HL; apply filter_length). lia.
  - intros [_ HB]. destruct (HB _ _ Hn) as [_ E]. by rewrite Hl in E.
Qed.
Lemma sentence_item choose o pos body t t' pos' c it c' :
  picks choose -> convertible o t -> sentence_tree body t -> convert_tree choose o pos t = Ret (Ok (t', pos')) ->
  write_tree (o_out o) c t' = Ret (Ok (it, c')) -> o_out o = OConllx \/ tags_out o ->
  exists ks, it = Sentence ks /\ Forall2 token_of (word_lines body) ks.
Proof.
  intros HC HV HS Hc Hw HO. destruct (C55_sentence _ _ _ _ _ _ c HC HV Hc HO) as (ks & Hk & HL & Hks). rewrite Hw in Hk. injection Hk as -> ->.
  exists ks. split; [done|]. destruct (sentence_take _ _ HS) as [HT HL']. pose proof HS as (W & [ns HX] & _).
  apply Forall2_same_length_lookup_2; [congruence|]. intros i l k Hl Hi. rewrite HT in Hl.
  apply lookup_take_Some in Hl as [Hl Hlt].
  assert (exists n, ns !! i = Some n) as [n Hn] by (apply lookup_lt_is_Some_2; rewrite (tl_len _ _ _ HX); by eapply lookup_lt_Some).
  destruct (tl_word _ _ _ HX i l n Hl Hn) as (tm & Htm & form & lemma & p & m & Hf & E1 & E2 & _ & _ & E3); [by apply (sentence_words _ _ HS i)|].
  destruct (Hks n tm i Htm E3) as (k' & Hk' & F1 & F2). rewrite Hi in Hk'. injection Hk' as <-.
  exists form, lemma. split; [|split; [congruence|by rewrite F2]].
  change 2 with (2 `min` 4). by rewrite <- take_take, Hf.
Qed.

(** ** C63 *)
(** Any stream of sound, bottom-up sentences: the tool writes a result or stops with an error.  Every
    written item belongs to a sentence; a written sentence has its words with their lemmas. *)
Theorem C63_stream_partial choose m o pos ls :
  (forall i, picks (choose i)) ->
  (forall bos body eos, block_in ls bos body eos -> sound_body body /\ bottom_up body /\ body_fits o body) ->
  exists its ok, tool_text choose INegra m o pos ls = Ret (its, ok) /\
    forall it, it ∈ its -> exists bos body eos, block_in ls bos body eos /\
      (o_out o = OConllx \/ tags_out o -> exists ks, it = Sentence ks /\ Forall2 token_of (word_lines body) ks).
Proof.
  intros HC HB. destruct (C38_no_panic_partial ls) as [rs Hrs]; [intros; by eapply HB|]. unfold tool_text. simpl.
  assert (HV : forall t, Ok t ∈ rs -> exists bos body eos, block_in ls bos body eos /\ sentence_tree body t /\ convertible o t /\ ~ bare_after o t /\ sec_inner t).
  { intros t Ht. destruct (C39_wf_partial _ _ t Hrs Ht) as (bos & body & eos & Hb & Hr & _). exists bos, body, eos. split; [done|].
    destruct (HB _ _ _ Hb) as (_ & HU & HF). assert (HS : sentence_tree body t) by (destruct Hb as (? & ? & ? & _); by eapply block_sentence).
    split; [done|]. destruct (sentence_convertible o body t HS) as [H1 H2]; [exact (proj1 C54_readers INegra false _ _ _ Hrs Ht)|done|].
    split; [done|]. split; [done|]. exact (proj1 (proj1 C61_readers INegra false _ _ _ Hrs Ht)). }
  destruct (C57_total_partial rs choose o pos 0 HC) as (its & ok & Hits).
  { intros t Ht. destruct (HV t Ht) as (_ & _ & _ & _ & _ & H1 & H2 & H3). done. }
  exists its, ok. rewrite Hrs. split; [done|]. destruct (C57_stream rs _ _ _ _ _ _ Hits) as (_ & _ & H3 & _).
  intros it [i Hi]%elem_of_list_lookup. destruct (H3 i it Hi) as (t & t' & pos' & ci & ci' & Ht & Hc & Hw).
  destruct (HV t) as (bos & body & eos & Hb & HS & HV1 & _); [by eapply elem_of_list_lookup_2|]. exists bos, body, eos. split; [done|].
  intros HO. by eapply sentence_item.
Qed.

Lemma file_read ls gs : negra_file ls gs -> exists ts, negra_read (map Some ls) = Ret (map Ok ts) /\
  Forall2 (fun g t => negra_read (Some g.1.1 :: map Some g.1.2 ++ [Some g.2]) = Ret [Ok t] /\ complete g.1.1 g.1.2 g.2 /\ bottom_up g.1.2) gs ts.
Proof.
  induction 1 as [pre Hp|pre bos body eos post gs Hp HC HU HF (ts & IH & IH2)].
  - exists []. split; [|constructor]. rewrite <- (app_nil_r (map Some pre)). rewrite C38_outside by done. done.
  - destruct (C38_complete _ _ _ HC) as [t Ht]. exists (t :: ts). split; [|constructor; done].
    rewrite map_app. rewrite C38_outside by done. cbn [map]. rewrite map_app. cbn [map].
    change (Some bos :: map Some body ++ Some eos :: map Some post) with ((Some bos :: map Some body) ++ Some eos :: map Some post).
    rewrite C38_resync; [|destruct HC as [(? & ? & ? & ? & ? & ? & ? & ? & ? & ? & ? & ? & ?) _]; done].
    change ((Some bos :: map Some body) ++ [Some eos]) with (Some bos :: map Some body ++ [Some eos]). rewrite Ht, IH. done.
Qed.
Lemma complete_marks bos body eos : complete bos body eos -> is_bos bos /\ Forall plain_line body /\ is_eos eos.
Proof.
  intros [(x & w & num & rest & id & E & _ & _ & _ & _ & _ & He & _) [Hp _]]. split; [|done]. exists (x ++ [w] ++ num ++ rest). done.
Qed.
(** A file of complete sentences: item [i] belongs to sentence [i]. *)
Theorem C63_file_partial choose m o pos ls gs :
  (forall i, picks (choose i)) -> negra_file ls gs -> (forall g, g ∈ gs -> body_fits o g.1.2) ->
  exists its ok, tool_text choose INegra m o pos (map Some ls) = Ret (its, ok) /\
    (ok = true <-> length its = length gs) /\ length its <= length gs /\
    forall i it, its !! i = Some it -> exists bos body eos, gs !! i = Some (bos, body, eos) /\
      (o_out o = OConllx \/ tags_out o -> exists ks, it = Sentence ks /\ Forall2 token_of (word_lines body) ks).
Proof.
  intros HC HF HB. destruct (file_read _ _ HF) as (ts & Hrs & HT). unfold tool_text. simpl. rewrite Hrs. simpl.
  assert (HV : forall i t, ts !! i = Some t -> exists bos body eos, gs !! i = Some (bos, body, eos) /\ sentence_tree body t /\ convertible o t /\ ~ bare_after o t /\ sec_inner t).
  { intros i t Ht. destruct (Forall2_lookup_r _ _ _ _ _ HT Ht) as ([[bos body] eos] & Hg & Hr & HCo & HU). exists bos, body, eos. split; [done|]. simpl in *.
    apply complete_marks in HCo as (H1 & H2 & H3). assert (HS : sentence_tree body t) by (by eapply block_sentence). split; [done|].
    assert (Hin : Ok t ∈ [Ok t]) by (by left).
    destruct (sentence_convertible o body t HS) as [H4 H5]; [exact (proj1 C54_readers INegra false _ _ _ Hr Hin)|by apply (HB (bos, body, eos)); eapply elem_of_list_lookup_2|].
    split; [done|]. split; [done|]. exact (proj1 (proj1 C61_readers INegra false _ _ _ Hr Hin)). }
  destruct (C57_total_partial (map Ok ts) choose o pos 0 HC) as (its & ok & Hits).
  { intros t Ht. apply elem_of_list_fmap in Ht as (x & [= ->] & [i Hi]%elem_of_list_lookup). destruct (HV i x Hi) as (_ & _ & _ & _ & _ & H1 & H2 & H3). done. }
  exists its, ok. split; [done|]. destruct (C57_stream _ _ _ _ _ _ _ Hits) as (H1 & H2 & H3 & _).
  rewrite map_length in H1, H2. rewrite (Forall2_length _ _ _ HT). split; [done|]. split; [done|].
  intros i it Hi. destruct (H3 i it Hi) as (t & t' & pos' & ci & ci' & Ht & Hc & Hw).
  change (map Ok ts) with (Ok <$> ts) in Ht. apply list_lookup_fmap_inv in Ht as (x & [= ->] & Ht).
  destruct (HV i x Ht) as (bos & body & eos & Hb & HS & HV1 & _). exists bos, body, eos. split; [done|].
  intros HO. by eapply sentence_item.
Qed.
(** Without [--reattach] and [--pos] it is converted completely if discontinuous trees are made
    projective or the output is NEGRA. *)
Theorem C63_complete choose m o ls gs :
  (forall i, picks (choose i)) -> negra_file ls gs -> (forall g, g ∈ gs -> body_fits o g.1.2) ->
  o_reattach o = None -> o_out o = ONegra \/ o_proj o = true ->
  exists its, tool_text choose INegra m o None (map Some ls) = Ret (its, true) /\ length its = length gs.
Proof.
  intros HC HF HB ER HP. destruct (C63_file_partial choose m o None ls gs HC HF HB) as (its & ok & H & HL & HL2 & _).
  destruct ok; [exists its; split; [done|by apply HL]|]. exfalso. clear HL.
  destruct (file_read _ _ HF) as (ts & Hrs & HT). unfold tool_text in H. simpl in H. rewrite Hrs in H. simpl in H.
  destruct (C57_stream _ _ _ _ _ _ _ H) as (_ & _ & _ & H4). destruct (H4 eq_refl) as (x & Hx & HX). clear H4. simpl in HX.
  change (map Ok ts) with (Ok <$> ts) in Hx. apply list_lookup_fmap_inv in Hx as (t & -> & Ht). destruct HX as [?|(t0 & [= <-] & HX)]; [done|].
  destruct (Forall2_lookup_r _ _ _ _ _ HT Ht) as ([[bos body] eos] & Hg & Hr & HCo & HU). simpl in *.
  apply complete_marks in HCo as (H1 & H2 & H3). assert (HS : sentence_tree body t) by (by eapply block_sentence).
  assert (Hin : Ok t ∈ [Ok t]) by (by left).
  destruct (sentence_convertible o body t HS) as [HV HBr]; [exact (proj1 C54_readers INegra false _ _ _ Hr Hin)|by apply (HB (bos, body, eos)); eapply elem_of_list_lookup_2|].
  assert (HN : ~ bad_input o None t) by (intros [[]|[_ ?]]; done).
  assert (o_out o = ONegra \/ o_out o <> ONegra) as [EO|EO] by (destruct (o_out o); auto).
  - destruct (C55_convert (choose (length its)) o None t (HC _) HV) as [_ HC2]. destruct (HC2 HN) as (tags & t1 & _ & _ & _ & _ & HC3).
    destruct HC3 as (t' & Ht' & _); [unfold tags_out; rewrite EO; by intros [[|] _]|]. rewrite Ht' in HX. destruct HX as [?|(t2 & p2 & ci & [= <- <-] & Hw)]; [done|].
    rewrite EO in Hw. simpl in Hw. by destruct (negra_write ci t') as [[? ?]| |].
  - destruct HP as [HP|HP]; [done|]. destruct HX as [Hc|(t2 & p2 & ci & Hc & Hw)].
    + destruct (C56_written (choose (length its)) o None t 0 (HC _) HV ER (or_introl HP) HN EO) as (t' & it & Hc' & _). congruence.
    + destruct (C56_written (choose (length its)) o None t ci (HC _) HV ER (or_introl HP) HN EO) as (t' & it & Hc' & Hw'). simplify_eq. rewrite Hc in Hc'. simplify_eq. by rewrite Hw in Hw'.
Qed.

Definition ex_file : list str := [lit "%% corpus"; ex_bos] ++ ex_body ++ [ex_eos; lit ""].
Lemma ex_file_ok : negra_file ex_file [(ex_bos, ex_body, ex_eos)].
Proof.
  apply (nf_next [lit "%% corpus"] ex_bos ex_body ex_eos [lit ""] []); [apply plain_all; by vm_compute|exact (proj1 ex_body_ok)|exact (proj2 ex_body_ok)|].
  apply nf_end, plain_all. by vm_compute.
Qed.
Lemma ex_body_fits o : body_fits o ex_body.
Proof.
  assert (E : length (word_lines ex_body) = 5) by (by vm_compute). assert (E' : length ex_body = 7) by (by vm_compute).
  split; [rewrite E; lia|rewrite E']. intros _. by vm_compute.
Qed.
Lemma ex_file_fits o g : g ∈ [(ex_bos, ex_body, ex_eos)] -> body_fits o g.1.2.
Proof. intros ->%elem_of_list_singleton. simpl. apply ex_body_fits. Qed.
Example C63_file_ex : picks ex_choose /\ negra_file ex_file [(ex_bos, ex_body, ex_eos)] /\
  (forall g, g ∈ [(ex_bos, ex_body, ex_eos)] -> body_fits (ex_opts ORelative) g.1.2) /\
  ex_toks (tool_text (fun _ => ex_choose) INegra false (ex_opts ORelative) None (map Some ex_file)) =
    ([[lit "Der"; lit "Hund"; lit "bellt"; lit "nie"; lit "schoen"]], true).
Proof. split; [apply ex_choose_picks|]. split; [apply ex_file_ok|]. split; [apply ex_file_fits|by vm_compute]. Qed.
Example C63_complete_ex : o_reattach (ex_opts3 ONegra) = None /\
  match tool_text (fun _ => ex_choose) INegra false (ex_opts3 ONegra) None (map Some ex_file) with
  | Ret ([Text s], true) => 8 <= length (text_lines s)
  | _ => False
  end.
Proof. split; [done|]. vm_compute. lia. Qed.
(** The two conditions of [C63_complete] are needed: a discontinuous tree is not written as brackets. *)
Theorem C63_discontinuous_refuted : exists choose o ls gs, picks choose /\ negra_file ls gs /\ gs <> [] /\ o_reattach o = None /\
  (forall g, g ∈ gs -> body_fits o g.1.2) /\ tool_text (fun _ => choose) INegra false o None (map Some ls) = Ret ([], false).
Proof.
  exists ex_choose, (mk_opts (OBracket Simple) false false false None None [] None None [] None), ex_file, [(ex_bos, ex_body, ex_eos)].
  split; [apply ex_choose_picks|]. split; [apply ex_file_ok|]. split; [done|]. split; [done|]. split; [apply ex_file_fits|by vm_compute].
Qed.
Example C63_stream_ex : forall bos body eos, block_in (Some ex_bos :: map Some ex_body ++ [Some ex_eos]) bos body eos ->
  sound_body body /\ bottom_up body /\ body_fits (ex_opts ORelative) body.
Proof.
  intros bos body eos H. apply one_block in H as ->; [|apply ex_body_plain|apply ex_eos_ok].
  split; [exact (proj1 (proj2 (proj2 (proj2 (proj1 ex_body_ok)))))|]. split; [exact (proj2 ex_body_ok)|].
  apply ex_body_fits.
Qed.
Print Assumptions C63_stream_partial.
Print Assumptions C63_file_partial.
Print Assumptions C63_complete.
Print Assumptions C62_content_partial.
