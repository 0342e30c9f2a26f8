(** C64: the conversion tool from tagged sentences to output. *)
From Coq Require Import Lia ZArith.
From Verif Require Import ModModel EncModel Api ConvModel TreeSpec RoseSpec RoseProofs BaseProofs GraphProofs NavProofs Ordered EncSpec EncTree2 AnnotProofs PropsMod2 PropsMod3 PtbSpec PtbBuild PtbRound ShapeProofs
  PropsTree PropsMod PropsPtb ConllProofs ConvSpec ConvProofs ConvPipe PropsTag PropsConv SecProofs PropsSec PropsTotal PropsText EncExact.
Local Arguments lit : simpl never.

(** ** Specification *)
(** The two tag formats: which sentences have readable tags, and which depths they may have: positive
    ones, or for relative tags repaired depths below 2^63. *)
Definition tagged (rel : bool) (l : list token) : Prop :=
  if rel then exists e, Forall2 rel_entry l e else exists e, Forall2 abs_entry l e.
Definition tags_sound (rel : bool) (l : list token) : Prop :=
  if rel then forall e a, Forall2 rel_entry l e -> answers fixed e a -> depths_repr a else forall e, Forall2 abs_entry l e -> depths_pos e.
Definition tag_format (rel : bool) : in_format := if rel then IRelative else IAbsolute.
Definition read_tags (rel : bool) (l : list token) : outcome (result tree) := if rel then from_conllx_relative l else from_conllx_absolute l.
(** Reattaching and NEGRA output need two words; relative tags need numbers that fit. *)
Definition tags_fit (rel : bool) (o : options) (l : list token) : Prop :=
  (o_reattach o <> None \/ o_out o = ONegra -> 2 <= length l) /\ (forall t, read_tags rel l = Ret (Ok t) -> room o t).

(** ** Reading *)
Lemma entries_dec {E} (P : token -> E -> Prop) l : (forall k, (exists e, P k e) \/ ~ exists e, P k e) ->
  (exists k, k ∈ l /\ ~ exists e, P k e) \/ exists e, Forall2 P l e.
Proof.
  intros HD. induction l as [|k l [(x & Hx & IH)|[e IH]]]; [right; by exists []|left; exists x; split; [by right|done]|].
  destruct (HD k) as [[x Hx]|Hn]; [right; exists (x :: e); by constructor|left; exists k; split; [by left|done]].
Qed.
Lemma abs_dec k : (exists e, abs_entry k e) \/ ~ exists e, abs_entry k e.
Proof.
  destruct (read_tag ABS_KEY abs_try_from k) as [e|] eqn:H; [left; exists e; by apply read_abs_iff|right].
  intros [e He%read_abs_iff]. congruence.
Qed.
Lemma rel_dec k : (exists e, rel_entry k e) \/ ~ exists e, rel_entry k e.
Proof.
  destruct (read_tag REL_KEY rel_try_from k) as [e|] eqn:H; [left; exists e; by apply read_rel_iff|right].
  intros [e He%read_rel_iff]. congruence.
Qed.
Definition words_tree (l : list token) (t : tree) : Prop :=
  WF t /\ is_projective t = true /\ tr_nterm t = length l /\ exists r, Reads t r /\ map word3 (leaves r) = words_of l.
Lemma read_tags_ok rel l : l <> [] -> tags_sound rel l ->
  exists r, read_tags rel l = Ret r /\ (tagged rel l <-> r <> Err) /\ forall t, r = Ok t -> words_tree l t.
Proof.
  intros Hne HS. destruct rel; simpl in *.
  - destruct (C58_relative l) as [H1 H2]. destruct (entries_dec rel_entry l rel_dec) as [Hb|[e He]].
    + exists Err. split; [by apply H1|]. split; [|done]. split; [|done]. intros [e He]. exfalso. destruct Hb as (k & [i Hi]%elem_of_list_lookup & Hn).
      destruct (Forall2_lookup_l _ _ _ _ _ He Hi) as (x & _ & Hx). apply Hn. by exists x.
    + destruct (H2 e He) as (a & HU & _ & H3 & _). destruct (H3 Hne) as (t & Ht & (W & HP & HN & r & r1 & HR & HW & _)); [by apply (HS e a He), HU|]. exists (Ok t). split; [done|]. split; [split; [done|eauto]|].
      intros t' [= <-]. split; [done|]. split; [done|]. split; [done|eauto].
  - destruct (C58_absolute l) as (H1 & H2 & _). destruct (entries_dec abs_entry l abs_dec) as [Hb|[e He]].
    + exists Err. split; [by apply H1|]. split; [|done]. split; [|done]. intros [e He]. exfalso. destruct Hb as (k & [i Hi]%elem_of_list_lookup & Hn).
      destruct (Forall2_lookup_l _ _ _ _ _ He Hi) as (x & _ & Hx). apply Hn. by exists x.
    + destruct (H2 e He Hne (HS e He)) as (t & Ht & (W & HP & HN & r & r1 & HR & HW & _)). exists (Ok t). split; [done|]. split; [split; [done|eauto]|].
      intros t' [= <-]. split; [done|]. split; [done|]. split; [done|eauto].
Qed.
(** The condition on the depths is exact. *)
Theorem C64_reader_exact rel l : read_tags rel l = Panic <-> l = [] \/ ~ tags_sound rel l.
Proof.
  split.
  - intros HP. destruct l as [|k l]; [by left|right]. intros HS. destruct (read_tags_ok rel (k :: l)) as (r & Hr & _); [done|done|congruence].
  - intros [-> |HN]; [by destruct rel; vm_compute|]. destruct rel; simpl in *.
    + destruct (C58_relative l) as [_ H2]. destruct (entries_dec rel_entry l rel_dec) as [Hb|[e He]].
      * exfalso. apply HN. intros e a He. exfalso. destruct Hb as (k & [i Hi]%elem_of_list_lookup & Hn).
        destruct (Forall2_lookup_l _ _ _ _ _ He Hi) as (x & _ & Hx). apply Hn. by exists x.
      * destruct (H2 e He) as (a & HU & _ & _ & H4). apply H4. right. intros Hr. apply HN. intros e' a' He' Ha'.
        assert (e' = e) as ->. { clear -He He'. revert e' He'. induction He as [|k x l e Hk H IH]; intros e' H'; inversion H' as [|? y ? e2 Hy H2]; subst; [done|].
          f_equal; [|by apply IH]. apply read_rel_iff in Hk, Hy. congruence. }
        by apply HU in Ha' as ->.
    + destruct (C58_absolute l) as (_ & _ & H3). destruct (entries_dec abs_entry l abs_dec) as [Hb|[e He]].
      * exfalso. apply HN. intros e He. exfalso. destruct Hb as (k & [i Hi]%elem_of_list_lookup & Hn).
        destruct (Forall2_lookup_l _ _ _ _ _ He Hi) as (x & _ & Hx). apply Hn. by exists x.
      * apply (H3 e He). right. intros HD. apply HN. intros e' He'.
        assert (e' = e) as ->; [|done]. clear -He He'. revert e' He'. induction He as [|k x l e Hk H IH]; intros e' H'; inversion H' as [|? y ? e2 Hy H2]; subst; [done|].
          f_equal; [|by apply IH]. apply read_abs_iff in Hk, Hy. congruence.
Qed.
Print Assumptions C64_reader_exact.
Lemma mapO_all {A B} (g : A -> outcome B) (Q : A -> B -> Prop) l : (forall x, x ∈ l -> exists y, g x = Ret y /\ Q x y) ->
  exists ys, mapO g l = Ret ys /\ Forall2 (fun x y => g x = Ret y /\ Q x y) l ys.
Proof.
  induction l as [|x l IH]; intros H; [by exists []|]. destruct (H x) as (y & Hy & HQ); [by left|].
  destruct IH as (ys & Hys & HF); [intros; apply H; by right|]. exists (y :: ys). simpl. rewrite Hy. simpl. rewrite Hys. split; [done|]. by constructor.
Qed.
Lemma tags_read rel ss : (forall l, l ∈ ss -> l <> [] /\ tags_sound rel l) ->
  exists rs, read_sentences (tag_format rel) ss = Ret rs /\
    Forall2 (fun l r => read_tags rel l = Ret r /\ (tagged rel l <-> r <> Err) /\ forall t, r = Ok t -> words_tree l t) ss rs.
Proof.
  intros H. destruct (mapO_all (read_tags rel) (fun l r => (tagged rel l <-> r <> Err) /\ forall t, r = Ok t -> words_tree l t) ss) as (rs & Hrs & HF).
  { intros l Hl. destruct (H l Hl). by apply read_tags_ok. }
  exists rs. split; [|done]. destruct rel; exact Hrs.
Qed.
Lemma tags_convertible rel o l t : tags_fit rel o l -> read_tags rel l = Ret (Ok t) -> words_tree l t ->
  convertible o t /\ (o_out o = ONegra -> ~ bare_after o t /\ sec_inner t).
Proof.
  intros [H1 H2] HR (W & _ & HN & _). assert (HO : ordered t /\ forall r, ~ sec_edge t r).
  { assert (HI : Ok t ∈ [Ok t]) by (by left). assert (HRd : read_sentences (tag_format rel) [l] = Ret [Ok t]) by (destruct rel; simpl in *; by rewrite HR).
    split; [exact (proj2 C54_readers _ _ _ _ HRd HI)|exact (proj2 C61_readers _ _ _ _ HRd HI)]. }
  destruct HO as [HO HSe]. split.
  - split; [done|]. split; [done|]. split; [intros HX; rewrite HN; by apply H1; left|by apply H2].
  - intros E. split; [intros [HB _]; specialize (H1 (or_intror E)); lia|]. intros r Hr. by destruct (HSe r).
Qed.

(** ** C64 *)
(** For every file of tagged sentences and all options the tool writes a result or stops with an
    error.  Item [i] belongs to sentence [i], in which every token has a readable tag; a written
    sentence has its words. *)
Theorem C64_tags_partial choose rel o pos ss :
  (forall i, picks (choose i)) -> (forall l, l ∈ ss -> l <> [] /\ tags_sound rel l /\ tags_fit rel o l) ->
  exists its ok, tool_sentences choose (tag_format rel) o pos ss = Ret (its, ok) /\
    (ok = true <-> length its = length ss) /\ length its <= length ss /\
    forall i it, its !! i = Some it -> exists l, ss !! i = Some l /\ tagged rel l /\
      (o_out o = OConllx \/ tags_out o -> exists ks, it = Sentence ks /\ map k_form ks = map k_form l).
Proof.
  intros HC HS. destruct (tags_read rel ss) as (rs & HR & HF); [intros l Hl; by destruct (HS l Hl) as (? & ? & _)|].
  unfold tool_sentences. rewrite HR. simpl.
  assert (HV : forall i t, rs !! i = Some (Ok t) -> exists l, ss !! i = Some l /\ tagged rel l /\ words_tree l t /\
    convertible o t /\ (o_out o = ONegra -> ~ bare_after o t /\ sec_inner t)).
  { intros i t Ht. destruct (Forall2_lookup_r _ _ _ _ _ HF Ht) as (l & Hl & Hr & Htg & Hw). exists l. split; [done|]. split; [by apply Htg|].
    specialize (Hw t eq_refl). split; [done|]. eapply tags_convertible; [|done|done]. apply HS. by eapply elem_of_list_lookup_2. }
  destruct (C57_total_partial rs choose o pos 0 HC) as (its & ok & Hits).
  { intros t [i Ht]%elem_of_list_lookup. by destruct (HV i t Ht) as (_ & _ & _ & _ & H). }
  exists its, ok. split; [done|]. destruct (C57_stream rs _ _ _ _ _ _ Hits) as (H1 & H2 & H3 & _). rewrite (Forall2_length _ _ _ HF). split; [done|]. split; [done|].
  intros i it Hi. destruct (H3 i it Hi) as (t & t' & pos' & ci & ci' & Ht & Hc & Hw).
  destruct (HV i t Ht) as (l & Hl & Htg & (W & _ & HN & r & HRd & HWd) & HV1 & _). exists l. split; [done|]. split; [done|].
  intros HO. destruct (C55_sentence _ _ _ _ _ _ ci (HC i) HV1 Hc HO) as (ks & Hk & HL & Hks). rewrite Hw in Hk. injection Hk as -> ->.
  exists ks. split; [done|]. apply list_eq_same_length with (length ks).
  - rewrite map_length. congruence.
  - by rewrite map_length.
  - intros j x y Hj Hx Hy. change (map k_form ks) with (k_form <$> ks) in Hx. change (map k_form l) with (k_form <$> l) in Hy.
    apply list_lookup_fmap_inv in Hx as (k & -> & Hk). apply list_lookup_fmap_inv in Hy as (k' & -> & Hk').
    assert (HWj : words_of l !! j = Some (k_form k', default (lit "_") (k_pos k'), span_of j)) by (unfold words_of; by rewrite list_lookup_imap, Hk').
    rewrite <- HWd in HWj. change (map word3 (leaves r)) with (word3 <$> leaves r) in HWj. apply list_lookup_fmap_inv in HWj as (tm & E & Htm). injection E as E1 E2 E3.
    apply elem_of_list_lookup_2, leaves_rnodes, (Reads_rnodes t r _ W HRd) in Htm as [n Hn].
    destruct (Hks n tm j Hn (eq_sym E3)) as (k2 & Hk2 & HF' & _). rewrite Hk in Hk2. injection Hk2 as <-. congruence.
Qed.
(** If every token has a readable tag, the file is converted completely. *)
Theorem C64_complete_partial choose rel o ss :
  (forall i, picks (choose i)) -> (forall l, l ∈ ss -> l <> [] /\ tags_sound rel l /\ tags_fit rel o l /\ tagged rel l) ->
  o_reattach o = None -> (o_insert o <> None \/ o_parent o <> None -> forall l, l ∈ ss -> 2 <= length l) ->
  exists its, tool_sentences choose (tag_format rel) o None ss = Ret (its, true) /\ length its = length ss.
Proof.
  intros HC HS ER HP. destruct (C64_tags_partial choose rel o None ss HC) as (its & ok & H & HL & HL2 & _); [intros l Hl; destruct (HS l Hl) as (? & ? & ? & _); done|].
  destruct ok; [exists its; split; [done|by apply HL]|]. exfalso. clear HL.
  destruct (tags_read rel ss) as (rs & HR & HF); [intros l Hl; by destruct (HS l Hl) as (? & ? & _)|].
  unfold tool_sentences in H. rewrite HR in H. simpl in H.
  destruct (C57_stream _ _ _ _ _ _ _ H) as (_ & _ & _ & H4). destruct (H4 eq_refl) as (x & Hx & HX). clear H4. simpl in HX.
  destruct (Forall2_lookup_r _ _ _ _ _ HF Hx) as (l & Hl & Hr & Htg & Hw). apply elem_of_list_lookup_2 in Hl as Hin.
  destruct (HS l Hin) as (_ & _ & Hfit & Ht). destruct HX as [->|(t & -> & HX)]; [by apply Htg in Ht|].
  specialize (Hw t eq_refl). destruct (tags_convertible _ _ _ _ Hfit Hr Hw) as [HV _]. destruct Hw as (W & HPr & HNt & _).
  assert (HN : ~ bad_input o None t) by (intros [[]|[Hop [HB1 _]]]; specialize (HP Hop l Hin); lia).
  assert (o_out o = ONegra \/ o_out o <> ONegra) as [EO|EO] by (destruct (o_out o); auto).
  - destruct (C55_convert (choose (length its)) o None t (HC _) HV) as [_ HC2]. destruct (HC2 HN) as (tags & t1 & _ & _ & _ & _ & HC3).
    destruct HC3 as (t' & Ht' & _); [unfold tags_out; rewrite EO; by intros [[|] _]|]. rewrite Ht' in HX. destruct HX as [?|(t2 & p2 & ci & [= <- <-] & Hw)]; [done|].
    rewrite EO in Hw. simpl in Hw. by destruct (negra_write ci t') as [[? ?]| |].
  - destruct HX as [Hc|(t2 & p2 & ci & Hc & Hw)].
    + destruct (C56_written (choose (length its)) o None t 0 (HC _) HV ER (or_intror HPr) HN EO) as (t' & it & Hc' & _). congruence.
    + destruct (C56_written (choose (length its)) o None t ci (HC _) HV ER (or_intror HPr) HN EO) as (t' & it & Hc' & Hw'). simplify_eq. rewrite Hc in Hc'. simplify_eq. by rewrite Hw in Hw'.
Qed.
Lemma entries_fun l e e' : Forall2 abs_entry l e -> Forall2 abs_entry l e' -> e = e'.
Proof.
  intros H. revert e'. induction H as [|k x l e Hk H IH]; intros e' H'; inversion H' as [|? y ? e2 Hy H2]; subst; [done|].
  f_equal; [|by apply IH]. apply read_abs_iff in Hk, Hy. congruence.
Qed.
Definition ex_tagged : list token := [ex_tok "go" "NONE" "abs_ancestor"; ex_tok "on" "S+x" "abs_ancestor"].
Lemma ex_abs_sound : ex_abs <> [] /\ tags_sound false ex_abs /\ tags_fit false (ex_opts ORelative) ex_abs /\ tagged false ex_abs.
Proof.
  destruct C58_absolute_ex as (e & He & HD & Hne & _). split; [done|]. split; [|split; [|by exists e]].
  - intros e' He'. by rewrite (entries_fun _ _ _ He' He).
  - split; [simpl; lia|]. intros t Ht _. assert (E : match from_conllx_absolute ex_abs with Ret (Ok t) => (Z.of_nat (size (nodes t) + tr_nterm t) <? Z.of_N isize_bound)%Z | _ => false end = true) by (by vm_compute).
    simpl in Ht. rewrite Ht in E. by apply Z.ltb_lt.
Qed.
(** The first sentence is written; the tool stops at the second one, which has an unreadable tag. *)
Example C64_tags_ex : (forall l, l ∈ [ex_abs; ex_tagged] -> l <> [] /\ tags_sound false l /\ tags_fit false (ex_opts ORelative) l) /\
  ex_toks (tool_sentences (fun _ => ex_choose) IAbsolute (ex_opts ORelative) None [ex_abs; ex_tagged]) = ([[lit "a"; lit "b"; lit "c"; lit "d"]], false).
Proof.
  split; [|by vm_compute]. intros l [->|Hl]%elem_of_cons; [by destruct ex_abs_sound as (? & ? & ? & _)|]. apply elem_of_list_singleton in Hl as ->.
  assert (HR : from_conllx_absolute ex_tagged = Ret Err) by (by vm_compute). split; [done|]. split.
  - intros e He. exfalso. destruct (C58_absolute ex_tagged) as (_ & H2 & H3).
    destruct (depths_pos_dec e) as [HD|(b & u & Hb & H0)].
    + destruct (H2 e He) as (t & Ht & _); [done|done|congruence].
    + rewrite (H3 e He) in HR; [done|]. right. intros HD. specialize (HD b u Hb). lia.
  - split; [simpl; lia|]. simpl. intros t Ht. congruence.
Qed.
Example C64_complete_ex : (forall l, l ∈ [ex_abs] -> l <> [] /\ tags_sound false l /\ tags_fit false (ex_opts ORelative) l /\ tagged false l) /\
  (forall l, l ∈ [ex_abs] -> 2 <= length l).
Proof.
  split; intros l ->%elem_of_list_singleton; [apply ex_abs_sound|]. simpl. lia.
Qed.
(** Witnesses for what is excluded: an empty sentence and a depth of zero panic, one word cannot be
    reattached or written as NEGRA. *)
Definition ex_single : list token := [ex_tok "a" "NONE" "abs_ancestor"].
Theorem C64_tool_refuted : exists choose o, picks choose /\
  tool_sentences (fun _ => choose) IAbsolute o None [[]] = Panic /\
  tool_sentences (fun _ => choose) IAbsolute o None [[ex_tok "a" "S+0" "abs_ancestor"; ex_tok "b" "NONE" "abs_ancestor"]] = Panic /\
  tool_sentences (fun _ => choose) IAbsolute o None [ex_single] = Panic.
Proof.
  exists ex_choose, (mk_opts ONegra false false false None None [] None None [] None). split; [apply ex_choose_picks|].
  split; [by vm_compute|]. split; by vm_compute.
Qed.
Print Assumptions C64_tags_partial.
Print Assumptions C64_complete_partial.
