(** The results for one sentence, and sentences that are accepted. *)
From Coq Require Import Lia.
From Verif Require Import NegraModel TreeSpec BaseProofs SpanProofs ShapeProofs GraphProofs SortProofs ResetProofs TreeOps NegraSpec NegraStep NegraRead NegraWF.

Lemma run_plain_none body eos : Forall plain_line body -> is_eos eos -> run None (map Some body ++ [Some eos]) = Ret [Err].
Proof.
  intros Hp He. rewrite run_outside by done. cbn [run].
  assert (starts_with (lit "#BOS") (trim eos) = false) as ->.
  { apply not_true_iff_false. rewrite starts_bos. intros Hb. by apply bos_eos in Hb. }
  assert (starts_with (lit "#EOS") (trim eos) = true) as -> by (by apply starts_eos). done.
Qed.
Lemma plain_starts l : plain_line l -> starts_with (lit "#BOS") (trim l) = false /\ starts_with (lit "#EOS") (trim l) = false.
Proof. intros [H1 H2]. split; apply not_true_iff_false; [by rewrite starts_bos|by rewrite starts_eos]. Qed.
Lemma run_open body eos : Forall plain_line body -> is_eos eos -> forall b, B0 b ->
  run (Some b) (map Some body ++ [Some eos]) = Ret [Err; Err] \/
  exists als b', steps b body als b' /\
    run (Some b) (map Some body ++ [Some eos]) = (r ← try_into_tree b' (trim eos); Ret [r]).
Proof.
  intros Hp He. induction Hp as [|l body Hl Hp IH]; intros b B.
  - right. exists [], b. split; [constructor|]. cbn [map app run].
    assert (starts_with (lit "#BOS") (trim eos) = false) as ->.
    { apply not_true_iff_false. rewrite starts_bos. intros Hb. by apply bos_eos in Hb. }
    assert (starts_with (lit "#EOS") (trim eos) = true) as -> by (by apply starts_eos). done.
  - destruct (plain_starts l Hl) as [E1 E2]. cbn [map app run]. rewrite E1, E2.
    destruct (process_line_spec b (trim l) B) as (r & -> & HP). cbn [mbind outcome_bind].
    destruct r as [b'|]; [|left; by rewrite run_plain_none].
    destruct (parse_line (b_nterm b) (trim l)) as [a|] eqn:Ea; [|done]. destruct HP as [_ HP].
    specialize (HP b' eq_refl). destruct (IH b') as [E|(als & b'' & Hs & E)]; [by eapply stepped_B0|by left|right].
    exists (a :: als), b''. split; [by eapply steps_cons|done].
Qed.
(** A sentence alone gives one result, or an error for a line and another one for the footer. *)
Lemma run_sentence bos body eos : is_bos bos -> Forall plain_line body -> is_eos eos ->
  let ls := Some bos :: map Some body ++ [Some eos] in
  run None ls = Ret [Err; Err] \/
  exists als b, started bos body als b /\ run None ls = (r ← try_into_tree b (trim eos); Ret [r]).
Proof.
  intros Hb Hp He ls. unfold ls. cbn [run]. assert (Eb : starts_with (lit "#BOS") (trim bos) = true) by (by apply starts_bos).
  rewrite Eb. pose proof (from_header_spec _ Eb) as Hh. destruct (header_of (trim bos)) as [[id meta]|] eqn:Eh.
  - destruct Hh as (b & -> & Hf). cbn [mbind outcome_bind].
    destruct (run_open body eos Hp He b (fresh_B0 _ _ _ Hf)) as [E|(als & b' & Hs & E)]; [by left|right].
    exists als, b'. split; [|done]. split_and!; try done. by exists id, meta, b.
  - rewrite Hh. cbn [mbind outcome_bind]. left. by rewrite run_plain_none.
Qed.

(** *** Complete sentences *)
Lemma readable_parse k l : readable l -> exists a, parse_line k (trim l) = Some a.
Proof.
  intros ([pid Hp] & Hs & Ho). unfold parse_line, parse_fields, edge_part.
  unfold parent_id, sec_id, own_id, fields_of in *. set (fs := split_whitespace (trim l)) in *. clearbody fs.
  destruct fs as [|f0 [|f1 [|f2 [|f3 [|f4 [|f5 fs]]]]]]; try done.
  cbn [lookup list_lookup drop] in *. rewrite Hp, ?drop_0.
  assert (Hopt : exists sec, opt_fields fs = Some sec).
  { destruct fs as [|p parts]; [by eexists|]. unfold opt_fields, starts_percent. cbn [lookup list_lookup] in Hs.
    destruct Hs as [?|[[s [= ->]]|[x Hx]]]; [done|by eexists|].
    destruct p as [|c p].
    - destruct parts as [|q parts]; [done|]. simpl in *. rewrite Hx. by eexists.
    - destruct (N.eqb_spec c 37); [by eexists|]. destruct parts as [|q parts]; simpl in *.
      + destruct c as [|c]; [done|]. repeat (destruct c as [c|c|]; try done).
      + destruct (parse_usize q); [by eexists|]. exfalso. destruct c as [|c]; [done|]. repeat (destruct c as [c|c|]; try done). }
  destruct Hopt as [sec ->].
  destruct (starts_with (lit "#") (trim l)) eqn:Eh; [|by eexists].
  apply is_prefix_spec in Eh as [s Eh]. change (trim l = 35%N :: s) in Eh. rewrite Eh in Ho.
  destruct Ho as [id ->]; [eauto|]. destruct (split_char 61%N f2) eqn:E61; [by apply split_char_nil in E61|]. by eexists.
Qed.

(** The builder of a sentence after its first lines. *)
Record acc (b : builder) (body : list str) : Prop := {
  ac_after : after b body;
  ac_dom : forall i, is_Some (b_idx b !! i) <-> i = 0 \/ exists l, l ∈ body /\ parent_id l = Some i;
  ac_done : b_done b = 1 + length (omap own_id body);
  ac_fin : b_fin b = true -> exists l, l ∈ body /\ is_Some (own_id l)
}.
Lemma acc_fresh id meta b : fresh id meta b -> acc b [].
Proof.
  intros F. split; [by eapply after_fresh| | |].
  - rewrite (fr_idx _ _ _ F). intros i. split; [intros [n [<- _]%lookup_singleton_Some]; by left|].
    intros [->|(l & Hl & _)]; [rewrite lookup_singleton; eauto|set_solver].
  - by destruct (fr_rest _ _ _ F) as (_ & _ & _ & _ & -> & _).
  - destruct (fr_rest _ _ _ F) as (_ & _ & -> & _). done.
Qed.
Lemma acc_step b body l a b' :
  acc b body -> parse_line (b_nterm b) (trim l) = Some a -> stepped b a b' -> acc b' (body ++ [l]).
Proof.
  intros [Ha Hd Hn Hf] Hp Hst. pose proof (af_B0 _ _ Ha) as B.
  destruct (parsed_pid_idx _ _ _ B Hst) as [Hpid Hidx].
  pose proof (parse_line_pid _ _ _ Hp) as Ep. pose proof (parse_line_own _ _ _ Hp) as Eo.
  split; [by eapply after_step| | |].
  - assert (Hrev : forall i, is_Some (b_idx b' !! i) -> is_Some (b_idx b !! i) \/ i = line_pid a).
    { intros i. destruct Hst as (_ & _ & Hst).
      assert (Hg : exists N pid p N', grown b N pid p (b_idx b') N' /\ pid = line_pid a).
      { destruct a as [tm edge pid sec|id label ann edge pid sec].
        - destruct Hst as (_ & _ & _ & _ & _ & _ & n & p & e & _ & Hgr & _). by eexists _, _, _, _.
        - destruct Hst as (_ & _ & _ & _ & n & nt & p & e & sp & N' & _ & _ & Hgr & _). by eexists _, _, _, _. }
      destruct Hg as (N & pid & p & N' & [(_ & -> & _)|(_ & _ & -> & _)] & <-); [by left|].
      rewrite lookup_insert_is_Some'. naive_solver. }
    intros i. split.
    + intros [Hi|Hi]%Hrev.
      * apply Hd in Hi as [->|(l' & Hl' & E)]; [by left|right]. exists l'. split; [set_solver|done].
      * right. exists l. split; [set_solver|congruence].
    + intros [->|(l' & Hl' & E)].
      * rewrite (Hidx 0 0); [eauto|apply B].
      * apply elem_of_app in Hl' as [Hl'|Hl'%elem_of_list_singleton].
        -- destruct (proj2 (Hd i)) as [n Hi]; [eauto|]. eauto.
        -- subst l'. rewrite Ep in E. by injection E as [= <-].
  - rewrite omap_app, app_length. simpl. rewrite Eo. destruct Hst as (_ & _ & Hst).
    destruct a as [tm edge pid sec|id label ann edge pid sec]; simpl.
    + destruct Hst as (_ & _ & _ & _ & _ & -> & _). lia.
    + destruct Hst as (_ & _ & _ & -> & _). lia.
  - intros Hf'. destruct Hst as (_ & _ & Hst). destruct a as [tm edge pid sec|id label ann edge pid sec].
    + destruct Hst as (_ & _ & E & _). congruence.
    + exists l. split; [set_solver|]. rewrite Eo. by eexists.
Qed.

Lemma cut_white_app p q : Forall (fun c => is_white c = false) p -> 
  cut_white (p ++ q) = (p ++ (cut_white q).1, (cut_white q).2).
Proof.
  induction 1 as [|c p Hc _ IH]; cbn [app cut_white]; [by destruct (cut_white q)|]. by rewrite Hc, IH.
Qed.
Lemma run_complete_open eos : is_eos eos -> forall body2 b body1 sid,
  Forall plain_line (body1 ++ body2) -> Forall readable (body1 ++ body2) -> acc b body1 -> b_sid b = sid ->
  (forall i j l l', (body1 ++ body2) !! i = Some l -> (body1 ++ body2) !! j = Some l' -> is_Some (own_id l) -> own_id l' = None -> j < i) ->
  (forall i l id, (body1 ++ body2) !! i = Some l -> own_id l = Some id ->
     id <> 0 /\ exists j l', j < i /\ (body1 ++ body2) !! j = Some l' /\ parent_id l' = Some id) ->
  exists b', acc b' (body1 ++ body2) /\ b_sid b' = sid /\
    run (Some b) (map Some body2 ++ [Some eos]) = (r ← try_into_tree b' (trim eos); Ret [r]).
Proof.
  intros He. induction body2 as [|l body2 IH]; intros b body1 sid Hpl Hrd HA Hsid Hfirst Hown.
  - exists b. rewrite (right_id_L [] (++)). split_and!; [done|done|]. cbn [map app run].
    assert (starts_with (lit "#BOS") (trim eos) = false) as ->.
    { apply not_true_iff_false. rewrite starts_bos. intros Hb. by apply bos_eos in Hb. }
    assert (starts_with (lit "#EOS") (trim eos) = true) as -> by (by apply starts_eos). done.
  - assert (Hl : (body1 ++ l :: body2) !! length body1 = Some l) by (by apply list_lookup_middle).
    assert (Hlin : l ∈ body1 ++ l :: body2) by set_solver.
    destruct (plain_starts l) as [E1 E2]; [by eapply Forall_forall in Hpl|].
    cbn [map app run]. rewrite E1, E2. pose proof (af_B0 _ _ (ac_after _ _ HA)) as B.
    destruct (readable_parse (b_nterm b) l) as [a Ha]; [by eapply Forall_forall in Hrd|].
    destruct (process_line_spec b (trim l) B) as (r & -> & HP). cbn [mbind outcome_bind].
    rewrite Ha in HP. destruct HP as [Hen HP]. pose proof (parse_line_own _ _ _ Ha) as Eo.
    assert (Hen' : enabled b a).
    { destruct a as [tm edge pid sec|id label ann edge pid sec]; simpl in *.
      - destruct (b_fin b) eqn:Ef; [|done]. exfalso. destruct (ac_fin _ _ HA Ef) as (l' & Hl' & Ho').
        apply elem_of_list_lookup in Hl' as [i Hi].
        assert (Hi' : (body1 ++ l :: body2) !! i = Some l') by (by apply lookup_app_l_Some).
        pose proof (Hfirst i _ _ _ Hi' Hl Ho' Eo). apply lookup_lt_Some in Hi. lia.
      - destruct (Hown _ _ _ Hl Eo) as (Hid0 & j & l' & Hj & Hl' & Hp). rewrite lookup_app_l in Hl' by done.
        apply elem_of_list_lookup_2 in Hl'. split_and!; [|by left|apply (ac_dom _ _ HA); eauto].
        apply (af_term _ _ (ac_after _ _ HA)). intros ->. set_solver. }
    destruct (Hen Hen') as [b' ->]. specialize (HP b' eq_refl).
    assert (Hassoc : body1 ++ l :: body2 = (body1 ++ [l]) ++ body2) by (by rewrite <- (assoc_L (++))).
    rewrite Hassoc in *. apply (IH b' (body1 ++ [l]) sid); try done; [by eapply acc_step|].
    destruct HP as [-> _]. done.
Qed.
Lemma run_complete bos body eos : complete bos body eos ->
  exists t, run None (Some bos :: map Some body ++ [Some eos]) = Ret [Ok t].
Proof.
  intros ((x & w & num & rest & id & Hbos & Hx & Hw & Hnum & Hrest & Hid & He & Heos) & Hpl & Hrd & [Hne Hsec] & Hfirst & Huniq & Hown & Hall).
  assert (Hb : is_bos bos) by (eexists; exact Hbos).
  assert (Eb : starts_with (lit "#BOS") (trim bos) = true) by (by apply starts_bos).
  assert (Hh : exists meta, header_of (trim bos) = Some (id, meta)).
  { unfold header_of. rewrite Hbos.
    assert (E1 : cut_white (lit "#BOS" ++ x ++ [w] ++ num ++ rest) = (lit "#BOS" ++ x, Some (num ++ rest))).
    { rewrite cut_white_app by (repeat constructor). rewrite cut_white_app by done. cbn [app cut_white]. rewrite Hw. simpl. by rewrite app_nil_r. }
    rewrite E1. cbn [snd]. rewrite cut_white_app by done.
    destruct Hrest as [->|(w' & s & -> & Hw')]; cbn [cut_white]; rewrite ?Hw'; cbn [fst snd]; rewrite app_nil_r, Hid; by eexists. }
  destruct Hh as [meta Hh]. cbn [run]. rewrite Eb. pose proof (from_header_spec _ Eb) as Hf. rewrite Hh in Hf.
  destruct Hf as (b0 & -> & Hf). cbn [mbind outcome_bind].
  destruct (run_complete_open eos He body b0 [] (print_nat id)) as (b & HA & Hsid & ->); try done; [by eapply acc_fresh|by apply Hf|].
  simpl in HA. destruct HA as [Haf Hdom Hdone Hfin]. pose proof (af_B0 _ _ Haf) as B.
  destruct (try_into_tree_spec b (trim eos) B) as [Ht _]; [by apply starts_eos|].
  destruct Ht as (r & -> & Hok).
  - by apply (af_term _ _ Haf).
  - intros i lab n (l & Hl & Hi)%(af_sec _ _ Haf). apply Hdom. by apply (Hsec l).
  - destruct Hok as [t ->]; [by rewrite Hsid| |by exists t].
    assert (Hoin : forall i, i ∈ omap own_id body <-> exists l, l ∈ body /\ own_id l = Some i) by (intros; apply elem_of_list_omap).
    rewrite Hdone, <- size_dom.
    assert (Hdomeq : dom (b_idx b) = {[0]} ∪ list_to_set (omap own_id body)).
    { apply set_eq. intros i. rewrite elem_of_dom, Hdom, elem_of_union, elem_of_singleton, elem_of_list_to_set, Hoin. split.
      - intros [->|(l & Hl & Hi)]; [by left|]. destruct (decide (i = 0)) as [->|Hi0]; [by left|right]. by eapply Hall.
      - intros [->|(l & Hl & Hi)]; [by left|right]. apply elem_of_list_lookup in Hl as [k Hk].
        destruct (Hown _ _ _ Hk Hi) as (_ & j & l' & _ & Hl' & Hp). exists l'. split; [by eapply elem_of_list_lookup_2|done]. }
    rewrite Hdomeq, size_union, size_singleton, size_list_to_set; [done| |].
    + clear -Huniq. induction body as [|l body IH]; [constructor|].
      assert (IH' : NoDup (omap own_id body)).
      { apply IH. intros i j l1 l2 id Hi Hj Ho Ho'. assert (S i = S j) by (by eapply (Huniq (S i) (S j))). lia. }
      simpl. destruct (own_id l) as [id|] eqn:El; [|done]. constructor; [|done].
      intros (l' & Hl' & Ho)%elem_of_list_omap. apply elem_of_list_lookup in Hl' as [i Hi].
      assert (0 = S i) by (by eapply (Huniq 0 (S i) l l')). done.
    + rewrite disjoint_singleton_l, elem_of_list_to_set, Hoin. intros (l & Hl & Hi). apply elem_of_list_lookup in Hl as [k Hk].
      by destruct (Hown _ _ _ Hk Hi).
Qed.
