(** The conversion tool never panics or hangs: conditions on its input only. *)
From Coq Require Import Lia.
From Verif Require Import ModModel EncModel Api ConvModel TreeSpec BaseProofs GraphProofs NavProofs Ordered PropsTree PropsMod PropsPtb PropsNegra ConvSpec ConvProofs ConvPipe PropsConv SecProofs PropsSec.
Local Arguments lit : simpl never.

(** Secondary edges start at nonterminals. *)
Definition sec_inner (t : tree) : Prop := forall r, sec_edge t r -> inner t (e_src r).

Lemma proj_sec_inner choose o t t' : picks choose -> WF t -> sec_inner t -> step_proj choose o t = Ret (Ok t') ->
  forall r, sec_edge t' r -> inner t (e_src r).
Proof.
  intros HC W HI H r Hr. unfold step_proj in H. destruct (o_proj o); [|injection H as <-; by apply HI].
  apply bind_inv in H as ([u v] & Hu & H). pose proof (projectivize_flat _ _ _ _ (wf_graph _ W) Hu) as HF.
  assert (HU : forall r, sec_edge u r -> inner t (e_src r)) by (intros r' Hr'; apply HI; by apply (flat_same _ _ HF)).
  destruct v as [v|]; [|injection H as <-; by apply HU]. destruct (o_sec o); [|injection H as <-; by apply HU].
  destruct (C21_reports choose t u v HC W Hu) as (_ & HV & _). apply bind_inv in H as (u2 & H2 & [= <-]).
  destruct HF as [GU _ _]. clear Hu HI. revert r Hr u GU HU H2. intros r Hr. induction HV as [|[[p w] c] v Hp HV IH]; intros u GU HU H2; simpl in H2.
  - injection H2 as <-. by apply HU.
  - apply bind_inv in H2 as (u1 & H1 & H). apply bind_inv in H1 as ([u' e] & H1 & [= <-]).
    unfold add_secondary_edge in H1. apply bind_inv in H1 as ([g e'] & H1 & [= <- <-]).
    destruct (add_edge_inv _ _ _ _ _ _ GU H1) as [Ha Hb].
    destruct (add_edge_spec _ p c (Secondary (Some (np_label w))) GU Ha Hb) as (g2 & e2 & H2 & G2 & _ & HE & _).
    rewrite H1 in H2. injection H2 as <- <-. apply (IH (set_graph u g)); [done| |done].
    intros r' [Hr' S]. simpl in Hr'. rewrite HE in Hr'. apply elem_of_cons in Hr' as [->|Hr']; [done|]. by apply HU.
Qed.
Lemma kept_inner t t' n : kept t t' -> inner t n -> is_Some (nodes t' !! n) -> inner t' n.
Proof.
  intros (_ & _ & H) [nt Hn] [[nt'|tm] Hw]; [by exists nt'|]. specialize (H n). unfold tword in H. rewrite Hn, Hw in H. done.
Qed.
(** Secondary edges of a converted tree start at nonterminals if those of the input do. *)
Lemma convert_sec_inner choose o pos t t' pos' : picks choose -> convertible o t -> sec_inner t ->
  convert_tree choose o pos t = Ret (Ok (t', pos')) -> sec_inner t'.
Proof.
  intros HC HV HI H. destruct (C55_convert choose o pos t HC HV) as [H1 H2].
  destruct (bad_input_dec o pos t) as [HB|HB]; [rewrite H1 in H by done; done|].
  destruct (C55_words choose o pos t HC HV) as (res & HR & HW). rewrite H in HR. injection HR as <-.
  destruct (HW _ _ eq_refl) as (W' & _ & _ & _ & _ & HT). pose proof HV as (W & _).
  intros r Hr. destruct (go_ends _ (wf_graph _ W') r (proj1 Hr)) as [[[nt|tm] Hn] _]; [by exists nt|]. exfalso.
  destruct (HT _ _ Hn) as [tm0 Htm0].
  assert (Hin : inner t (e_src r)); [|destruct Hin as [nt0 ?]; congruence].
  unfold convert_tree in H. apply next_inv in H as (t1 & Hd & H). apply next_inv in H as (t2 & Hp & H).
  apply next_inv in H as ([t3 p3] & H3 & H). apply next_inv in H as (t4 & H4 & [= <- <-]).
  destruct (step_dummies_ok o t W) as (t1' & Hd' & HD1). rewrite Hd in Hd'. injection Hd' as <-.
  pose proof (dummies_sub o t t1 (wf_graph _ W) Hd) as [[G1 A1] _].
  assert (K1 : kept t t1) by (destruct (o_dummies o); [by apply undummied_kept|subst; by apply kept_refl]).
  pose proof K1 as (W1 & _).
  assert (I1 : sec_inner t1).
  { intros r' [Hr' S]. apply (kept_inner t); [done|apply HI; split; [by apply A1|done]|]. by apply (go_ends _ G1 r'). }
  pose proof (proj_sub _ _ _ _ G1 Hp) as (G2 & _). pose proof (pos_same _ _ _ _ G2 H3) as [G3 A3].
  apply rest_sub in H4 as [[_ A4] _]; [|done]. destruct Hr as [Hr S].
  destruct (proj_sec_inner _ _ _ _ HC W1 I1 Hp r) as [nt Hnt]. { split; [|done]. by apply (A3 r S), A4. }
  destruct K1 as (_ & _ & K1). specialize (K1 (e_src r)). unfold tword in K1. rewrite Hnt, Htm0 in K1. done.
Qed.
Lemma negra_bare c t : WF t -> bare t -> negra_write c t = Panic.
Proof.
  intros W B. assert (ET : terminals t = [tr_root t]).
  { assert (HA : forall n, n ∈ terminals t <-> n = tr_root t).
    { intros n. rewrite elem_of_terminals by apply W. split; [intros [tm Hn]; apply bare_single; eauto|]. intros ->. exact B. }
    pose proof (terminals_nodup t) as ND. destruct (terminals t) as [|a l].
    - exfalso. apply (not_elem_of_nil (tr_root t)). by apply HA.
    - assert (a = tr_root t) as -> by (apply HA; by left). destruct l as [|b l]; [done|]. exfalso.
      assert (b = tr_root t) as -> by (apply HA; set_solver). apply NoDup_cons in ND. set_solver. }
  assert (EP : parent t (tr_root t) = None).
  { apply parent_None_root; [apply W| |done]. apply (sh_root _ _ _ (wf_shape _ W)). }
  destruct B as [tm Hr]. unfold negra_write, node_at. rewrite Hr. simpl.
  rewrite ET. unfold start_queue. simpl. unfold queue_step. rewrite EP. simpl.
  destruct (match feat_val _ _ with Some s => _ | None => _ end) as [sid c']. unfold number_nts. 
  destruct (number_fuel t []); simpl; unfold terminal_line, node_at, get_parent_edge; rewrite Hr; simpl; rewrite EP; done.
Qed.

(** C57: no run panics or hangs.  With [--reattach] sentences of one word are excluded, because the
    tool hangs (C55_one_word_refuted); with relative tags trees of 2^63 nodes; with NEGRA output trees
    that have no inner node left, because writing panics (C57_bare), and trees with a secondary edge
    that starts at a word, which no reader delivers (C41_read_guard). *)
Theorem C57_total_partial rs choose o pos c :
  (forall i, picks (choose i)) ->
  (forall t, Ok t ∈ rs -> convertible o t /\ (o_out o = ONegra -> ~ bare_after o t /\ sec_inner t)) ->
  exists its ok, convert_all choose o pos c rs = Ret (its, ok).
Proof.
  intros HC HV. apply total_of_negra; [done|intros t Ht; by apply HV|].
  intros EO i p t t' p' Ht Hconv. destruct (HV t Ht) as [HV1 HV2]. destruct (HV2 EO) as [HB HI]. clear HV HV2.
  split; [|intros r Hr Pr; by eapply (convert_sec_inner (choose i))].
  pose proof HV1 as (W & O & HR & HM). destruct (convert_ok (choose i) o p t (HC i) W O HR HM) as [H1 H2].
  destruct (bad_input_dec o p t) as [HN|HN]; [unfold bad_input in HN; by rewrite H1 in Hconv|].
  destruct (H2 HN) as (tags & t1 & _ & _ & K1 & HB1 & _ & _ & E1).
  destruct E1 as (t2 & Hc & HE & _). { unfold tags_out. rewrite EO. by intros [[|] _]. }
  rewrite Hconv in Hc. injection Hc as <- _. unfold spec_encode in HE. rewrite EO in HE. subst t1.
  apply not_bare_root; [apply K1|]. by rewrite HB1.
Qed.
Print Assumptions C57_total_partial.

(** C57: the guard on NEGRA output is exact.  If no inner node is left, converting succeeds and writing
    panics. *)
Theorem C57_bare choose o pos t c :
  picks choose -> convertible o t -> o_out o = ONegra -> ~ bad_input o pos t -> bare_after o t ->
  exists t', convert_tree choose o pos t = Ret (Ok (t', tail <$> pos)) /\ write_tree (o_out o) c t' = Panic.
Proof.
  intros HC HV EO HN HB. pose proof HV as (W & O & HR & HM). destruct (convert_ok choose o pos t HC W O HR HM) as [_ H2].
  destruct (H2 HN) as (tags & t1 & _ & _ & K1 & HB1 & _ & _ & E1).
  destruct E1 as (t2 & Hc & HE & _). { unfold tags_out. rewrite EO. by intros [[|] _]. }
  exists t2. split; [done|]. unfold spec_encode in HE. rewrite EO in *. subst t1. simpl. rewrite negra_bare; [done|apply K1|by apply HB1].
Qed.
Print Assumptions C57_bare.

(** *** Cases *)
(** All options at once, NEGRA output, a discontinuous tree: secondary edges are added and written. *)
Example C57_total_ex : picks ex_choose /\ convertible (ex_opts ONegra) ex_conv /\ ~ bare_after (ex_opts ONegra) ex_conv /\ sec_inner ex_conv.
Proof.
  split; [apply ex_choose_picks|]. split; [apply ex_convertible|]. split; [intros [HB _]; by vm_compute in HB|].
  intros r Hr. exfalso. revert Hr. rewrite <- ex_secs_spec. vm_compute. by apply not_elem_of_nil.
Qed.
(** "(DUMMY (A a))" with [--remove_dummies]. *)
Definition ex_dummy : tree := build (lit "a") (lit "A") [OAbove 0 (lit "DUMMY")].
Definition ex_dummy_opts : options := mk_opts ONegra true false false None None [] None None [] None.
Example C57_bare_ex : picks ex_choose /\ convertible ex_dummy_opts ex_dummy /\ ~ bad_input ex_dummy_opts None ex_dummy /\ bare_after ex_dummy_opts ex_dummy /\
  tool_text (fun _ => ex_choose) (IBracket Simple) false ex_dummy_opts None [Some (lit "(DUMMY (A a))")] = Panic.
Proof.
  split; [apply ex_choose_picks|]. split.
  { split; [apply build_WF|]. split; [|done]. apply monob_ok. by vm_compute. }
  split; [by intros [[]|[[H|H] _]]|]. split; [|by vm_compute].
  split; [by vm_compute|]. intros n nt Hn. split; [done|].
  assert (HF : map_Forall (fun _ w => match w with NT nt => str_eqb (nt_label nt) (lit "DUMMY") | T _ => true end = true) (nodes ex_dummy)).
  { refine (bool_decide_eq_true_1 _ _). vm_compute. reflexivity. }
  specialize (HF n (NT nt) Hn). by apply EqProofs.str_eqb_iff.
Qed.
