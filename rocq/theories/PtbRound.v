(** Reading back what the bracketed writer prints. *)
From Coq Require Import Lia.
From Verif Require Import ModModel TreeSpec BaseProofs ShapeProofs GraphProofs SpanProofs SortProofs RoseSpec RoseProofs EqProofs SegProofs PtbSpec PtbProofs PtbBuild PtbPrint.

Lemma cut_fun c s p q p' q' : cut c s p q -> cut c s p' q' -> p = p' /\ q = q'.
Proof.
  assert (Happ : forall (a b a' b' : str), c ∉ a -> c ∉ a' -> a ++ c :: b = a' ++ c :: b' -> a = a' /\ b = b').
  { induction a as [|x a IH]; intros b a' b' H1 H2 E; destruct a' as [|x' a']; simpl in E.
    - by injection E as ->.
    - injection E as -> E. set_solver.
    - injection E as -> E. set_solver.
    - injection E as -> E. apply IH in E as [-> ->]; [done|set_solver|set_solver]. }
  intros H1 H2. inversion H1 as [s1 Hn|a b Hn]; subst; inversion H2 as [s2 Hn'|a' b' Hn' E]; subst; try done.
  - exfalso. apply Hn. set_solver.
  - exfalso. apply Hn'. set_solver.
  - by apply Happ in E as [-> ->].
Qed.
Lemma field_fun c s a b : field c s a -> field c s b -> a = b.
Proof.
  intros H1 H2. inversion H1 as [|? ? ? C1]; subst; inversion H2 as [|? ? ? C2]; subst; [done|].
  by destruct (cut_fun _ _ _ _ _ _ C1 C2) as [-> _].
Qed.
Lemma label_of_fun f l a b c a' b' c' :
  label_of f l a b c -> label_of f l a' b' c' -> a = a' /\ b = b' /\ c = c'.
Proof.
  intros H1 H2. inversion H1 as [|l0 N1|x y N1|l0 tag o1 e lab o2 ann C1 F1 D1 E1]; subst;
    inversion H2 as [|l1 N2|x2 y2 N2|l1 tag' o1' e' lab' o2' ann' C1' F1' D1' E1']; subst; try done.
  - exfalso. set_solver.
  - exfalso. set_solver.
  - assert (cut 45%N (a ++ 45%N :: y) a (Some y)) as K1 by (by constructor).
    assert (cut 45%N (a ++ 45%N :: y) a' (Some y2)) as K2.
    { match goal with H : _ = _ |- _ => pose proof H as E end. pose proof (cut_some 45%N a' y2 N2) as K2.
      exact (eq_ind _ (fun s => cut 45%N s a' (Some y2)) K2 _ E). }
    destruct (cut_fun _ _ _ _ _ _ K1 K2) as [-> [= ->]]. done.
  - destruct (cut_fun _ _ _ _ _ _ C1 C1') as [<- <-]. rewrite (field_fun _ _ _ _ F1 F1').
    destruct (cut_fun _ _ _ _ _ _ D1 D1') as [<- <-]. rewrite (field_fun _ _ _ _ E1 E1'). done.
Qed.

Lemma cut_at c p q : c ∉ p -> cut c (p ++ c :: q) p (Some q).
Proof. by constructor. Qed.
Lemma plain_notin no c s : plain no s -> c ∈ no -> c ∉ s.
Proof.
  intros H Hc Hs. unfold plain in H. rewrite Forall_forall in H. apply (H c Hs). set_solver.
Qed.

(** The text of a TueBa label means what it was made of. *)
Lemma tueba_label lab (ann e : option str) :
  plain [58%N; 61%N] lab -> (forall a, ann = Some a -> plain [58%N; 61%N] a) -> edge_fits e ->
  label_of TueBa (lab ++ match ann with Some a => [61%N] ++ a | None => [] end ++ [58%N] ++ default (lit "--") e) lab e ann.
Proof.
  intros Hl Ha He.
  set (tag := lab ++ match ann with Some a => [61%N] ++ a | None => [] end).
  assert (Ht : 58%N ∉ tag).
  { unfold tag. rewrite elem_of_app. intros [H|H]; [apply (plain_notin _ 58%N _ Hl); [set_solver|done]|].
    destruct ann as [a|]; [|set_solver]. apply elem_of_app in H as [H|H]; [set_solver|].
    apply (plain_notin _ 58%N _ (Ha a eq_refl)); [set_solver|done]. }
  assert (Hl61 : 61%N ∉ lab) by (apply (plain_notin _ _ _ Hl); set_solver).
  assert (Hd : 58%N ∉ default (lit "--") e).
  { destruct e as [s|]; simpl; [|vm_compute; set_solver]. apply (plain_notin [58%N]); [|set_solver]. by apply He. }
  assert (E : e = if decide (Some (default (lit "--") e) = Some [45; 45]%N) then None else Some (default (lit "--") e)).
  { destruct e as [s|]; simpl; [|done]. rewrite decide_False; [done|]. intros [= ->]. by destruct (He [45; 45]%N eq_refl). }
  rewrite E at 2. rewrite (assoc_L (++)). fold tag.
  eapply lo_tueba.
  - apply cut_at. exact Ht.
  - apply (field_some 58%N _ _ None). by constructor.
  - unfold tag. destruct ann as [a|].
    + apply cut_at. exact Hl61.
    + rewrite app_nil_r. by constructor.
  - destruct ann as [a|]; [|constructor]. apply (field_some 61%N _ _ None). constructor.
    apply (plain_notin _ _ _ (Ha a eq_refl)). set_solver.
Qed.

Lemma word_noparen s : word s -> forall c, c ∈ s -> c <> 40%N /\ c <> 41%N.
Proof. intros [_ H] c Hc. rewrite Forall_forall in H. specialize (H c Hc). set_solver. Qed.
Lemma plain_noparen no s : plain no s -> forall c, c ∈ s -> c <> 40%N /\ c <> 41%N.
Proof. intros H c Hc. unfold plain in H. rewrite Forall_forall in H. specialize (H c Hc). set_solver. Qed.
Lemma word_unblank s : word s -> unblank s.
Proof. intros [_ H]. eapply Forall_impl; [exact H|]. simpl. set_solver. Qed.
Lemma plain_unblank no s : plain no s -> unblank s.
Proof. intros H. eapply Forall_impl; [exact H|]. simpl. set_solver. Qed.

Lemma fits_printable f : forall r e, fits f e r -> printable f e r.
Proof.
  induction r as [tm|nt cs IH] using rose_ind'; intros e H.
  - inversion H as [? ? [H1 H2]|]; subst. constructor. split_and!; [apply H1|by apply word_unblank| |].
    + destruct f; [apply word_unblank, H2|apply word_unblank, H2|]. destruct H2 as [H2 _]. by eapply plain_unblank.
    + destruct f; [apply H2|apply H2|]. intros s ->. destruct H2 as [_ H2]. eapply plain_weaken. by apply H2.
  - inversion H as [|? ? ? H1 HF]; subst. constructor.
    + split.
      * destruct f; simpl in H1; [apply word_plain, H1|apply word_plain, H1|]. destruct H1 as [H1 _]. by eapply plain_weaken.
      * destruct f; simpl in H1.
        -- destruct H1 as (W & _ & Ha). split; [apply W|done].
        -- apply H1.
        -- destruct H1 as (_ & Ha & He). split; [intros a Hin; eapply plain_weaken; by apply Ha|].
           intros s ->. eapply plain_weaken. by apply He.
    + rewrite Forall_forall in IH. rewrite Forall_forall in HF. apply Forall_forall. intros c Hc. apply IH; [done|by apply HF].
Qed.

Definition term_str (a b : terminal) : Prop := t_form a = t_form b /\ t_pos a = t_pos b.
Definition nt_str (f : ptb_format) (a b : nonterminal) : Prop :=
  nt_label a = nt_label b /\
  match f with
  | Simple => forall s, ~ annotated b s
  | PTB => forall s, annotated b s <-> exists s', s = 45%N :: s' /\ annotated a s'
  | TueBa => same_annotation a b
  end.

Lemma read_back f : forall r e e' r', fits f e r -> ast_rose f (ast_of f e r) e' r' ->
  edge_kept f e e' /\ rose_rel term_str (nt_str f) (edge_kept f) r r'.
Proof.
  assert (Hann : forall nt (ann : option str) s,
    nt_feats nt = match ann with Some a => Some {[ lit "node_annotation" := Some a ]} | None => None end ->
    annotated nt s <-> ann = Some s).
  { intros nt ann s E. unfold annotated. rewrite E. destruct ann as [a|]; [|naive_solver]. split.
    - intros (m & [= <-] & H). rewrite lookup_singleton in H. congruence.
    - intros [= ->]. eexists. split; [done|]. by rewrite lookup_singleton. }
  induction r as [tm|nt cs IH] using rose_ind'; intros e e' r' HF HA.
  - inversion HF as [? ? [H1 H2]|]; subst. simpl in HA. inversion HA as [? ? tag ? ann tm' L F P _ _|]; subst.
    rewrite (esc_plain (t_form tm)) in F by (by apply word_noparen).
    assert (t_pos tm = t_pos tm' /\ edge_kept f e e') as [EP EE].
    { unfold ptb_tok in L. destruct f.
      - rewrite esc_plain in L by (by apply word_noparen, H2).
        assert (label_of PTB (t_pos tm) (t_pos tm) None None) as L2 by (constructor; apply H2).
        destruct (label_of_fun _ _ _ _ _ _ _ _ L L2) as (-> & -> & _). done.
      - rewrite esc_plain in L by (by apply word_noparen, H2). by inversion L.
      - destruct H2 as [H2 H3]. rewrite esc_plain in L by (by eapply plain_noparen).
        pose proof (tueba_label (t_pos tm) None e H2 ltac:(done) H3) as L2. rewrite app_nil_l in L2.
        destruct (label_of_fun _ _ _ _ _ _ _ _ L L2) as (-> & -> & _). done. }
    split; [done|]. by constructor.
  - inversion HF as [|? ? ? H1 HFs]; subst. simpl in HA. inversion HA as [|? ? lab ? ann nt' ds L El Ef HDs]; subst.
    assert (HA' : forall s, annotated nt' s <-> ann = Some s) by (intros s; by apply Hann).
    assert (edge_kept f e e' /\ nt_str f nt nt') as [EE EN].
    { unfold fmt_inner in L. destruct f; simpl in H1.
      - destruct H1 as (Hw & Hn & Ha). unfold nt_str. destruct (nt_annotation nt) as [a|] eqn:Ea.
        + assert (label_of PTB (nt_label nt ++ [45%N] ++ a) (nt_label nt) None (Some (45%N :: a))) as L2 by (by constructor).
          destruct (label_of_fun _ _ _ _ _ _ _ _ L L2) as (-> & -> & ->). split; [done|]. split; [done|].
          intros s. rewrite HA'. split.
          * intros [= <-]. exists a. split; [done|]. by apply annotated_spec.
          * intros (s' & -> & Hs'). apply annotated_spec in Hs'. rewrite Ea in Hs'. by injection Hs' as ->.
        + rewrite app_nil_r in L.
          assert (label_of PTB (nt_label nt) (nt_label nt) None None) as L2 by (by constructor).
          destruct (label_of_fun _ _ _ _ _ _ _ _ L L2) as (-> & -> & ->). split; [done|]. split; [done|].
          intros s. rewrite HA'. split; [done|]. intros (s' & -> & Hs'). apply annotated_spec in Hs'. by rewrite Ea in Hs'.
      - inversion L; subst. split; [done|]. split; [done|]. intros s. by rewrite HA'.
      - destruct H1 as (Hp & Ha & He).
        assert (Ha' : forall a, nt_annotation nt = Some a -> plain [58%N; 61%N] a) by (intros a Hx; by apply Ha, annotated_spec).
        pose proof (tueba_label (nt_label nt) (nt_annotation nt) e Hp Ha' He) as L2.
        destruct (label_of_fun _ _ _ _ _ _ _ _ L L2) as (E1 & -> & ->). split; [done|]. split; [done|].
        intros s. by rewrite HA', annotated_spec. }
    split; [done|]. constructor; [done|].
    clear L Ef HA HF H1 EN. revert ds HDs. induction IH as [|c cs Hc IHcs IHl]; intros ds HDs; inversion HDs as [|? d ? ds' Hd HDs']; subst; [constructor|].
    apply Forall_cons in HFs as [HFc HFs]. constructor; [by apply Hc|by apply IHl].
Qed.

Lemma WF_inhabited t n r : WF t -> Den (nodes t) (edges t) n r -> inhabited_rose r.
Proof.
  intros W. revert n r. apply (Den_ind' (nodes t) (edges t) (fun n r => inhabited_rose r)).
  - constructor.
  - intros n nt l cs Hn Hl HS HF. constructor.
    + destruct (sh_inner _ _ _ (wf_shape _ W) n nt Hn) as (c & r & R1 & R2 & R3 & R4).
      assert (r ∈ l) as Hr by (by apply Hl). intros ->. apply Forall2_nil_inv_r in HF as ->. set_solver.
    + clear -HF. induction HF as [|r c l cs (_ & _ & H) HF IH]; by constructor.
Qed.
Lemma Reads_idx t r : WF t -> is_projective t = true -> Reads t r -> map t_idx (leaves r) = seq 0 (tr_nterm t).
Proof.
  intros W Hp D. destruct (Den_tight t _ r W Hp D) as [_ HS].
  apply (ssorted_eq (fun x => x)); [done|apply seq_ssorted|].
  intros i. rewrite <- (Reads_nterm t r W D), elem_of_seq. lia.
Qed.
Lemma rose_rel_impl (RT RT' : terminal -> terminal -> Prop) (RN RN' : nonterminal -> nonterminal -> Prop) (RE RE' : option str -> option str -> Prop) :
  (forall a b, RT a b -> RT' a b) -> (forall a b, RN a b -> RN' a b) -> (forall a b, RE a b -> RE' a b) ->
  forall r r', rose_rel RT RN RE r r' -> rose_rel RT' RN' RE' r r'.
Proof.
  intros H1 H2 H3. induction r as [tm|nt cs IH] using rose_ind'; intros r' H; inversion H as [a b Hab|a b cs' ds Hab HF]; subst; constructor; auto.
  clear H Hab. induction HF as [|c d cs ds [He Hcd] HF IHF]; constructor.
  - apply Forall_cons in IH as [IHc IH]. auto.
  - apply Forall_cons in IH as [IHc IH]. auto.
Qed.

(** Writing and reading back. *)
Theorem ptb_round f t r :
  WF t -> is_projective t = true -> Reads t r -> fits f None r ->
  exists s t' r', tree_to_string f t = Ret (Ok s) /\ string_to_tree f s = Ret (Ok t') /\
    WF t' /\ is_projective t' = true /\ Reads t' r' /\ rose_rel term_kept (nt_kept f) (edge_kept f) r r'.
Proof.
  intros W Hp D HF. exists (rshow f None r).
  rewrite (tree_to_string_spec f t r W D), Hp.
  pose proof (rshow_G f r None (WF_inhabited t _ r W D) (fits_printable f r None HF)) as HG.
  assert (HB : bracketed (ast_of f None r) (rshow f None r)).
  { exists [], (rshow f None r), []. rewrite app_nil_r. split_and!; [done|constructor|constructor|done]. }
  destruct (string_to_tree_spec f (rshow f None r)) as (res & Es & Hok & Hex).
  destruct (proj2 Hex ltac:(eauto)) as [t' ->].
  destruct (Hok t' eq_refl) as (a & Ha & W' & Hp' & edge & r' & D' & HA & Hidx).
  rewrite (bracketed_unique _ _ _ Ha HB) in HA.
  destruct (read_back f r None edge r' HF HA) as [_ HR].
  exists t', r'. split_and!; try done.
  pose proof (Reads_idx t r W Hp D) as I1.
  assert (Eidx : map t_idx (leaves r) = map t_idx (leaves r')).
  { rewrite I1, Hidx. f_equal. apply rose_rel_leaves in HR.
    pose proof (f_equal length I1) as L1. pose proof (f_equal length Hidx) as L2. rewrite map_length, seq_length in L1, L2. lia. }
  pose proof (rose_rel_tight _ _ _ _ _ HR (proj1 (Den_tight t _ r W Hp D)) (proj1 (Den_tight t' _ r' W' Hp' D')) Eidx) as HR'.
  revert HR'. apply rose_rel_impl; [|  |done].
  - intros a0 b [[H1 H2] H3]. done.
  - intros a0 b [[H1 H2] H3]. done.
Qed.
