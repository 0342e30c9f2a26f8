(** Property C30: tree equality. *)
From Coq Require Import Lia.
From Verif Require Import ModModel TreeSpec BaseProofs ShapeProofs GraphProofs SortProofs Api PropsTree RoseSpec RoseProofs EqProofs.

(** Structural equality of readings: same shape, same label / features of every constituent, same
    edge labels, same word form / tag / lemma / features / position of every terminal. *)
Definition structurally_equal (r1 r2 : rose) : Prop := rose_rel term_same nt_same eq r1 r2.

Lemma structurally_equal_iff r1 : forall r2,
  structurally_equal r1 r2 <->
  rose_rel term_same_tag nt_same eq r1 r2 /\ map t_form (leaves r1) = map t_form (leaves r2).
Proof.
  induction r1 as [tm|nt cs IH] using rose_ind'; intros r2; split.
  - intros H. inversion H as [? ? [Hf Ht]|]; subst. split; [by constructor|]. simpl. by rewrite Hf.
  - intros [H E]. inversion H as [? ? Ht|]; subst. simpl in E. injection E as E. by constructor.
  - intros H. inversion H as [|? ? ? ds Hn HF]; subst.
    assert (Forall2 (fun c d => c.1 = d.1 /\ rose_rel term_same_tag nt_same eq c.2 d.2) cs ds /\
      map t_form (concat (map (fun c => leaves c.2) cs)) = map t_form (concat (map (fun c => leaves c.2) ds))) as [? ?];
      [|split; [by constructor|done]].
    clear H Hn. induction HF as [|c d cs ds [He Hcd] HF IHF]; [done|]. apply Forall_cons in IH as [IHc IH].
    destruct (IHF IH) as [H1 H2]. apply IHc in Hcd as [H3 H4]. split; [by constructor|].
    simpl. by rewrite !map_app, H2, H4.
  - intros [H E]. inversion H as [|? ? ? ds Hn HF]; subst. constructor; [done|].
    simpl in E. clear H Hn. induction HF as [|c d cs ds [He Hcd] HF IHF]; [constructor|].
    apply Forall_cons in IH as [IHc IH]. simpl in E. rewrite !map_app in E.
    assert (length (leaves c.2) = length (leaves d.2)) as Hlen.
    { rewrite <- (map_length t_idx (leaves c.2)), <- (map_length t_idx (leaves d.2)).
      by rewrite (rel_leaves_idx _ _ Hcd). }
    apply app_inj_1 in E as [E1 E2]; [|by rewrite !map_length].
    constructor; [split; [done|by apply IHc]|by apply IHF].
Qed.

(** ** C30 *)
(** [==] never panics and terminates.  It holds iff the trees have the same structure, labels,
    features, edge labels, tags and lemmas, or both consist of a single word.  In particular
    structurally equal trees are equal, and equal trees with the same word forms and more than one
    node are structurally equal.  Missing for the full statement: word forms and the content of
    single-word trees, which the code does not compare (see the refutations below). *)
Theorem C30_equality_partial t1 t2 r1 r2 :
  WF t1 -> WF t2 -> Reads t1 r1 -> Reads t2 r2 ->
  exists b, tree_eqb t1 t2 = Ret b /\
    (b = true <-> rose_rel term_same_tag nt_same eq r1 r2 \/
                  exists a1 a2, r1 = RLeaf a1 /\ r2 = RLeaf a2) /\
    (structurally_equal r1 r2 -> b = true) /\
    (b = true -> (exists n c, PE (edges t1) n c) ->
       map t_form (leaves r1) = map t_form (leaves r2) -> structurally_equal r1 r2).
Proof.
  intros W1 W2 D1 D2. destruct (tree_eqb_spec t1 t2 r1 r2 W1 W2 D1 D2) as (b & Eb & Hb).
  exists b. split_and!; [done|done| |].
  - intros H%structurally_equal_iff. apply Hb. left. tauto.
  - intros ->  (n & c & He) Hf. apply structurally_equal_iff. split; [|done].
    destruct (proj1 Hb eq_refl) as [H|(a1 & a2 & -> & ->)]; [done|]. exfalso.
    inversion D1 as [? ? Hr|]; subst. pose proof (wf_shape _ W1) as Sh.
    assert (n = tr_root t1) as ->.
    { eapply (term_Dom Sh); [exact Hr|]. apply (sh_reach _ _ _ Sh). by apply (sh_live _ _ _ Sh n c). }
    by apply (sh_leaf _ _ _ Sh _ _ c Hr).
Qed.
Print Assumptions C30_equality_partial.

(** [==] is an equivalence relation on well-formed trees. *)
Theorem C30_equivalence t1 t2 t3 :
  WF t1 -> WF t2 -> WF t3 ->
  tree_eqb t1 t1 = Ret true /\
  (tree_eqb t1 t2 = Ret true -> tree_eqb t2 t1 = Ret true) /\
  (tree_eqb t1 t2 = Ret true -> tree_eqb t2 t3 = Ret true -> tree_eqb t1 t3 = Ret true).
Proof.
  intros W1 W2 W3.
  destruct (Reads_total t1 W1) as [r1 D1], (Reads_total t2 W2) as [r2 D2], (Reads_total t3 W3) as [r3 D3].
  assert (Hall : forall ta tb ra rb, WF ta -> WF tb -> Reads ta ra -> Reads tb rb ->
    tree_eqb ta tb = Ret true <->
    rose_rel term_same_tag nt_same eq ra rb \/ exists a1 a2, ra = RLeaf a1 /\ rb = RLeaf a2).
  { intros ta tb ra rb Wa Wb Da Db. destruct (tree_eqb_spec ta tb ra rb Wa Wb Da Db) as (b & Eb & Hb).
    rewrite Eb. rewrite <- Hb. split; congruence. }
  assert (Hrefl : forall r, rose_rel term_same_tag nt_same eq r r).
  { induction r as [tm|nt cs IH] using rose_ind'; [by constructor|]. constructor; [done|].
    induction IH; constructor; done. }
  assert (Hsym : forall r r', rose_rel term_same_tag nt_same eq r r' -> rose_rel term_same_tag nt_same eq r' r).
  { induction r as [tm|nt cs IH] using rose_ind'; intros r' H; inversion H as [? ? E|? ? ? ds E HF]; subst.
    - constructor. unfold term_same_tag, same_feats in *. naive_solver.
    - constructor; [unfold nt_same, same_feats in *; naive_solver|]. clear H E.
      induction HF as [|c d cs ds [He Hcd] HF IHF]; [constructor|].
      apply Forall_cons in IH as [IHc IH]. constructor; [split; [done|by apply IHc]|by apply IHF]. }
  assert (Htrans : forall r r' r'', rose_rel term_same_tag nt_same eq r r' -> rose_rel term_same_tag nt_same eq r' r'' ->
            rose_rel term_same_tag nt_same eq r r'').
  { induction r as [tm|nt cs IH] using rose_ind'; intros r' r'' H H'; inversion H as [? ? E|? ? ? ds E HF]; subst;
      inversion H' as [? ? E'|? ? ? ds' E' HF']; subst.
    - constructor. unfold term_same_tag, same_feats in *.
      destruct E as (-> & -> & -> & ->). done.
    - constructor; [unfold nt_same, same_feats in *; destruct E as [-> ->]; done|]. clear H H' E E'.
      revert ds' HF'. induction HF as [|c d cs ds [He Hcd] HF IHF]; intros ds' HF'; inversion HF' as [|? d' ? ds'' [He' Hcd'] HF'']; subst; [constructor|].
      apply Forall_cons in IH as [IHc IH]. constructor; [split; [by rewrite He|by eapply IHc]|by apply IHF]. }
  rewrite (Hall t1 t1 r1 r1), (Hall t1 t2 r1 r2), (Hall t2 t1 r2 r1), (Hall t2 t3 r2 r3), (Hall t1 t3 r1 r3) by done.
  split_and!.
  - left. apply Hrefl.
  - intros [H|(a1 & a2 & -> & ->)]; [left; by apply Hsym|right; eauto].
  - intros [H|(a1 & a2 & -> & ->)] [H'|(b1 & b2 & E1 & E2)].
    + left. by eapply Htrans.
    + subst. inversion H; subst. right. eauto.
    + inversion H'; subst. right. eauto.
    + right. eauto.
Qed.
Print Assumptions C30_equivalence.

(** The code ignores word forms: (NP the/D dog/N) and (NP a/D cat/N) compare equal. *)
Definition ex_np (w1 w2 : string) : tree := build (lit w1) (lit "D") [OAbove 0 (lit "NP"); OPush (lit w2) (lit "N")].
Theorem C30_forms_refuted :
  exists t1 t2 r1 r2, WF t1 /\ WF t2 /\ Reads t1 r1 /\ Reads t2 r2 /\
    tree_eqb t1 t2 = Ret true /\ ~ structurally_equal r1 r2.
Proof.
  exists (ex_np "the" "dog"), (ex_np "a" "cat"), (rose_of (ex_np "the" "dog")), (rose_of (ex_np "a" "cat")).
  assert (W : forall a b, WF (ex_np a b)) by (intros; apply build_WF).
  split_and!; [apply W|apply W|apply rose_of_ok, W|apply rose_of_ok, W|vm_compute; reflexivity|].
  intros [_ E]%structurally_equal_iff. vm_compute in E. discriminate E.
Qed.
Print Assumptions C30_forms_refuted.

(** Trees of one word are never compared: dog/N equals barks/V. *)
Theorem C30_single_word_refuted :
  exists t1 t2 a1 a2, WF t1 /\ WF t2 /\ Reads t1 (RLeaf a1) /\ Reads t2 (RLeaf a2) /\
    tree_eqb t1 t2 = Ret true /\ ~ term_same_tag a1 a2.
Proof.
  exists (tree_new (lit "dog") (lit "N")), (tree_new (lit "barks") (lit "V")).
  exists (term_new (lit "dog") (lit "N") 0), (term_new (lit "barks") (lit "V") 0).
  split_and!; [apply tree_new_WF|apply tree_new_WF|by constructor|by constructor|vm_compute; reflexivity|].
  intros [E _]. vm_compute in E. discriminate E.
Qed.
Print Assumptions C30_single_word_refuted.

(** Two trees with several nodes, one of them discontinuous: they differ in the position of "the" and
    are told apart. *)
Example C30_ex :
  WF ex_proj /\ WF ex_disc /\ tree_eqb ex_proj ex_disc = Ret false /\ tree_eqb ex_disc ex_disc = Ret true /\
  exists n c, PE (edges ex_disc) n c.
Proof.
  split_and!; [apply ex_proj_WF|apply ex_disc_WF|vm_compute; reflexivity|vm_compute; reflexivity|].
  exists 3, 1. apply PE_of_children. vm_compute. reflexivity.
Qed.
