(** How dominance and [shape_ok] change under the elementary edits, stated on edge sets. *)
From Coq Require Import Lia.
From Verif Require Import TreeSpec BaseProofs ShapeProofs.

(** A step relation embedded in another closure. *)
Lemma rtc_embed {A} (R R' : A -> A -> Prop) a b :
  (forall x y, R x y -> rtc R' x y) -> rtc R a b -> rtc R' a b.
Proof. intros H Hr. induction Hr as [|x y z Hxy _ IH]; [done|]. etrans; [by apply H|done]. Qed.

Lemma rtc_mono_in {A} (R R' : A -> A -> Prop) (P : A -> Prop) a b :
  (forall x y, P x -> R x y -> P y /\ R' x y) -> P a -> rtc R a b -> rtc R' a b /\ P b.
Proof.
  intros H Ha Hr. induction Hr as [x|x y z Hxy _ IH]; [done|].
  destruct (H x y Ha Hxy) as [Hy Hxy']. destruct (IH Hy). split; [by eapply rtc_l|done].
Qed.

(** ** A new leaf *)
Section add_leaf.
  Context {N : gmap nat node} {es es' : list erec} {root p n e : nat} {l : option str} {pn : nonterminal} {tm : terminal}.
  Hypothesis (Sh : shape_ok N es root).
  Hypothesis (Hn : N !! n = None) (Hp : N !! p = Some (NT pn)).
  Hypothesis (Hes : forall r, r ∈ es' <-> r = mk_e e p n (Primary l) \/ r ∈ es).

  Lemma add_leaf_PE a b : PE es' a b <-> (a = p /\ b = n) \/ PE es a b.
  Proof.
    split.
    - intros (r & Hr & H1 & H2 & H3). apply Hes in Hr as [->|Hr]; simpl in *.
      + left. naive_solver.
      + right. by exists r.
    - intros [[-> ->]|(r & Hr & H1 & H2 & H3)].
      + exists (mk_e e p n (Primary l)). split_and!; try done. apply Hes. by left.
      + exists r. split_and!; try done. apply Hes. by right.
  Qed.
  Lemma add_leaf_no_in a : ~ PE es a n.
  Proof. intros H. apply (sh_live _ _ _ Sh) in H as [_ H]. rewrite Hn in H. by inversion H. Qed.
  Lemma add_leaf_no_out a : ~ PE es n a.
  Proof. intros H. apply (sh_live _ _ _ Sh) in H as [H _]. rewrite Hn in H. by inversion H. Qed.
  Lemma add_leaf_Dom_sub a b : Dom es a b -> Dom es' a b.
  Proof.
    apply rtc_embed. intros x y H. apply rtc_once. apply add_leaf_PE. by right.
  Qed.
  Lemma add_leaf_Dom_old a b : b <> n -> Dom es' a b <-> Dom es a b.
  Proof.
    intros Hb. split; [|apply add_leaf_Dom_sub]. intros H. revert Hb.
    induction H as [|x y z Hxy Hyz IH]; [done|]. intros Hz. specialize (IH Hz).
    apply add_leaf_PE in Hxy as [[-> ->]|Hxy]; [|by eapply rtc_l].
    apply rtc_inv in IH as [->|(u & Hu & _)]; [done|]. by apply add_leaf_no_out in Hu.
  Qed.
  Lemma add_leaf_Dom_new a : Dom es' a n <-> a = n \/ Dom es a p.
  Proof.
    split.
    - intros H. apply rtc_inv_r in H as [->|(z & Haz & Hz)]; [by left|].
      apply add_leaf_PE in Hz as [[-> _]|Hz]; [|by apply add_leaf_no_in in Hz].
      right. apply add_leaf_Dom_old; [|done]. intros ->. congruence.
    - intros [->|H]; [done|]. eapply rtc_r; [by apply add_leaf_Dom_sub|].
      apply add_leaf_PE. by left.
  Qed.
  Lemma add_leaf_shape : shape_ok (<[n := T tm]> N) es' root.
  Proof.
    constructor.
    - apply lookup_insert_is_Some'. right. apply (sh_root _ _ _ Sh).
    - intros q [[-> E]|H]%add_leaf_PE; [|by apply (sh_root_top _ _ _ Sh) in H].
      pose proof (sh_root _ _ _ Sh) as Hr. rewrite E, Hn in Hr. by inversion Hr.
    - intros r1 r2 H1%Hes H2%Hes P1 P2 E.
      destruct H1 as [->|H1], H2 as [->|H2]; simpl in *; [done| | |].
      + exfalso. apply (add_leaf_no_in (e_src r2)). by exists r2.
      + exfalso. apply (add_leaf_no_in (e_src r1)). by exists r1.
      + by apply (sh_uniq _ _ _ Sh).
    - intros a b [[-> ->]|H]%add_leaf_PE.
      + split; apply lookup_insert_is_Some'; [right; eauto|by left].
      + apply (sh_live _ _ _ Sh) in H as [H1 H2].
        split; apply lookup_insert_is_Some'; by right.
    - intros m Hm. destruct (decide (m = n)) as [->|Hne].
      + apply add_leaf_Dom_new. right. apply (sh_reach _ _ _ Sh). eauto.
      + rewrite lookup_insert_ne in Hm by done.
        apply add_leaf_Dom_sub, (sh_reach _ _ _ Sh), Hm.
    - intros m tm' c Hm. destruct (decide (m = n)) as [->|Hne].
      + intros [[-> _]|H]%add_leaf_PE; [congruence|by apply add_leaf_no_out in H].
      + rewrite lookup_insert_ne in Hm by done.
        intros [[-> _]|H]%add_leaf_PE; [congruence|by apply (sh_leaf _ _ _ Sh m tm') in H].
    - intros m nt Hm. destruct (decide (m = n)) as [->|Hne].
      + by rewrite lookup_insert in Hm.
      + rewrite lookup_insert_ne in Hm by done.
        destruct (sh_inner _ _ _ Sh m nt Hm) as [c Hc]. exists c. apply add_leaf_PE. by right.
  Qed.
End add_leaf.

(** ** A new node above an inner node *)
Section unary_above.
  Context {N : gmap nat node} {es es' : list erec} {root p c ins e1 e2 : nat}
          {r0 : erec} {l : option str} {w : edgew} {nt0 : nonterminal}.
  Hypothesis (Sh : shape_ok N es root).
  Hypothesis (Hi : N !! ins = None).
  Hypothesis (Hr0 : r0 ∈ es) (Pr0 : is_primary (e_w r0) = true) (Sr0 : e_src r0 = p)
             (Tr0 : e_tgt r0 = c) (Hw : is_primary w = true).
  Hypothesis (Hes : forall r, r ∈ es' <-> r = mk_e e1 p ins (Primary l) \/ r = mk_e e2 ins c w \/
                                     (r ∈ es /\ r <> r0)).
  Lemma above_pc : PE es p c.
  Proof. by exists r0. Qed.
  Lemma above_no_in a : ~ PE es a ins.
  Proof. intros H. apply (sh_live _ _ _ Sh) in H as [_ H]. rewrite Hi in H. by inversion H. Qed.
  Lemma above_no_out a : ~ PE es ins a.
  Proof. intros H. apply (sh_live _ _ _ Sh) in H as [H _]. rewrite Hi in H. by inversion H. Qed.
  Lemma above_PE a b :
    PE es' a b <-> (a = p /\ b = ins) \/ (a = ins /\ b = c) \/ (PE es a b /\ b <> c).
  Proof.
    split.
    - intros (r & Hr & H1 & H2 & H3). apply Hes in Hr as [->|[->|[Hr Hne]]]; simpl in *.
      + left. naive_solver.
      + right. left. naive_solver.
      + right. right. split; [by exists r|]. intros ->. apply Hne.
        apply (sh_uniq _ _ _ Sh); [done..|congruence].
    - intros [[-> ->]|[[-> ->]|[(r & Hr & H1 & H2 & H3) Hb]]].
      + exists (mk_e e1 p ins (Primary l)). split_and!; try done. apply Hes. by left.
      + exists (mk_e e2 ins c w). split_and!; try done. apply Hes. right. by left.
      + exists r. split_and!; try done. apply Hes. right. right. split; [done|].
        intros ->. congruence.
  Qed.
  Lemma above_Dom_sub a b : Dom es a b -> Dom es' a b.
  Proof.
    apply rtc_embed. intros x y H. destruct (decide (y = c)) as [->|Hy].
    - rewrite (PE_parent_unique Sh x p c H above_pc).
      eapply (rtc_l _ _ ins); [apply above_PE; by left|]. apply rtc_once, above_PE. right. by left.
    - apply rtc_once, above_PE. right. by right.
  Qed.
  Lemma above_Dom_aux a b :
    a <> ins -> Dom es' a b -> (b <> ins -> Dom es a b) /\ (b = ins -> Dom es a p).
  Proof.
    intros Ha. revert b. refine (rtc_ind_r _ _ _ _).
    - split; [done|]. by intros ->.
    - intros x y _ Hxy [IH1 IH2].
      apply above_PE in Hxy as [[-> ->]|[[-> ->]|[Hxy Hy]]].
      + split; [done|]. intros _. apply IH1. intros Ep. apply (above_no_out c). rewrite <- Ep. apply above_pc.
      + split; [|intros Ec; exfalso; apply (above_no_in p); rewrite <- Ec; apply above_pc].
        intros _. eapply rtc_r; [by apply IH2|apply above_pc].
      + assert (Hx : x <> ins) by (intros ->; by apply above_no_out in Hxy).
        split; [|intros ->; by apply above_no_in in Hxy].
        intros _. eapply rtc_r; [by apply IH1|done].
  Qed.
  Lemma above_Dom_old a b : a <> ins -> b <> ins -> Dom es' a b <-> Dom es a b.
  Proof.
    intros Ha Hb. split; [|apply above_Dom_sub]. intros H. by apply (above_Dom_aux a b).
  Qed.
  Lemma above_Dom_to a : a <> ins -> Dom es' a ins <-> Dom es a p.
  Proof.
    intros Ha. split.
    - intros H. by apply (above_Dom_aux a ins).
    - intros H. eapply rtc_r; [by apply above_Dom_sub|]. apply above_PE. by left.
  Qed.
  Lemma above_Dom_from b : b <> ins -> Dom es' ins b <-> Dom es c b.
  Proof.
    intros Hb. split.
    - intros H. apply rtc_inv in H as [<-|(x & Hx & Hxb)]; [done|].
      apply above_PE in Hx as [[Ep _]|[[_ ->]|[H _]]].
      + exfalso. apply (above_no_out c). rewrite Ep. apply above_pc.
      + apply above_Dom_old; [|done..]. intros Ec. apply (above_no_in p). rewrite <- Ec. apply above_pc.
      + by apply above_no_out in H.
    - intros H. eapply (rtc_l _ _ c); [apply above_PE; right; by left|]. by apply above_Dom_sub.
  Qed.
  Lemma above_shape : shape_ok (<[ins := NT nt0]> N) es' root.
  Proof.
    destruct (sh_live _ _ _ Sh p c above_pc) as [Hlp Hlc].
    assert (Hroot : root <> ins).
    { intros E. pose proof (sh_root _ _ _ Sh) as Hr. rewrite E, Hi in Hr. by inversion Hr. }
    constructor.
    - apply lookup_insert_is_Some'. right. apply (sh_root _ _ _ Sh).
    - intros q [[-> ->]|[[-> E]|[H Hne]]]%above_PE; [done| |by apply (sh_root_top _ _ _ Sh) in H].
      apply (sh_root_top _ _ _ Sh p). rewrite E. apply above_pc.
    - intros r1 r2 H1%Hes H2%Hes P1 P2 E.
      assert (G : forall r, r ∈ es /\ r <> r0 -> is_primary (e_w r) = true ->
                       e_tgt r <> ins /\ e_tgt r <> c).
      { intros r [Hr Hne] Pr. split.
        - intros Et. apply (above_no_in (e_src r)). by exists r.
        - intros Et. apply Hne. apply (sh_uniq _ _ _ Sh); [done..|congruence]. }
      assert (ins <> c) by (intros ->; rewrite Hi in Hlc; by inversion Hlc).
      destruct H1 as [->|[->|H1]], H2 as [->|[->|H2]]; simpl in *; try done;
        try (by destruct (G _ H1 P1)); try (by destruct (G _ H2 P2)); try congruence.
      by apply (sh_uniq _ _ _ Sh); try tauto.
    - intros a b [[-> ->]|[[-> ->]|[H _]]]%above_PE.
      + split; apply lookup_insert_is_Some'; [by right|by left].
      + split; apply lookup_insert_is_Some'; [by left|by right].
      + apply (sh_live _ _ _ Sh) in H as [H1 H2]. split; apply lookup_insert_is_Some'; by right.
    - intros m Hm. destruct (decide (m = ins)) as [->|Hne].
      + apply above_Dom_to; [done|]. by apply (sh_reach _ _ _ Sh).
      + rewrite lookup_insert_ne in Hm by done. by apply above_Dom_sub, (sh_reach _ _ _ Sh).
    - intros m tm x Hm. destruct (decide (m = ins)) as [->|Hne]; [by rewrite lookup_insert in Hm|].
      rewrite lookup_insert_ne in Hm by done.
      intros [[-> ->]|[[-> ->]|[H _]]]%above_PE; [|done|by apply (sh_leaf _ _ _ Sh m tm) in H].
      by apply (sh_leaf _ _ _ Sh p tm c Hm), above_pc.
    - intros m nt Hm. destruct (decide (m = ins)) as [->|Hne].
      + exists c. apply above_PE. right. by left.
      + rewrite lookup_insert_ne in Hm by done. destruct (sh_inner _ _ _ Sh m nt Hm) as [x Hx].
        destruct (decide (x = c)) as [->|Hxc].
        * exists ins. apply above_PE. left. split; [|done].
          apply (PE_parent_unique Sh m p c Hx above_pc).
        * exists x. apply above_PE. right. by right.
  Qed.
End unary_above.

(** ** A new root above the root *)
Section root_above.
  Context {N : gmap nat node} {es es' : list erec} {root ins e : nat} {l : option str}
          {nt0 : nonterminal}.
  Hypothesis (Sh : shape_ok N es root).
  Hypothesis (Hi : N !! ins = None).
  Hypothesis (Hes : forall r, r ∈ es' <-> r = mk_e e ins root (Primary l) \/ r ∈ es).
  Lemma rabove_no_in a : ~ PE es a ins.
  Proof. intros H. apply (sh_live _ _ _ Sh) in H as [_ H]. rewrite Hi in H. by inversion H. Qed.
  Lemma rabove_no_out a : ~ PE es ins a.
  Proof. intros H. apply (sh_live _ _ _ Sh) in H as [H _]. rewrite Hi in H. by inversion H. Qed.
  Lemma rabove_ne : root <> ins.
  Proof. intros E. pose proof (sh_root _ _ _ Sh) as Hr. rewrite E, Hi in Hr. by inversion Hr. Qed.
  Lemma rabove_PE a b : PE es' a b <-> (a = ins /\ b = root) \/ PE es a b.
  Proof.
    split.
    - intros (r & Hr & H1 & H2 & H3). apply Hes in Hr as [->|Hr]; simpl in *.
      + left. naive_solver.
      + right. by exists r.
    - intros [[-> ->]|(r & Hr & H1 & H2 & H3)].
      + exists (mk_e e ins root (Primary l)). split_and!; try done. apply Hes. by left.
      + exists r. split_and!; try done. apply Hes. by right.
  Qed.
  Lemma rabove_Dom_sub a b : Dom es a b -> Dom es' a b.
  Proof. apply rtc_embed. intros x y H. apply rtc_once, rabove_PE. by right. Qed.
  Lemma rabove_Dom_old a b : a <> ins -> Dom es' a b <-> Dom es a b.
  Proof.
    intros Ha. split; [|apply rabove_Dom_sub]. intros H. revert Ha.
    induction H as [|x y z Hxy _ IH]; intros Ha; [done|].
    apply rabove_PE in Hxy as [[-> ->]|Hxy]; [done|].
    eapply rtc_l; [done|]. apply IH. intros ->. by apply rabove_no_in in Hxy.
  Qed.
  Lemma rabove_Dom_from b : b <> ins -> Dom es' ins b <-> Dom es root b.
  Proof.
    intros Hb. split.
    - intros H. apply rtc_inv in H as [<-|(x & Hx & Hxb)]; [done|].
      apply rabove_PE in Hx as [[_ ->]|H]; [|by apply rabove_no_out in H].
      apply rabove_Dom_old; [apply rabove_ne|done].
    - intros H. eapply (rtc_l _ _ root); [apply rabove_PE; by left|]. by apply rabove_Dom_sub.
  Qed.
  Lemma rabove_shape : shape_ok (<[ins := NT nt0]> N) es' ins.
  Proof.
    constructor.
    - apply lookup_insert_is_Some'. by left.
    - intros q [[-> E]|H]%rabove_PE; [by apply rabove_ne|by apply rabove_no_in in H].
    - intros r1 r2 H1%Hes H2%Hes P1 P2 E.
      destruct H1 as [->|H1], H2 as [->|H2]; simpl in *; [done| | |by apply (sh_uniq _ _ _ Sh)].
      + exfalso. apply (sh_root_top _ _ _ Sh (e_src r2)). by exists r2.
      + exfalso. apply (sh_root_top _ _ _ Sh (e_src r1)). by exists r1.
    - intros a b [[-> ->]|H]%rabove_PE.
      + split; apply lookup_insert_is_Some'; [by left|right; apply (sh_root _ _ _ Sh)].
      + apply (sh_live _ _ _ Sh) in H as [H1 H2]. split; apply lookup_insert_is_Some'; by right.
    - intros m Hm. destruct (decide (m = ins)) as [->|Hne]; [done|].
      rewrite lookup_insert_ne in Hm by done. apply rabove_Dom_from; [done|].
      by apply (sh_reach _ _ _ Sh).
    - intros m tm x Hm. destruct (decide (m = ins)) as [->|Hne]; [by rewrite lookup_insert in Hm|].
      rewrite lookup_insert_ne in Hm by done.
      intros [[-> ->]|H]%rabove_PE; [done|by apply (sh_leaf _ _ _ Sh m tm) in H].
    - intros m nt Hm. destruct (decide (m = ins)) as [->|Hne].
      + exists root. apply rabove_PE. by left.
      + rewrite lookup_insert_ne in Hm by done. destruct (sh_inner _ _ _ Sh m nt Hm) as [x Hx].
        exists x. apply rabove_PE. by right.
  Qed.
End root_above.

(** ** A new node between a nonterminal and its children *)
Section unary_below.
  Context {N : gmap nat node} {es es' : list erec} {root n ins : nat} {nt0 ntn : nonterminal}.
  Hypothesis (Sh : shape_ok N es root).
  Hypothesis (Hi : N !! ins = None) (Hn : N !! n = Some (NT ntn)).
  (** Primary edges after the edit: one to the new node, one from it to each former child, the
      others unchanged; each target has one. *)
  Hypothesis (HPE : forall a b, PE es' a b <-> (a = n /\ b = ins) \/ (a = ins /\ PE es n b) \/
                                         (a <> n /\ PE es a b)).
  Hypothesis (Huniq : forall r1 r2, r1 ∈ es' -> r2 ∈ es' -> is_primary (e_w r1) = true ->
              is_primary (e_w r2) = true -> e_tgt r1 = e_tgt r2 -> r1 = r2).
  Lemma below_no_in a : ~ PE es a ins.
  Proof. intros H. apply (sh_live _ _ _ Sh) in H as [_ H]. rewrite Hi in H. by inversion H. Qed.
  Lemma below_no_out a : ~ PE es ins a.
  Proof. intros H. apply (sh_live _ _ _ Sh) in H as [H _]. rewrite Hi in H. by inversion H. Qed.
  Lemma below_Dom_sub a b : Dom es a b -> Dom es' a b.
  Proof.
    apply rtc_embed. intros x y H. destruct (decide (x = n)) as [->|Hx].
    - eapply rtc_l; [apply HPE; by left|]. apply rtc_once, HPE. right. by left.
    - apply rtc_once, HPE. right. by right.
  Qed.
  Lemma below_Dom_aux a b :
    a <> ins -> Dom es' a b -> (b <> ins -> Dom es a b) /\ (b = ins -> Dom es a n).
  Proof.
    intros Ha. assert (Hni : n <> ins) by congruence.
    revert b. refine (rtc_ind_r _ _ _ _).
    - split; [done|]. by intros ->.
    - intros x y _ Hxy [IH1 IH2].
      apply HPE in Hxy as [[-> ->]|[[-> Hy]|[Hx Hy]]].
      + split; [done|]. intros _. by apply IH1.
      + split; [|intros ->; by apply below_no_in in Hy]. intros _. eapply rtc_r; [by apply IH2|done].
      + assert (x <> ins) by (intros ->; by apply below_no_out in Hy).
        split; [|intros ->; by apply below_no_in in Hy]. intros _.
        eapply rtc_r; [by apply IH1|done].
  Qed.
  Lemma below_Dom_old a b : a <> ins -> b <> ins -> Dom es' a b <-> Dom es a b.
  Proof.
    intros Ha Hb. split; [|apply below_Dom_sub]. intros H. by apply (below_Dom_aux a b).
  Qed.
  Lemma below_Dom_to a : a <> ins -> Dom es' a ins <-> Dom es a n.
  Proof.
    intros Ha. split.
    - intros H. by apply (below_Dom_aux a ins).
    - intros H. eapply rtc_r; [by apply below_Dom_sub|]. apply HPE. by left.
  Qed.
  Lemma below_Dom_from b : b <> ins -> Dom es' ins b <-> Dom es n b /\ b <> n.
  Proof.
    intros Hb. assert (Hni : n <> ins) by congruence. split.
    - intros H. apply rtc_inv in H as [<-|(x & Hx & Hxb)]; [done|].
      apply HPE in Hx as [[-> _]|[[_ Hx]|[_ Hx]]]; [done| |by apply below_no_out in Hx].
      assert (Hxi : x <> ins) by (intros ->; by apply below_no_in in Hx).
      apply below_Dom_old in Hxb; [|done..]. split; [by eapply rtc_l|].
      intros ->. by apply (Dom_PE_acyclic Sh x n).
    - intros [H Hne]. apply rtc_inv in H as [<-|(x & Hx & Hxb)]; [done|].
      eapply rtc_l; [apply HPE; right; left; by split|]. by apply below_Dom_sub.
  Qed.
  Lemma below_shape : shape_ok (<[ins := NT nt0]> N) es' root.
  Proof.
    assert (Hni : n <> ins) by congruence.
    assert (Hroot : root <> ins).
    { intros E. pose proof (sh_root _ _ _ Sh) as Hr. rewrite E, Hi in Hr. by inversion Hr. }
    constructor.
    - apply lookup_insert_is_Some'. right. apply (sh_root _ _ _ Sh).
    - intros q [[-> E]|[[-> H]|[_ H]]]%HPE; [done|by apply (sh_root_top _ _ _ Sh) in H..].
    - done.
    - intros a b [[-> ->]|[[-> H]|[_ H]]]%HPE.
      + split; apply lookup_insert_is_Some'; [right; eauto|by left].
      + apply (sh_live _ _ _ Sh) in H as [H1 H2].
        split; apply lookup_insert_is_Some'; [by left|by right].
      + apply (sh_live _ _ _ Sh) in H as [H1 H2]. split; apply lookup_insert_is_Some'; by right.
    - intros m Hm. destruct (decide (m = ins)) as [->|Hne].
      + apply below_Dom_to; [done|]. apply (sh_reach _ _ _ Sh). eauto.
      + rewrite lookup_insert_ne in Hm by done. by apply below_Dom_sub, (sh_reach _ _ _ Sh).
    - intros m tm x Hm. destruct (decide (m = ins)) as [->|Hne]; [by rewrite lookup_insert in Hm|].
      rewrite lookup_insert_ne in Hm by done.
      intros [[-> ->]|[[-> H]|[_ H]]]%HPE; [congruence|done|by apply (sh_leaf _ _ _ Sh m tm) in H].
    - intros m nt Hm. destruct (decide (m = ins)) as [->|Hne].
      + destruct (sh_inner _ _ _ Sh n ntn Hn) as [x Hx]. exists x. apply HPE. right. by left.
      + rewrite lookup_insert_ne in Hm by done. destruct (decide (m = n)) as [->|Hmn].
        * exists ins. apply HPE. by left.
        * destruct (sh_inner _ _ _ Sh m nt Hm) as [x Hx]. exists x. apply HPE. right. by right.
  Qed.
End unary_below.

(** ** Splicing out a nonterminal *)
Section splice.
  Context {N : gmap nat node} {es es' : list erec} {root n p : nat} {ntn : nonterminal}.
  Hypothesis (Sh : shape_ok N es root).
  Hypothesis (Hn : N !! n = Some (NT ntn)) (Hpn : PE es p n).
  Hypothesis (HPE : forall a b, PE es' a b <-> (a = p /\ PE es n b) \/ (a <> n /\ b <> n /\ PE es a b)).
  Hypothesis (Huniq : forall r1 r2, r1 ∈ es' -> r2 ∈ es' -> is_primary (e_w r1) = true ->
              is_primary (e_w r2) = true -> e_tgt r1 = e_tgt r2 -> r1 = r2).
  Lemma splice_pn : p <> n.
  Proof. intros ->. by apply (PE_irrefl Sh n). Qed.
  Lemma splice_Dom_to a b : Dom es' a b -> Dom es a b.
  Proof.
    apply rtc_embed. intros x y [[-> H]|(_ & _ & H)]%HPE.
    - eapply rtc_l; [done|]. by apply rtc_once.
    - by apply rtc_once.
  Qed.
  Lemma splice_Dom_aux a b :
    a <> n -> Dom es a b -> (b <> n -> Dom es' a b) /\ (b = n -> Dom es' a p).
  Proof.
    intros Ha. revert b. refine (rtc_ind_r _ _ _ _).
    - split; [done|]. by intros ->.
    - intros x y _ Hxy [IH1 IH2]. destruct (decide (x = n)) as [->|Hx].
      + assert (y <> n) by (intros ->; by apply (PE_irrefl Sh n)).
        split; [|done]. intros _. eapply rtc_r; [by apply IH2|]. apply HPE. by left.
      + split.
        * intros Hy. eapply rtc_r; [by apply IH1|]. apply HPE. by right.
        * intros ->. rewrite <- (PE_parent_unique Sh x p n Hxy Hpn). by apply IH1.
  Qed.
  Lemma splice_Dom a b : a <> n -> b <> n -> Dom es' a b <-> Dom es a b.
  Proof.
    intros Ha Hb. split; [apply splice_Dom_to|]. intros H. by apply (splice_Dom_aux a b).
  Qed.
  Lemma splice_shape : shape_ok (delete n N) es' root.
  Proof.
    assert (Hroot : root <> n) by (intros ->; by apply (sh_root_top _ _ _ Sh p)).
    pose proof splice_pn as Hpn'.
    constructor.
    - rewrite lookup_delete_ne by done. apply (sh_root _ _ _ Sh).
    - intros q [[-> H]|(_ & _ & H)]%HPE; by apply (sh_root_top _ _ _ Sh) in H.
    - done.
    - intros a b [[-> H]|(H1 & H2 & H)]%HPE.
      + assert (b <> n) by (intros ->; by apply (PE_irrefl Sh n)).
        rewrite !lookup_delete_ne by done. split.
        * by apply (sh_live _ _ _ Sh p n).
        * by apply (sh_live _ _ _ Sh n b).
      + rewrite !lookup_delete_ne by done. by apply (sh_live _ _ _ Sh).
    - intros m Hm. rewrite lookup_delete_is_Some in Hm. destruct Hm as [Hne Hm].
      apply splice_Dom; [done..|]. by apply (sh_reach _ _ _ Sh).
    - intros m tm x Hm. apply lookup_delete_Some in Hm as [Hne Hm].
      intros [[-> H]|(_ & _ & H)]%HPE; [|by apply (sh_leaf _ _ _ Sh m tm) in H].
      by apply (sh_leaf _ _ _ Sh p tm n) in Hm.
    - intros m nt Hm. apply lookup_delete_Some in Hm as [Hne Hm].
      destruct (sh_inner _ _ _ Sh m nt Hm) as [x Hx].
      destruct (decide (x = n)) as [->|Hxn].
      + destruct (sh_inner _ _ _ Sh n ntn Hn) as [y Hy]. exists y. apply HPE. left. split; [|done].
        apply (PE_parent_unique Sh m p n Hx Hpn).
      + exists x. apply HPE. by right.
  Qed.
End splice.

(** ** Removing a root with a single child *)
Section unroot.
  Context {N : gmap nat node} {es es' : list erec} {root c : nat}.
  Hypothesis (Sh : shape_ok N es root).
  Hypothesis (Hc : PE es root c) (Honly : forall x, PE es root x -> x = c).
  Hypothesis (HPE : forall a b, PE es' a b <-> a <> root /\ PE es a b).
  Hypothesis (Huniq : forall r1 r2, r1 ∈ es' -> r2 ∈ es' -> is_primary (e_w r1) = true ->
              is_primary (e_w r2) = true -> e_tgt r1 = e_tgt r2 -> r1 = r2).
  Lemma unroot_Dom a b : a <> root -> Dom es' a b <-> Dom es a b.
  Proof.
    intros Ha. split.
    - apply rtc_embed. intros x y [_ H]%HPE. by apply rtc_once.
    - intros H. revert Ha. induction H as [|x y z Hxy _ IH]; intros Ha; [done|].
      eapply rtc_l; [by apply HPE|]. apply IH. intros ->. by apply (sh_root_top _ _ _ Sh x).
  Qed.
  Lemma unroot_reach m : m <> root -> Dom es root m -> Dom es c m.
  Proof.
    intros Hm H. apply rtc_inv in H as [<-|(x & Hx & H)]; [done|]. by rewrite (Honly x Hx) in H.
  Qed.
  Lemma unroot_shape : shape_ok (delete root N) es' c.
  Proof.
    assert (Hcr : c <> root) by (intros ->; by apply (PE_irrefl Sh root)).
    constructor.
    - rewrite lookup_delete_ne by done. by apply (sh_live _ _ _ Sh root c).
    - intros q [Hq H]%HPE. apply Hq. apply (PE_parent_unique Sh q root c H Hc).
    - done.
    - intros a b [H1 H]%HPE.
      assert (b <> root) by (intros ->; by apply (sh_root_top _ _ _ Sh a)).
      rewrite !lookup_delete_ne by done. by apply (sh_live _ _ _ Sh).
    - intros m Hm. rewrite lookup_delete_is_Some in Hm. destruct Hm as [Hne Hm].
      apply unroot_Dom; [done|]. apply unroot_reach; [done|]. by apply (sh_reach _ _ _ Sh).
    - intros m tm x Hm. apply lookup_delete_Some in Hm as [Hne Hm].
      intros [_ H]%HPE. by apply (sh_leaf _ _ _ Sh m tm) in H.
    - intros m nt Hm. apply lookup_delete_Some in Hm as [Hne Hm].
      destruct (sh_inner _ _ _ Sh m nt Hm) as [x Hx]. exists x. by apply HPE.
  Qed.
End unroot.

(** ** Removing a leaf that has a sibling *)
Section del_leaf.
  Context {N : gmap nat node} {es es' : list erec} {root n p s : nat} {tm : terminal}.
  Hypothesis (Sh : shape_ok N es root).
  Hypothesis (Hn : N !! n = Some (T tm)) (Hpn : PE es p n) (Hps : PE es p s) (Hsn : s <> n).
  Hypothesis (HPE : forall a b, PE es' a b <-> PE es a b /\ b <> n).
  Hypothesis (Huniq : forall r1 r2, r1 ∈ es' -> r2 ∈ es' -> is_primary (e_w r1) = true ->
              is_primary (e_w r2) = true -> e_tgt r1 = e_tgt r2 -> r1 = r2).
  Lemma del_leaf_Dom a b : b <> n -> Dom es' a b <-> Dom es a b.
  Proof.
    intros Hb. split.
    - apply rtc_embed. intros x y [H _]%HPE. by apply rtc_once.
    - intros H. revert b H Hb. refine (rtc_ind_r _ _ _ _); [done|].
      intros x y _ Hxy IH Hy. eapply rtc_r; [|by apply HPE].
      apply IH. intros ->. by apply (sh_leaf _ _ _ Sh n tm y).
  Qed.
  Lemma del_leaf_shape : shape_ok (delete n N) es' root.
  Proof.
    assert (Hroot : root <> n) by (intros ->; by apply (sh_root_top _ _ _ Sh p)).
    constructor.
    - rewrite lookup_delete_ne by done. apply (sh_root _ _ _ Sh).
    - intros q [H _]%HPE. by apply (sh_root_top _ _ _ Sh) in H.
    - done.
    - intros a b [H Hb]%HPE.
      assert (a <> n) by (intros ->; by apply (sh_leaf _ _ _ Sh n tm b)).
      rewrite !lookup_delete_ne by done. by apply (sh_live _ _ _ Sh).
    - intros m Hm. rewrite lookup_delete_is_Some in Hm. destruct Hm as [Hne Hm].
      apply del_leaf_Dom; [done|]. by apply (sh_reach _ _ _ Sh).
    - intros m tm' x Hm. apply lookup_delete_Some in Hm as [Hne Hm].
      intros [H _]%HPE. by apply (sh_leaf _ _ _ Sh m tm') in H.
    - intros m nt Hm. apply lookup_delete_Some in Hm as [Hne Hm].
      destruct (sh_inner _ _ _ Sh m nt Hm) as [x Hx]. destruct (decide (x = n)) as [->|Hxn].
      + exists s. apply HPE. split; [|done]. by rewrite (PE_parent_unique Sh m p n Hx Hpn).
      + exists x. by apply HPE.
  Qed.
End del_leaf.

(** ** Moving a node *)
Section move.
  Context {N : gmap nat node} {es es' : list erec} {root p np c e : nat} {r0 : erec}
          {l : edgew} {ntp : nonterminal}.
  Hypothesis (Sh : shape_ok N es root).
  Hypothesis (Hr0 : r0 ∈ es) (Pr0 : is_primary (e_w r0) = true) (Sr0 : e_src r0 = p)
             (Tr0 : e_tgt r0 = c) (Hl : is_primary l = true).
  Hypothesis (Hnp : N !! np = Some (NT ntp)) (Hcyc : ~ Dom es c np)
             (Hleft : p = np \/ exists s, PE es p s /\ s <> c).
  Hypothesis (Hes : forall r, r ∈ es' <-> r = mk_e e np c l \/ (r ∈ es /\ r <> r0)).
  Lemma move_pc : PE es p c.
  Proof. by exists r0. Qed.
  Lemma move_PE a b : PE es' a b <-> (a = np /\ b = c) \/ (PE es a b /\ b <> c).
  Proof.
    split.
    - intros (r & Hr & H1 & H2 & H3). apply Hes in Hr as [->|[Hr Hne]]; simpl in *.
      + left. naive_solver.
      + right. split; [by exists r|]. intros ->. apply Hne.
        apply (sh_uniq _ _ _ Sh); [done..|congruence].
    - intros [[-> ->]|[(r & Hr & H1 & H2 & H3) Hb]].
      + exists (mk_e e np c l). split_and!; try done. apply Hes. by left.
      + exists r. split_and!; try done. apply Hes. right. split; [done|]. intros ->. congruence.
  Qed.
  (** Nodes outside of the moved subtree keep their ancestors. *)
  Lemma move_Dom_out a b : ~ Dom es c b -> Dom es' a b <-> Dom es a b.
  Proof.
    intros Hb. split.
    - intros H. revert b H Hb. refine (rtc_ind_r _ _ _ _); [done|].
      intros x y _ Hxy IH Hy. apply move_PE in Hxy as [[-> ->]|[Hxy _]].
      + exfalso. by apply Hy.
      + eapply rtc_r; [|done]. apply IH. intros H. apply Hy. by eapply rtc_r.
    - intros H. revert b H Hb. refine (rtc_ind_r _ _ _ _); [done|].
      intros x y _ Hxy IH Hy. eapply rtc_r.
      + apply IH. intros H. apply Hy. by eapply rtc_r.
      + apply move_PE. right. split; [done|]. intros ->. by apply Hy.
  Qed.
  (** Inside of the moved subtree nothing changes. *)
  Lemma move_Dom_in a b : Dom es c a -> Dom es' a b <-> Dom es a b.
  Proof.
    intros Ha. split.
    - intros H. assert (G : Dom es a b /\ Dom es c b); [|by destruct G].
      revert b H. refine (rtc_ind_r _ _ _ _); [done|].
      intros x y _ Hxy [IH1 IH2]. apply move_PE in Hxy as [[-> ->]|[Hxy _]]; [done|].
      split; by eapply rtc_r.
    - intros H. revert Ha. induction H as [|x y z Hxy _ IH]; intros Hx; [done|].
      eapply rtc_l; [|apply IH; by eapply rtc_r]. apply move_PE. right. split; [done|].
      intros ->. by apply (Dom_PE_acyclic Sh c x).
  Qed.
  Lemma move_Dom a b :
    Dom es' a b <->
    (~ Dom es c b /\ Dom es a b) \/
    (Dom es c b /\ ((Dom es c a /\ Dom es a b) \/ (~ Dom es c a /\ Dom es a np))).
  Proof.
    assert (Dec : forall x, Dom es c x \/ ~ Dom es c x).
    { intros x. destruct (decide (is_Some (N !! x))) as [Hx|Hx].
      - destruct (upath_exists Sh x Hx) as [u Hu].
        destruct (decide (c = x)) as [->|Hcx]; [by left|].
        destruct (decide (c ∈ u)) as [Hin|Hin].
        + left. apply (upath_elem Sh x u c Hu) in Hin. by apply tc_rtc.
        + right. intros H. apply rtc_tc in H as [->|H]; [done|].
          apply Hin. by apply (upath_elem Sh x u c Hu).
      - destruct (decide (c = x)) as [->|Hcx]; [by left|].
        right. intros H. apply Hx. by apply (Dom_live Sh c x). }
    destruct (Dec b) as [Hb|Hb].
    - destruct (Dec a) as [Ha|Ha].
      + rewrite (move_Dom_in a b Ha). tauto.
      + split.
        * intros H. right. split; [done|]. right. split; [done|].
          (* the path enters the subtree through [np -> c] *)
          assert (G : forall y, Dom es' a y -> Dom es c y -> Dom es a np).
          { refine (rtc_ind_r _ _ _ _); [done|]. intros x y Hax Hxy IH Hy.
            destruct (Dec x) as [Hx|Hx]; [by apply IH|].
            apply move_PE in Hxy as [[-> ->]|[Hxy Hyc]].
            - apply (move_Dom_out a np Hx) in Hax. done.
            - destruct (Dom_step_r Sh c x y Hy Hxy) as [->|H']; [done|]. by apply Hx in H'. }
          by apply (G b).
        * intros [[H _]|[_ [[H _]|[_ H]]]]; [done|done|].
          etrans; [by apply (move_Dom_out a np)|].
          eapply (rtc_l _ _ c); [apply move_PE; by left|]. by apply move_Dom_in.
    - rewrite (move_Dom_out a b Hb). tauto.
  Qed.
  Lemma move_shape : shape_ok N es' root.
  Proof.
    assert (Hcr : c <> root) by (intros E; apply (sh_root_top _ _ _ Sh p); rewrite <- E; apply move_pc).
    assert (Hlc : is_Some (N !! c)) by (by apply (sh_live _ _ _ Sh p c), move_pc).
    constructor.
    - apply (sh_root _ _ _ Sh).
    - intros q [[-> E]|[H _]]%move_PE; [congruence|by apply (sh_root_top _ _ _ Sh) in H].
    - intros r1 r2 H1%Hes H2%Hes P1 P2 E.
      assert (G : forall r, r ∈ es /\ r <> r0 -> is_primary (e_w r) = true -> e_tgt r <> c).
      { intros r [Hr Hne] Pr Et. apply Hne. apply (sh_uniq _ _ _ Sh); [done..|congruence]. }
      destruct H1 as [->|H1], H2 as [->|H2]; simpl in *; try done.
      + by specialize (G _ H2 P2).
      + by specialize (G _ H1 P1).
      + apply (sh_uniq _ _ _ Sh); tauto.
    - intros a b [[-> ->]|[H _]]%move_PE; [split; eauto|by apply (sh_live _ _ _ Sh)].
    - apply (tree_ind_down Sh); [done|]. intros q m Hq IH Hqm.
      destruct (decide (m = c)) as [->|Hm].
      + eapply rtc_r; [|apply move_PE; by left].
        apply move_Dom_out; [done|]. apply (sh_reach _ _ _ Sh). eauto.
      + eapply rtc_r; [done|]. apply move_PE. by right.
    - intros m tm x Hm [[-> ->]|[H _]]%move_PE; [congruence|by apply (sh_leaf _ _ _ Sh m tm) in H].
    - intros m nt Hm. destruct (sh_inner _ _ _ Sh m nt Hm) as [x Hx].
      destruct (decide (x = c)) as [->|Hxc].
      + assert (m = p) as -> by (apply (PE_parent_unique Sh m p c Hx move_pc)).
        destruct Hleft as [Ep|(s & Hs & Hsc)].
        * exists c. apply move_PE. by left.
        * exists s. apply move_PE. by right.
      + exists x. apply move_PE. by right.
  Qed.
End move.
