(** Trees that correspond node by node have related readings. *)
From Coq Require Import Lia.
From Verif Require Import ModModel TreeSpec BaseProofs SpanProofs ShapeProofs GraphProofs SortProofs RoseSpec RoseProofs.

(** Strictly sorted lists with corresponding elements correspond in order. *)
Lemma sorted_corr {A B} (f : A -> nat) (g : B -> nat) (Q : A -> B -> Prop) :
  (forall x y, Q x y -> f x = g y) ->
  forall l l', StronglySorted (fun a b => f a < f b) l -> StronglySorted (fun a b => g a < g b) l' ->
  (forall x, x ∈ l -> exists y, y ∈ l' /\ Q x y) -> (forall y, y ∈ l' -> exists x, x ∈ l /\ Q x y) ->
  Forall2 Q l l'.
Proof.
  intros HQ. induction l as [|x l IH]; intros l' S S' H1 H2.
  - destruct l' as [|y l']; [constructor|]. destruct (H2 y) as (x & Hx & _); set_solver.
  - destruct (H1 x) as (y0 & Hy0 & Q0); [set_solver|]. destruct l' as [|y l']; [set_solver|].
    inversion S as [|? ? S1 F1]; subst. inversion S' as [|? ? S1' F1']; subst.
    pose proof (proj1 (Forall_forall _ _) F1) as F2. pose proof (proj1 (Forall_forall _ _) F1') as F2'. clear F1 F1'. rename F2 into F1, F2' into F1'. simpl in *.
    destruct (H2 y) as (x0 & Hx0 & Qx0); [set_solver|].
    assert (E : f x = g y).
    { pose proof (HQ _ _ Q0). pose proof (HQ _ _ Qx0).
      apply elem_of_cons in Hx0 as [->|Hx0]; [done|]. apply F1 in Hx0.
      apply elem_of_cons in Hy0 as [->|Hy0]; [done|]. apply F1' in Hy0. lia. }
    assert (Qxy : Q x y).
    { apply elem_of_cons in Hy0 as [->|Hy0]; [done|]. apply F1' in Hy0. pose proof (HQ _ _ Q0). lia. }
    constructor; [done|]. apply IH; try done.
    + intros x1 Hx1. destruct (H1 x1) as (y1 & Hy1 & Q1); [set_solver|]. exists y1. split; [|done].
      apply elem_of_cons in Hy1 as [->|Hy1]; [|done]. apply F1 in Hx1. pose proof (HQ _ _ Q1). lia.
    + intros y1 Hy1. destruct (H2 y1) as (x1 & Hx1 & Q1); [set_solver|]. exists x1. split; [|done].
      apply elem_of_cons in Hx1 as [->|Hx1]; [|done]. apply F1' in Hy1. pose proof (HQ _ _ Q1). lia.
Qed.

Section corr.
  Context (t t' : tree) (M : nat -> nat -> Prop).
  Context (RT : terminal -> terminal -> Prop) (RN : nonterminal -> nonterminal -> Prop) (RE : option str -> option str -> Prop).
  Hypothesis (W : WF t) (W' : WF t').
  Hypothesis (Hnode : forall x y, M x y ->
    match nodes t !! x, nodes t' !! y with
    | Some (T a), Some (T b) => RT a b /\ t_span a = t_span b
    | Some (NT a), Some (NT b) => RN a b
    | _, _ => False
    end).
  Hypothesis (Hfwd : forall r y, r ∈ edges t -> is_primary (e_w r) = true -> M (e_src r) y ->
    exists r', r' ∈ edges t' /\ is_primary (e_w r') = true /\ e_src r' = y /\ M (e_tgt r) (e_tgt r') /\
      RE (edge_label (e_w r)) (edge_label (e_w r'))).
  Hypothesis (Hbwd : forall r' x, r' ∈ edges t' -> is_primary (e_w r') = true -> M x (e_src r') ->
    exists r, r ∈ edges t /\ is_primary (e_w r) = true /\ e_src r = x /\ M (e_tgt r) (e_tgt r') /\
      RE (edge_label (e_w r)) (edge_label (e_w r'))).

  Lemma corr_Dom x y z : M x y -> Dom (edges t) x z -> exists z', M z z' /\ Dom (edges t') y z'.
  Proof using Hfwd.
    clear Hbwd. intros HM HD. revert y HM. induction HD as [x|x c z (r & H1 & H2 & <- & <-) HD IH]; intros y HM.
    - exists y. split; [done|constructor].
    - destruct (Hfwd r y H1 H2 HM) as (r' & G1 & G2 & <- & G3 & _). destruct (IH _ G3) as (z' & Hz & HDz).
      exists z'. split; [done|]. eapply rtc_l; [|done]. by exists r'.
  Qed.
  Lemma corr_Dom' x y z' : M x y -> Dom (edges t') y z' -> exists z, M z z' /\ Dom (edges t) x z.
  Proof using Hbwd.
    clear Hfwd. intros HM HD. revert x HM. induction HD as [y|y c z (r & H1 & H2 & <- & <-) HD IH]; intros x HM.
    - exists x. split; [done|constructor].
    - destruct (Hbwd r x H1 H2 HM) as (r' & G1 & G2 & <- & G3 & _). destruct (IH _ G3) as (z' & Hz & HDz).
      exists z'. split; [done|]. eapply rtc_l; [|done]. by exists r'.
  Qed.
  Lemma corr_yields x y i : M x y -> yields (nodes t) (edges t) x i <-> yields (nodes t') (edges t') y i.
  Proof using Hnode Hfwd Hbwd.
    intros HM. split.
    - intros (m & HD & tm & Htm & Hs). destruct (corr_Dom _ _ _ HM HD) as (m' & Hm & HD'). exists m'. split; [done|].
      specialize (Hnode _ _ Hm). rewrite Htm in Hnode. destruct (nodes t' !! m') as [[|tm']|] eqn:E; try done.
      exists tm'. split; [done|]. destruct Hnode. congruence.
    - intros (m & HD & tm & Htm & Hs). destruct (corr_Dom' _ _ _ HM HD) as (m' & Hm & HD'). exists m'. split; [done|].
      specialize (Hnode _ _ Hm). rewrite Htm in Hnode. destruct (nodes t !! m') as [[|tm']|] eqn:E; try done.
      exists tm'. split; [done|]. destruct Hnode. congruence.
  Qed.
  Lemma corr_nt x y a b : M x y -> nodes t !! x = Some (NT a) -> nodes t' !! y = Some (NT b) -> nt_span a = nt_span b.
  Proof using W W' Hnode Hfwd Hbwd.
    intros HM Ha Hb. destruct (wf_nts _ W _ _ Ha) as [O1 C1], (wf_nts _ W' _ _ Hb) as [O2 C2].
    apply span_ext; [done|done|]. intros i. rewrite C1, C2. by apply corr_yields.
  Qed.
  Lemma corr_first x y : M x y -> first_pos (nodes t) x = first_pos (nodes t') y.
  Proof using W W' Hnode Hfwd Hbwd.
    intros HM. pose proof (Hnode _ _ HM) as H. unfold first_pos.
    destruct (nodes t !! x) as [[a|a]|] eqn:Ea; [| |done]; destruct (nodes t' !! y) as [[b|b]|] eqn:Eb; try done; simpl.
    - by rewrite (corr_nt _ _ _ _ HM Ea Eb).
    - destruct H as [_ ->]. done.
  Qed.
  Lemma corr_rose n r : Den (nodes t) (edges t) n r -> forall n' r', M n n' -> Den (nodes t') (edges t') n' r' ->
    rose_rel (fun a b => RT a b /\ t_span a = t_span b) (fun a b => RN a b /\ nt_span a = nt_span b) RE r r'.
  Proof using W W' Hnode Hfwd Hbwd.
    revert n r. apply (Den_ind' (nodes t) (edges t) (fun n r => forall n' r', M n n' -> Den (nodes t') (edges t') n' r' ->
      rose_rel (fun a b => RT a b /\ t_span a = t_span b) (fun a b => RN a b /\ nt_span a = nt_span b) RE r r')).
    - intros n tm Hn n' r' HM D. pose proof (Hnode _ _ HM) as H. rewrite Hn in H.
      inversion D as [? tm' Hn'|? nt' l' cs' Hn']; subst; rewrite Hn' in H; [|done]. by constructor.
    - intros n nt l cs Hn Hl HS HF n' r' HM D. pose proof (Hnode _ _ HM) as H. rewrite Hn in H.
      inversion D as [? tm' Hn'|? nt' l' cs' Hn' Hl' HS' HF']; subst; rewrite Hn' in H; [done|].
      constructor; [split; [done|by eapply corr_nt]|].
      assert (HQ : Forall2 (fun r r' => M (e_tgt r) (e_tgt r') /\ RE (edge_label (e_w r)) (edge_label (e_w r'))) l l').
      { apply (sorted_corr (fun r => first_pos (nodes t) (e_tgt r)) (fun r => first_pos (nodes t') (e_tgt r))); try done.
        - intros x y [Hxy _]. by apply corr_first.
        - intros r (H1 & H2 & <-)%Hl. destruct (Hfwd r n' H1 H2 HM) as (r' & G1 & G2 & <- & G3 & G4). exists r'. split; [|done].
          by apply Hl'.
        - intros r' (H1 & H2 & <-)%Hl'. destruct (Hbwd r' n H1 H2 HM) as (r & G1 & G2 & <- & G3 & G4). exists r. split; [|done].
          by apply Hl. }
      clear D Hl Hl' HS HS'. revert cs cs' HF HF'. induction HQ as [|e e' l l' [HMe HRe] HQ IH]; intros cs cs' HF HF'.
      + inversion HF; inversion HF'; subst. constructor.
      + inversion HF as [|? c ? cs0 (E & Dc & IHc) HF0]; subst. inversion HF' as [|? c' ? cs0' (E' & Dc') HF0']; subst.
        constructor; [|by apply IH]. rewrite E, E'. split; [done|]. by eapply IHc.
  Qed.
End corr.
