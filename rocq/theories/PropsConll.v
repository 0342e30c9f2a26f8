(** Property C49: conversion of trees to CONLL-X sentences. *)
From Coq Require Import Lia ZArith.
From Verif Require Import ConllModel TreeSpec BaseProofs SpanProofs FeatProofs ShapeProofs GraphProofs SortProofs EditProofs
  RoseSpec TreeOps Api EncSpec PropsTree.

(** Token [k] carries form, lemma, tag and features of the terminal [tm]; the features can be read
    back from the text whenever they can be written as text at all (C08). *)
Definition carries (k : token) (tm : terminal) : Prop :=
  k_form k = t_form tm /\ k_lemma k = t_lemma tm /\ k_pos k = Some (t_pos tm) /\
  match t_feats tm with
  | None => k_feats k = None
  | Some m => exists s, k_feats k = Some s /\ s = feats_to_string m /\ (feats_ok m -> feats_from s = m)
  end.
Lemma token_of_carries tm : carries (token_of tm) tm.
Proof.
  unfold carries. simpl. split_and!; try done. destruct (t_feats tm) as [m|]; [|done]. simpl. eexists. split_and!; [done|done|].
  apply feats_roundtrip.
Qed.
Definition the_terminal (t : tree) (n : nat) : terminal :=
  match nodes t !! n with Some (T tm) => tm | _ => term_new [] [] 0 end.
Lemma to_conllx_spec t :
  WF t -> to_conllx t = Ret (map (fun n => token_of (the_terminal t n)) (sort_indices t (terminals t))).
Proof.
  intros [G Sh Tm Nt Nd]. unfold to_conllx. apply mapO_map. intros n Hn. unfold sort_indices in Hn. rewrite elem_of_sort_by in Hn.
  apply elem_of_terminals in Hn as [tm Hn]; [|done]. rewrite (node_at_Some _ _ _ Hn). unfold the_terminal. by rewrite Hn.
Qed.
Lemma move_tokens_spec t : forall l acc, NoDup l -> (forall n, n ∈ l -> exists tm, nodes t !! n = Some (T tm)) ->
  move_tokens t l acc = Ret (acc ++ map (fun n => (token_of (the_terminal t n), sp_start (t_span (the_terminal t n)))) l).
Proof.
  intros l. revert t. induction l as [|n l IH]; intros t acc Hnd Hl; cbn [move_tokens map]; [by rewrite app_nil_r|].
  apply NoDup_cons in Hnd as [Hn Hnd]. destruct (Hl n ltac:(set_solver)) as [tm Htm].
  rewrite (node_at_Some _ _ _ Htm). cbn [mbind outcome_bind node_terminal unwrap].
  assert (HE : forall m, m ∈ l -> nodes (put_node t n (T (emptied tm))) !! m = nodes t !! m).
  { intros m Hm. apply lookup_insert_ne. by intros ->. }
  rewrite IH; [|done|].
  - rewrite <- app_assoc. cbn [app]. f_equal. f_equal. f_equal; [unfold the_terminal at 1 2; by rewrite Htm|].
    apply map_ext_in. intros m Hm%elem_of_list_In. unfold the_terminal. by rewrite (HE m Hm).
  - intros m Hm. rewrite (HE m Hm). apply Hl. set_solver.
Qed.
Lemma sort_by_sorted_id {A} (cmp : A -> A -> comparison) l :
  StronglySorted (fun a b => cmp a b = Lt) l -> sort_by cmp l = l.
Proof.
  induction 1 as [|a l HS IH HF]; [done|]. unfold sort_by in *. cbn [foldr]. rewrite IH.
  destruct HF as [|b l Hab HF]; simpl; [done|]. by rewrite Hab.
Qed.

(** C49: both conversions give one token for every terminal, the [i]-th one being that of the
    terminal at position [i]. *)
Definition sentence_of (t : tree) (l : list token) : Prop :=
  length l = tr_nterm t /\
  forall i n tm, nodes t !! n = Some (T tm) -> t_span tm = span_of i -> exists k, l !! i = Some k /\ carries k tm.
Theorem C49_to_conllx t : WF t -> exists l, to_conllx t = Ret l /\ into_conllx t = Ret l /\ sentence_of t l.
Proof.
  intros W. pose proof W as [G Sh Tm Nt Nd]. rewrite (to_conllx_spec t W). eexists. split; [done|].
  destruct (sentence_sorted t G Tm) as [HL HS]. set (sent := sort_indices t (terminals t)) in *. split.
  - unfold into_conllx. fold sent. rewrite move_tokens_spec.
    + cbn [mbind outcome_bind app]. f_equal. rewrite sort_by_sorted_id; [by rewrite map_map|].
      assert (HT : forall n, n ∈ sent -> exists i, sent !! i = Some n /\ sp_start (t_span (the_terminal t n)) = i).
      { intros n [i Hi]%elem_of_list_lookup. exists i. split; [done|]. apply HS in Hi as (tm & Hn & Hs).
        unfold the_terminal. rewrite Hn. by rewrite Hs. }
      assert (HX : forall i n, sent !! i = Some n -> sp_start (t_span (the_terminal t n)) = i).
      { intros i n Hi. apply HS in Hi as (tm & Hn & Hs). unfold the_terminal. rewrite Hn. by rewrite Hs. }
      clearbody sent. clear -HX.
      assert (Gn : forall l o, (forall i n, l !! i = Some n -> sp_start (t_span (the_terminal t n)) = o + i) ->
        StronglySorted (fun a b : token * nat => Nat.compare a.2 b.2 = Lt)
          (map (fun n => (token_of (the_terminal t n), sp_start (t_span (the_terminal t n)))) l)).
      { induction l as [|n l IH]; intros o Ho; simpl; constructor.
        - apply (IH (S o)). intros i m Hi. rewrite (Ho (S i) m Hi). lia.
        - apply Forall_forall. intros x (m & -> & Hm)%elem_of_list_fmap. simpl. apply elem_of_list_lookup in Hm as [i Hi].
          rewrite (Ho 0 n eq_refl), (Ho (S i) m Hi). apply Nat.compare_lt_iff. lia. }
      apply (Gn sent 0). intros i n Hi. by rewrite (HX i n Hi).
    + unfold sent, sort_indices. rewrite sort_by_perm. apply terminals_nodup.
    + intros n [i Hi]%elem_of_list_lookup. apply HS in Hi as (tm & Hn & _). by exists tm.
  - split; [by rewrite map_length|]. intros i n tm Hn Hs. exists (token_of tm). split; [|apply token_of_carries].
    rewrite list_lookup_fmap. assert (Hi : sent !! i = Some n) by (apply HS; by exists tm). rewrite Hi. simpl.
    unfold the_terminal. by rewrite Hn.
Qed.
Print Assumptions C49_to_conllx.
(** A discontinuous tree whose terminals are numbered out of order. *)
Example C49_ex : WF ex_disc /\ exists l, to_conllx ex_disc = Ret l /\ map k_form l = [lit "dog"; lit "barks"; lit "the"; lit "loudly"].
Proof. split; [apply ex_disc_WF|]. eexists. split; [vm_compute; reflexivity|done]. Qed.
