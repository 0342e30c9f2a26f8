(** C47: exactly which tags survive printing and parsing. *)
From Coq Require Import Lia ZArith.
From Verif Require Import EncModel BaseProofs EncSpec EncConv EncExact NegraWritable PropsEnc.

Lemma split_head c s : forall p l, split_char c s = p :: l -> c ∉ p.
Proof.
  induction s as [|x s IH]; intros p l H; simpl in H.
  - injection H as <- _. apply not_elem_of_nil.
  - destruct (N.eqb_spec x c) as [->|Hne]; [injection H as <- _; apply not_elem_of_nil|].
    destruct (split_char c s) as [|p' l']; injection H as <- _.
    + intros Hin. apply elem_of_list_singleton in Hin. by apply Hne.
    + intros [E|Hin]%elem_of_cons; [by apply Hne|]. by eapply IH.
Qed.
(** What the parsers deliver. *)
Definition rel_fine (a : rel_anc) : Prop :=
  plus_sign ∉ rel_label a /\ rel_label a <> [] /\
  match a with RRegular o _ => (- Z.of_N isize_bound <= o < Z.of_N isize_bound)%Z | _ => True end.
Definition abs_fine (a : abs_anc) : Prop := plus_sign ∉ ab_label a /\ (N.of_nat (ab_common a) < usize_bound)%N.
Lemma rel_parsed s a : rel_try_from s = Ok a -> rel_fine a.
Proof.
  unfold rel_try_from. destruct (split_char plus_sign s) as [|[|x l] [|o r]] eqn:E; intros H; try discriminate H.
  - injection H as <-. split; [by eapply split_head|]. split; [discriminate|exact I].
  - destruct (parse_isize o) as [z|] eqn:Ez; [|discriminate H]. injection H as <-.
    split; [by eapply split_head|]. split; [discriminate|]. by eapply parse_isize_range.
Qed.
Lemma abs_parsed s a : abs_try_from s = Ok a -> abs_fine a.
Proof.
  unfold abs_try_from. destruct (split_char plus_sign s) as [|l [|o r]] eqn:E; intros H; try discriminate H.
  destruct (parse_usize o) as [k|] eqn:Ek; [|discriminate H]. injection H as <-.
  split; [by eapply split_head|]. by eapply parse_usize_bound.
Qed.

(** A tag is read back exactly if its label has no plus sign, is not empty on the relative scale, and its
    number fits. *)
Theorem C47_absolute_exact a : abs_try_from (abs_to_string a) = Ok a <->
  plus_sign ∉ ab_label a /\ (N.of_nat (ab_common a) < usize_bound)%N.
Proof. split; [apply abs_parsed|intros [H1 H2]; by apply C47_absolute]. Qed.
Print Assumptions C47_absolute_exact.
Theorem C47_relative_exact a : rel_try_from (rel_to_string a) = Ok a <->
  plus_sign ∉ rel_label a /\ rel_label a <> [] /\
  match a with RRegular o _ => (- Z.of_N isize_bound <= o < Z.of_N isize_bound)%Z | _ => True end.
Proof. split; [apply rel_parsed|intros (H1 & H2 & H3); by apply C47_relative_partial]. Qed.
Print Assumptions C47_relative_exact.
(** Whatever text a tag was read from, it can be written and read again. *)
Theorem C47_reread s :
  (forall a, abs_try_from s = Ok a -> abs_try_from (abs_to_string a) = Ok a) /\
  (forall a, rel_try_from s = Ok a -> rel_try_from (rel_to_string a) = Ok a).
Proof.
  split; intros a H.
  - by eapply C47_absolute_exact, abs_parsed.
  - by eapply C47_relative_exact, rel_parsed.
Qed.
Print Assumptions C47_reread.
(** Texts with leading zeros and with a third field, which is ignored. *)
Example C47_reread_ex : rel_try_from (lit "NP+-07+x") = Ok (RRegular (-7) (lit "NP")) /\
  rel_to_string (RRegular (-7) (lit "NP")) = lit "NP+-7" /\
  abs_try_from (lit "NP+007") = Ok (mk_abs 7 (lit "NP")) /\ abs_to_string (mk_abs 7 (lit "NP")) = lit "NP+7".
Proof. split; [|split; [|split]]; vm_compute; reflexivity. Qed.
