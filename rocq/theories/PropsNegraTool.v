(** C71: the tool from NEGRA to NEGRA. *)
From Coq Require Import Lia.
From Verif Require Import ConvModel Api TreeSpec BaseProofs TreeOps RoseProofs ConvSpec NegraSpec NegraWrite PropsConv PropsTool
  PropsNegra PropsNegra2 PropsRead PropsReadWF NegraWritable PropsNegraStable PropsNegraText.
Local Arguments lit : simpl never.

Lemma plain_tree choose t : convert_tree choose (only_out ONegra) None t = Ret (Ok (t, None)).
Proof. reflexivity. Qed.
Lemma plain_out rs : forall choose c its, convert_all choose (only_out ONegra) None c rs = Ret (its, true) ->
  exists ts c', rs = map Ok ts /\ PropsNegra2.written c ts (file_of its) c'.
Proof.
  induction rs as [|[t|] rs IH]; intros choose c its H; [|
    |done].
  - injection H as <-. exists [], c. split; [done|constructor].
  - cbn [convert_all] in H. rewrite plain_tree in H. cbn [mbind outcome_bind] in H. unfold write_tree in H. cbn [o_out only_out] in H.
    destruct (negra_write c t) as [[s c1]| |] eqn:E; [|done|done]. cbn [mbind outcome_bind] in H.
    destruct (convert_all _ _ None c1 rs) as [[its1 ok]| |] eqn:E1; [|done|done]. cbn [mbind outcome_bind] in H. injection H as <- ->.
    destruct (IH _ _ _ E1) as (ts & c' & -> & Hw). exists (t :: ts), c'. split; [done|].
    change (file_of (Text s :: its1)) with (s ++ file_of its1). by econstructor.
Qed.
Lemma plain_in ts : forall choose c s c', PropsNegra2.written c ts s c' ->
  exists its, convert_all choose (only_out ONegra) None c (map Ok ts) = Ret (its, true) /\ file_of its = s.
Proof.
  induction ts as [|t ts IH]; intros choose c s c' H; inversion H as [|? ? ? s1 c1 s2 ? Hw Hr]; subst.
  - exists []. done.
  - destruct (IH (fun k => choose (S k)) c1 s2 c' Hr) as (its & E & Ef). exists (Text s1 :: its). split.
    + cbn [map convert_all]. rewrite plain_tree. cbn [mbind outcome_bind]. unfold write_tree. cbn [o_out only_out].
      rewrite Hw. cbn [mbind outcome_bind]. rewrite E. done.
    + change (file_of (Text s1 :: its)) with (s1 ++ file_of its). by rewrite Ef.
Qed.
Lemma written_fun ts : forall c s c' s2 c2, PropsNegra2.written c ts s c' -> PropsNegra2.written c ts s2 c2 -> s = s2 /\ c' = c2.
Proof.
  induction ts as [|t ts IH]; intros c s c' s2 c2 H1 H2; inversion H1 as [|? ? ? s1 c1 sr ? Hw Hr]; inversion H2 as [|? ? ? s1' c1' sr' ? Hw' Hr']; subst; [done|].
  rewrite Hw in Hw'. injection Hw' as <- <-. by destruct (IH _ _ _ _ _ Hr Hr') as [-> ->].
Qed.
Lemma read_count ls rs : negra_read ls = Ret rs -> length rs <= length ls.
Proof.
  assert (G : forall f ls rs, negra_read_all f ls = Ret rs -> length rs < f).
  { induction f as [|f IH]; intros l r H; [done|]. cbn [negra_read_all] in H.
    destruct (negra_next l None) as [[[x|] l']| |]; [| |done|done]; cbn [mbind outcome_bind] in H.
    - destruct (negra_read_all f l') as [r'| |] eqn:E; [|done|done]. cbn [mbind outcome_bind] in H. injection H as <-. apply IH in E. simpl. lia.
    - injection H as <-. simpl. lia. }
  intros H%G. lia.
Qed.

(** If the tool reformats a NEGRA file of bottom-up sentences, the text it writes describes the same
    trees, and running the tool on that text gives the text again. *)
Theorem C71_tool choose choose' m m' ls its : tool_text choose INegra m (only_out ONegra) None ls = Ret (its, true) ->
  (forall bos body eos, block_in ls bos body eos -> bottom_up body) -> (forall l, Some l ∈ ls -> 10%N ∉ l) ->
  (N.of_nat (501 + length ls) < usize_bound)%N ->
  exists its' ts ts', tool_text choose' INegra m' (only_out ONegra) None (map Some (text_lines (file_of its))) = Ret (its', true) /\
    file_of its' = file_of its /\
    negra_read ls = Ret (map Ok ts) /\ negra_read (map Some (text_lines (file_of its))) = Ret (map Ok ts') /\
    Forall2 (fun t t' => WF t /\ WF t' /\ exists M, same_tree t t' M) ts ts'.
Proof.
  intros H HB Hnl Hsize. unfold tool_text, ConvModel.read_text in H.
  destruct (negra_read ls) as [rs| |] eqn:E; [|done|done]. cbn [mbind outcome_bind] in H.
  destruct (plain_out _ _ _ _ H) as (ts & c' & -> & Hw). pose proof (read_count _ _ E) as Hl. rewrite map_length in Hl.
  assert (HW : Forall WF ts).
  { apply Forall_forall. intros t Ht. destruct (C39_wf_exact _ _ t E) as (bos & body & eos & Hb & _ & Hwf); [by apply elem_of_list_fmap_1|].
    apply Hwf. by eapply HB. }
  assert (Hc : (N.of_nat (0 + length ts) < usize_bound)%N) by (clear -Hl Hsize; lia).
  destruct (C71_reformat ls ts 0 E HW Hnl Hsize Hc) as (s & ts' & H1 & H2 & H3 & H4).
  assert (file_of its = s) as -> by (exact (proj1 (written_fun _ _ _ _ _ _ Hw H1))).
  destruct (plain_in ts' choose' 0 s 0 (H4 0)) as (its' & E' & Ef). exists its', ts, ts'. split_and!; [|done|done|done|].
  - unfold tool_text, ConvModel.read_text. rewrite H2. exact E'.
  - clear -H3 HW. induction H3 as [|t t' ts ts' [W' HM] H3 IH]; [constructor|]. apply Forall_cons in HW as [W HW]. constructor; [done|by apply IH].
Qed.
(** A sentence with metadata, a gap and a secondary edge. *)
Example C71_tool_ex : (exists its, tool_text (fun _ _ _ => 0) INegra false (only_out ONegra) None (Some ex_bos :: map Some ex_body ++ [Some ex_eos]) = Ret (its, true) /\ length its = 1) /\
  (forall bos body eos, block_in (Some ex_bos :: map Some ex_body ++ [Some ex_eos]) bos body eos -> bottom_up body) /\
  (forall l, Some l ∈ Some ex_bos :: map Some ex_body ++ [Some ex_eos] -> 10%N ∉ l).
Proof.
  destruct C70_reread_ex as (t & _ & Hl & _). split; [|split; [|exact Hl]].
  - assert (H : match tool_text (fun _ _ _ => 0) INegra false (only_out ONegra) None (Some ex_bos :: map Some ex_body ++ [Some ex_eos]) with
                | Ret (its, true) => Nat.eqb (length its) 1 | _ => false end = true) by (vm_compute; reflexivity).
    clear Hl t. destruct (tool_text _ _ _ _ _ _) as [[its [|]]| |]; [|discriminate H|discriminate H|discriminate H].
    exists its. split; [reflexivity|by apply Nat.eqb_eq].
  - intros bos body eos H. apply one_block in H as ->; [exact (proj2 ex_body_ok)|apply ex_body_plain|apply ex_eos_ok].
Qed.
Print Assumptions C71_tool.
