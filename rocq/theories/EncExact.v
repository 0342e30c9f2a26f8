(** C44 and C58: relative encodings whose offsets are arbitrary [isize]s.  No bound on their sum. *)
From Coq Require Import Lia ZArith.
From Verif Require Import ConllModel PtbModel TreeSpec RoseSpec EncSpec BaseProofs ShapeProofs EncConv ConllProofs PtbPrint PropsEnc PropsDec Ordered PropsTag.

(** ** Specification *)
(** Every offset is an [isize]; the sums need not be. *)
Definition offsets_isize (r : rel_enc) : Prop :=
  forall o l u, (Some (RRegular o l), u) ∈ r -> (- Z.of_N isize_bound <= o < Z.of_N isize_bound)%Z.

(** ** Proofs *)
Lemma isize_chk_big z : (Z.of_N isize_bound <= z)%Z -> isize_chk z = Panic.
Proof.
  intros H. destruct (isize_chk z) as [y| |] eqn:E; [|done|].
  - exfalso. unfold isize_chk in E. repeat case_match; try done; simplify_eq; lia.
  - exfalso. unfold isize_chk in E. by repeat case_match.
Qed.
(** Converting and repairing is one loop. *)
Lemma convert_fix e : forall prev acc, (c ← abs_from_rel e prev acc; unwrap_or_fix c) = fix_loop e prev acc.
Proof.
  induction e as [|[[[o l|l]|] u] e IH]; intros prev acc; cbn [abs_from_rel fix_loop].
  - done.
  - destruct (isize_chk (o + prev)) as [n| |]; cbn [mbind outcome_bind]; try done.
    destruct (n <? 1)%Z; [done|apply IH].
  - apply IH.
  - apply IH.
Qed.
Lemma repr_app e1 e2 : depths_repr (e1 ++ e2) <-> depths_repr e1 /\ depths_repr e2.
Proof.
  unfold depths_repr. split.
  - intros H. split; intros a u Hin; apply (H a u); set_solver.
  - intros [H1 H2] a u [Hin|Hin]%elem_of_app; eauto.
Qed.
Lemma repr_one y : depths_repr [y] <-> match y.1 with Some a => (Z.of_nat (ab_common a) < Z.of_N isize_bound)%Z | None => True end.
Proof.
  destruct y as [[a|] u]; simpl; split.
  - intros H. apply (H a u). by left.
  - by intros H a' u' [= -> ->]%elem_of_list_singleton.
  - done.
  - by intros _ a' u' [=]%elem_of_list_singleton.
Qed.
Lemma last_depth_nonneg e : (0 <= last_depth e)%Z.
Proof. unfold last_depth. destruct (last (omap fst e)); simpl; lia. Qed.
Lemma last_depth_repr e : depths_repr e -> (last_depth e < Z.of_N isize_bound)%Z.
Proof.
  induction e as [|y e IH] using rev_ind; [intros _; by vm_compute|]. intros [H1 H2]%repr_app. rewrite last_depth_snoc.
  apply repr_one in H2. destruct (y.1); [done|by apply IH].
Qed.
Lemma fix_loop_exact e : forall done_r acc,
  answers fixed done_r acc -> depths_repr acc -> offsets_isize e ->
  exists a, answers fixed (done_r ++ e) (acc ++ a) /\
    (depths_repr a -> fix_loop e (last_depth acc) acc = Ret (acc ++ a)) /\
    (~ depths_repr a -> fix_loop e (last_depth acc) acc = Panic).
Proof.
  assert (G : forall e done_r acc, answers fixed done_r acc -> exists a, answers fixed (done_r ++ e) (acc ++ a)).
  { clear. induction e as [|x e IH]; intros dr acc HA; [exists []; by rewrite !app_nil_r|].
    assert (exists y, entry_ok fixed (last_depth acc) x y) as [y Hy].
    { destruct x as [[a|] u]; [|by exists (None, u)].
      assert (exists k, fixed (exact_depth (last_depth acc) a) k) as [k Hk].
      { destruct (decide (1 <= exact_depth (last_depth acc) a)%Z); [exists (Z.to_nat (exact_depth (last_depth acc) a)); by apply fixed_ok|exists 2; apply fixed_bad; lia]. }
      by exists (Some (mk_abs k (rel_label a)), u). }
    destruct (IH (dr ++ [x]) (acc ++ [y])) as [a Ha]; [by apply answers_snoc|]. exists (y :: a). by rewrite <- !app_assoc in Ha. }
  induction e as [|x e IH]; intros dr acc HA HP HO.
  { exists []. rewrite !app_nil_r. split_and!; [done|done|]. intros Hn. exfalso. apply Hn. intros a u H. by apply elem_of_nil in H. }
  assert (HO' : offsets_isize e). { intros o l u H. eapply HO. right. exact H. }
  assert (STEP : forall y, entry_ok fixed (last_depth acc) x y ->
    (depths_repr [y] -> fix_loop (x :: e) (last_depth acc) acc = fix_loop e (last_depth (acc ++ [y])) (acc ++ [y])) ->
    (~ depths_repr [y] -> fix_loop (x :: e) (last_depth acc) acc = Panic) ->
    exists a, answers fixed (dr ++ x :: e) (acc ++ a) /\
    (depths_repr a -> fix_loop (x :: e) (last_depth acc) acc = Ret (acc ++ a)) /\
    (~ depths_repr a -> fix_loop (x :: e) (last_depth acc) acc = Panic)).
  { intros y Hy H1 H2.
    assert (depths_repr [y] \/ ~ depths_repr [y]) as [Hr|Hr].
    { rewrite repr_one. destruct (y.1) as [b|]; [lia|by left]. }
    - destruct (IH (dr ++ [x]) (acc ++ [y])) as (a & Ha & HR & HN); [by apply answers_snoc|by apply repr_app|done|].
      exists (y :: a). rewrite <- !app_assoc in Ha. split; [done|]. rewrite (H1 Hr). rewrite <- !app_assoc in HR. split.
      + intros [_ Hra]%(repr_app [y] a). by apply HR.
      + intros Hn. apply HN. intros Hra. apply Hn. by apply (repr_app [y] a).
    - destruct (G e (dr ++ [x]) (acc ++ [y])) as [a Ha]; [by apply answers_snoc|]. exists (y :: a). rewrite <- !app_assoc in Ha.
      split; [done|]. split; [|by intros _; apply H2]. intros [Hra _]%(repr_app [y] a). done. }
  pose proof (last_depth_nonneg acc) as Hge. pose proof (last_depth_repr acc HP) as Hlt. pose proof bounds_pos as [HB _].
  destruct x as [[[o l|l]|] u].
  - assert (Ho : (- Z.of_N isize_bound <= o < Z.of_N isize_bound)%Z) by (eapply HO; left).
    set (n := if (o + last_depth acc <? 1)%Z then 2%Z else (o + last_depth acc)%Z).
    assert (Hn : (1 <= n)%Z /\ fixed (o + last_depth acc) (Z.to_nat n) /\ (n < Z.of_N isize_bound <-> o + last_depth acc < Z.of_N isize_bound)%Z).
    { assert (2 < Z.of_N isize_bound)%Z by (clear; by vm_compute).
      unfold n. destruct (Z.ltb_spec (o + last_depth acc) 1); (split; [lia|]); (split; [by apply fixed_bad || by apply fixed_ok|lia]). }
    destruct Hn as (Hn1 & Hf & Hni). apply (STEP (Some (mk_abs (Z.to_nat n) l), u)).
    + split; [done|]. simpl. by split.
    + intros Hr%repr_one. simpl in Hr. rewrite Z2Nat.id, Hni in Hr by (clear -Hn1; lia). rewrite last_depth_snoc. simpl. cbn [fix_loop].
      rewrite isize_chk_ok by lia. cbn [mbind outcome_bind]. fold n. by rewrite Z2Nat.id by (clear -Hn1; lia).
    + rewrite repr_one. simpl. intros Hr. rewrite Z2Nat.id, Hni in Hr by (clear -Hn1; lia). cbn [fix_loop]. rewrite isize_chk_big by lia. done.
  - apply (STEP (Some (mk_abs 1 l), u)).
    + split; [done|]. simpl. by split.
    + intros _. by rewrite last_depth_snoc.
    + rewrite repr_one. simpl. intros Hr. exfalso. apply Hr. clear. by vm_compute.
  - apply (STEP (None, u)).
    + by split.
    + intros _. by rewrite last_depth_snoc.
    + rewrite repr_one. done.
Qed.

(** What a conversion that comes back says about exact answers. *)
Notation exactly := (fun n k => Z.of_nat k = n /\ (1 <= n)%Z).
Lemma abs_from_rel_says e : forall done_r acc c,
  answers exactly done_r acc -> abs_from_rel e (last_depth acc) acc = Ret c ->
    match c with
    | CSuccess a => answers exactly (done_r ++ e) a
    | CError er => ~ exists a, answers exactly (done_r ++ e) a
    end.
Proof.
  induction e as [|[[[o l|l]|] u] e IH]; intros dr acc c HA HC; cbn [abs_from_rel] in HC.
  - simplify_eq. by rewrite app_nil_r.
  - destruct (isize_chk (o + last_depth acc)) as [n| |] eqn:EC; cbn [mbind outcome_bind] in HC; try done.
    apply isize_chk_Ret in EC as ->. destruct (Z.ltb_spec (o + last_depth acc) 1) as [Hlt|Hge].
    + simplify_eq. intros (a' & [HL H]).
      assert (HT : take (length dr) a' = acc).
      { apply (answers_fun exactly dr).
        - intros n k1 k2 [<- _] [E _]. lia.
        - split; [rewrite take_length, HL, app_length; simpl; lia|]. intros i x y Hx Hy.
          assert (Hi : i < length dr) by (by apply lookup_lt_Some in Hx).
          rewrite lookup_take in Hy by done. rewrite take_take, min_l by lia. apply H; [|done]. by rewrite lookup_app_l.
        - done. }
      destruct (lookup_lt_is_Some_2 a' (length dr)) as [y Hy]. { rewrite HL, app_length. simpl. lia. }
      destruct (H (length dr) _ y (list_lookup_middle _ _ _ _ eq_refl) Hy) as [_ H2]. simpl in H2.
      destruct (y.1) as [b|]; [|done]. rewrite HT in H2. lia.
    + change (dr ++ (Some (RRegular o l), u) :: e) with (dr ++ [(Some (RRegular o l), u)] ++ e). rewrite app_assoc.
      eapply (IH _ (acc ++ [(Some (mk_abs (Z.to_nat (o + last_depth acc)) l), u)])).
      * apply answers_snoc; [done|]. split; [done|]. simpl. split; [done|]. lia.
      * rewrite last_depth_snoc. simpl. by rewrite Z2Nat.id by lia.
  - change (dr ++ (Some (RRoot l), u) :: e) with (dr ++ [(Some (RRoot l), u)] ++ e). rewrite app_assoc.
    eapply (IH _ (acc ++ [(Some (mk_abs 1 l), u)])).
    + apply answers_snoc; [done|]. split; [done|]. simpl. split; [done|]. lia.
    + by rewrite last_depth_snoc.
  - change (dr ++ (None, u) :: e) with (dr ++ [(None, u)] ++ e). rewrite app_assoc.
    eapply (IH _ (acc ++ [(None, u)])).
    + by apply answers_snoc.
    + by rewrite last_depth_snoc.
Qed.

(** ** C44 *)
(** The repaired encoding of [isize] offsets always exists as a list of numbers.  It is computed when
    all its depths are below 2^63, and the conversion panics when one is not. *)
Theorem C44_exact r : offsets_isize r ->
  exists a, (forall b, answers fixed r b <-> b = a) /\ depths_pos a /\
    (depths_repr a -> exists c, try_from_relative r = Ret c /\ unwrap_or_fix c = Ret a /\
       match c with
       | CSuccess a' => a' = a /\ answers exactly r a
       | CError _ => ~ exists a', answers exactly r a'
       end) /\
    (~ depths_repr a -> (c ← try_from_relative r; unwrap_or_fix c) = Panic).
Proof.
  intros HO. destruct (fix_loop_exact r [] [] (answers_nil _)) as (a & HA & HR & HN); [|done|].
  { intros b u H. by apply elem_of_nil in H. }
  simpl app in *. change (last_depth []) with 0%Z in *. exists a.
  assert (HU : forall b, answers fixed r b <-> b = a).
  { intros b. split; [|by intros ->]. intros Hb. eapply answers_fun; [|exact Hb|exact HA].
    intros n k1 k2. unfold fixed. destruct (decide _); lia. }
  split; [done|]. split; [by eapply answers_len_pos|]. split.
  - intros Hr. specialize (HR Hr). rewrite <- convert_fix in HR. apply bind_inv in HR as (c & Hc & Hu). exists c.
    split; [done|]. split; [done|]. pose proof (abs_from_rel_says r [] [] c (answers_nil _) Hc) as HS. destruct c as [a'|er]; simpl in HS; [|done].
    simpl in Hu. simplify_eq. done.
  - intros Hr. unfold try_from_relative. rewrite convert_fix. by apply HN.
Qed.
Print Assumptions C44_exact.
(** Both cases occur. *)
Example C44_exact_ex :
  let big := [(Some (RRegular 9223372036854775807 (lit "S")), None); (Some (RRegular 1 (lit "S")), None)] : rel_enc in
  offsets_isize big /\ (c ← try_from_relative big; unwrap_or_fix c) = Panic /\
  offsets_isize PropsEnc.ex_rel /\ match (c ← try_from_relative PropsEnc.ex_rel; unwrap_or_fix c) with Ret a => length a = 6 | _ => False end.
Proof.
  split; [|split; [|split]].
  - intros o l u H. repeat (apply elem_of_cons in H as [H|H]; [simplify_eq; vm_compute; by split|]). by apply elem_of_nil in H.
  - unfold try_from_relative. cbn [abs_from_rel]. reflexivity.
  - intros o l u H. repeat (apply elem_of_cons in H as [H|H]; [simplify_eq; vm_compute; by split|]). by apply elem_of_nil in H.
  - by vm_compute.
Qed.

(** ** C58 *)
Lemma parse_isize_range s z : parse_isize s = Some z -> (- Z.of_N isize_bound <= z < Z.of_N isize_bound)%Z.
Proof.
  pose proof bounds_pos as [HB _]. unfold parse_isize. destruct s as [|c s]; [done|]. destruct (N.eqb c 45).
  - destruct s as [|d s]; [done|]. destruct (parse_digits (d :: s) 0) as [n|]; cbn [mbind option_bind]; [|done].
    destruct (N.leb_spec n isize_bound); [|done]. intros [= <-]. lia.
  - destruct (strip_plus (c :: s)) as [|d s']; [done|]. destruct (parse_digits (d :: s') 0) as [n|]; cbn [mbind option_bind]; [|done].
    destruct (N.ltb_spec n isize_bound); [|done]. intros [= <-]. lia.
Qed.
(** Offsets read from tags are [isize]s. *)
Lemma rel_entries_isize l e : Forall2 rel_entry l e -> offsets_isize e.
Proof.
  intros HF o lb u Hin. apply elem_of_list_lookup in Hin as [i Hi]. destruct (Forall2_lookup_r _ _ _ _ _ HF Hi) as (k & _ & a & _ & HT).
  simpl in HT. destruct HT as [[_ HT]|[(_ & _ & _ & HT)|(_ & lb' & nb & d & _ & _ & HP & HT)]]; try done.
  simplify_eq. by eapply parse_isize_range.
Qed.
(** Relative tags, for every sentence: an unreadable tag is an error; readable tags give the tree of
    the repaired depths; reading panics exactly for the empty sentence or a depth of 2^63 or more. *)
Theorem C58_relative l :
  ((exists k, k ∈ l /\ ~ exists e, rel_entry k e) -> from_conllx_relative l = Ret Err) /\
  (forall e, Forall2 rel_entry l e -> exists a, (forall b, answers fixed e b <-> b = a) /\ depths_pos a /\
     (l <> [] -> depths_repr a -> exists t, from_conllx_relative l = Ret (Ok t) /\ reads_sentence l a t) /\
     (l = [] \/ ~ depths_repr a -> from_conllx_relative l = Panic)).
Proof.
  split; [exact (proj1 (C58_relative_partial l))|]. intros e HF.
  assert (HR : read_tokens REL_KEY rel_try_from 0 l =
     Ok (e, imap (fun i k => term_new (k_form k) (default (lit "_") (k_pos k)) (0 + i)) l)).
  { apply read_tokens_ok. eapply Forall2_impl; [exact HF|]. intros k x. apply read_rel_iff. }
  destruct (C44_exact e (rel_entries_isize l e HF)) as (a & HU & HD & H1 & H2). exists a. split; [done|]. split; [done|].
  assert (HA : answers fixed e a) by (by apply HU). split.
  - intros Hne Hr. unfold from_conllx_relative. rewrite HR. destruct (H1 Hr) as (c & -> & Hu & _). cbn [mbind outcome_bind].
    unfold unwrap_or_fix in Hu. rewrite Hu. cbn [mbind outcome_bind].
    destruct (decode_restore_any a l) as (t & r & r1 & G1 & G2 & G3 & G4 & G5); [|done|done|].
    { destruct HA as [-> _]. by rewrite (Forall2_length _ _ _ HF). }
    exists t. split; [done|]. split_and!; try done. by exists r, r1.
  - intros [-> |Hn]; [by vm_compute|]. specialize (H2 Hn). unfold from_conllx_relative. rewrite HR.
    destruct (try_from_relative e) as [c| |]; cbn [mbind outcome_bind] in *; try done. unfold unwrap_or_fix in H2. by rewrite H2.
Qed.
Print Assumptions C58_relative.

(** ** C43 *)
Lemma success_repr e : forall prev acc a, depths_repr acc -> abs_from_rel e prev acc = Ret (CSuccess a) -> depths_repr a.
Proof.
  induction e as [|[[[o l|l]|] u] e IH]; intros prev acc a HP HC; cbn [abs_from_rel] in HC.
  - by simplify_eq.
  - destruct (decide (Z.of_N isize_bound <= o + prev)%Z) as [Hb|Hb]; [by rewrite isize_chk_big in HC|].
    destruct (isize_chk (o + prev)) as [n| |] eqn:EC; cbn [mbind outcome_bind] in HC; try done.
    apply isize_chk_Ret in EC as ->. destruct (Z.ltb_spec (o + prev) 1) as [Hlt|Hge]; [done|].
    eapply IH; [|exact HC]. apply repr_app. split; [done|]. apply repr_one. cbn [fst ab_common]. lia.
  - eapply IH; [|exact HC]. apply repr_app. split; [done|]. apply repr_one. simpl. clear. by vm_compute.
  - eapply IH; [|exact HC]. apply repr_app. split; [done|]. by apply repr_one.
Qed.
(** The way there and back gives the encoding exactly when its depths are [isize]s. *)
Theorem C43_exact a : depths_pos a ->
  ((exists r, rel_from_abs a 0 = Ret r /\ try_from_relative r = Ret (CSuccess a)) <-> depths_repr a).
Proof.
  intros HP. split; [|intros HR; by apply C43_inverse_partial].
  intros (r & _ & HC). eapply success_repr; [|exact HC]. intros b u H. by apply elem_of_nil in H.
Qed.
Print Assumptions C43_exact.
