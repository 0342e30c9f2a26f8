(** Conversion between the absolute and the relative scale; ancestor tags as text. *)
From Coq Require Import Lia ZArith.
From Verif Require Import EncModel TreeSpec BaseProofs EncSpec.

Lemma isize_chk_ok z : (- Z.of_N isize_bound <= z < Z.of_N isize_bound)%Z -> isize_chk z = Ret z.
Proof.
  intros H. unfold isize_chk. destruct (Z.leb_spec (- Z.of_N isize_bound) z); [|lia].
  by destruct (Z.ltb_spec z (Z.of_N isize_bound)); [|lia].
Qed.
Lemma isize_chk_Ret z y : isize_chk z = Ret y -> y = z.
Proof. unfold isize_chk. by destruct (_ && _)%bool; intros [= <-]. Qed.
Lemma bounds_pos : (0 < Z.of_N isize_bound /\ Z.of_N usize_bound = 2 * Z.of_N isize_bound)%Z.
Proof. by vm_compute. Qed.
Lemma as_isize_small n : (Z.of_nat n < Z.of_N isize_bound)%Z -> as_isize n = Z.of_nat n.
Proof.
  intros H. pose proof bounds_pos. unfold as_isize. rewrite Z.mod_small by lia.
  by destruct (Z.ltb_spec (Z.of_nat n) (Z.of_N isize_bound)); [|lia].
Qed.

(** *** From absolute to relative and back *)
Lemma rel_from_abs_total e prev :
  depths_repr e -> (0 <= prev < Z.of_N isize_bound)%Z -> exists r, rel_from_abs e prev = Ret r.
Proof.
  revert prev. induction e as [|[[a|] u] e IH]; intros prev Hr Hp; cbn [rel_from_abs]; [eauto| |].
  - assert (Ha : (Z.of_nat (ab_common a) < Z.of_N isize_bound)%Z) by (eapply Hr; left).
    rewrite as_isize_small by done. rewrite isize_chk_ok by lia. cbn [mbind outcome_bind].
    destruct (IH (Z.of_nat (ab_common a))) as [r ->]; [|lia|by eauto].
    intros b v Hb. eapply Hr. right. exact Hb.
  - destruct (IH prev) as [r ->]; [|done|by eauto]. intros b v Hb. eapply Hr. right. exact Hb.
Qed.
Lemma abs_rel_abs e : forall prev r acc,
  depths_pos e -> depths_repr e -> (0 <= prev < Z.of_N isize_bound)%Z ->
  rel_from_abs e prev = Ret r -> abs_from_rel r prev acc = Ret (CSuccess (acc ++ e)).
Proof.
  induction e as [|[[a|] u] e IH]; intros prev r acc Hp Hr Hb; cbn [rel_from_abs].
  - intros [= <-]. cbn [abs_from_rel]. by rewrite app_nil_r.
  - assert (Ha : (Z.of_nat (ab_common a) < Z.of_N isize_bound)%Z) by (eapply Hr; left).
    assert (Ha1 : 1 <= ab_common a) by (eapply Hp; left).
    rewrite as_isize_small by done. rewrite isize_chk_ok by lia. cbn [mbind outcome_bind].
    destruct (rel_from_abs e _) as [r'| |] eqn:E; [|done|done]. cbn [mbind outcome_bind]. intros [= <-].
    assert (G : forall acc, abs_from_rel r' (Z.of_nat (ab_common a)) acc = Ret (CSuccess (acc ++ e))).
    { intros acc'. apply IH; [| |lia|done]; intros b v Hb'; [eapply Hp|eapply Hr]; right; exact Hb'. }
    destruct a as [k l]; cbn [ab_common ab_label] in *.
    destruct (Nat.eqb_spec k 1) as [->|Hne]; cbn [abs_from_rel].
    + change (Z.of_nat 1) with 1%Z in G. rewrite G. by rewrite <- app_assoc.
    + replace (Z.of_nat k - prev + prev)%Z with (Z.of_nat k) by lia.
      rewrite isize_chk_ok by lia. cbn [mbind outcome_bind].
      destruct (Z.ltb_spec (Z.of_nat k) 1); [lia|]. rewrite G, Nat2Z.id. by rewrite <- app_assoc.
  - destruct (rel_from_abs e prev) as [r'| |] eqn:E; [|done|done]. cbn [mbind outcome_bind]. intros [= <-].
    cbn [abs_from_rel]. rewrite (IH prev r'); [by rewrite <- app_assoc| | |done|done];
      intros b v Hb'; [eapply Hp|eapply Hr]; right; exact Hb'.
Qed.

(** *** The repaired conversion *)
Definition entry_ok (R : Z -> nat -> Prop) (prev : Z) (x : option rel_anc * option str)
    (y : option abs_anc * option str) : Prop :=
  y.2 = x.2 /\
  match x.1, y.1 with
  | None, None => True
  | Some a, Some b => ab_label b = rel_label a /\ R (exact_depth prev a) (ab_common b)
  | _, _ => False
  end.
Lemma last_depth_snoc e y :
  last_depth (e ++ [y]) = match y.1 with Some a => Z.of_nat (ab_common a) | None => last_depth e end.
Proof.
  unfold last_depth. rewrite omap_app. destruct y as [[a|] u]; simpl.
  - by rewrite last_snoc.
  - by rewrite app_nil_r.
Qed.
Lemma answers_nil R : answers R [] [].
Proof. split; [done|]. intros i x y H. by rewrite lookup_nil in H. Qed.
Lemma answers_snoc R r e x y :
  answers R r e -> entry_ok R (last_depth e) x y -> answers R (r ++ [x]) (e ++ [y]).
Proof.
  intros [HL H] Hy. split; [rewrite !app_length; simpl; lia|]. intros i x' y' Hx' Hy'.
  assert (Hi : i < length (r ++ [x])) by (by apply lookup_lt_Some in Hx').
  rewrite app_length in Hi. simpl in Hi. destruct (decide (i = length r)) as [->|Hne].
  - rewrite list_lookup_middle in Hx' by done. injection Hx' as <-.
    rewrite list_lookup_middle in Hy' by done. injection Hy' as <-.
    rewrite take_app_alt by done. exact Hy.
  - rewrite lookup_app_l in Hx' by lia. rewrite lookup_app_l in Hy' by lia.
    rewrite take_app_le by lia. by apply H.
Qed.

(** A successful conversion answers exactly; so does the part before the first offending label. *)
Lemma abs_from_rel_spec e : forall done_r acc s,
  answers (fun n k => Z.of_nat k = n /\ (1 <= n)%Z) done_r acc ->
  (2 + s + foldr (fun x s => pos_offset x + s) 0 e < Z.of_N isize_bound)%Z ->
  (forall o l u, (Some (RRegular o l), u) ∈ e -> (- Z.of_N isize_bound <= o)%Z) ->
  (0 <= last_depth acc <= 2 + s)%Z -> (0 <= s)%Z ->
  exists c, abs_from_rel e (last_depth acc) acc = Ret c /\
    match c with
    | CSuccess a => answers (fun n k => Z.of_nat k = n /\ (1 <= n)%Z) (done_r ++ e) a
    | CError er => exists pre o, e = pre ++ (Some (RRegular o (ce_label er)), ce_leaf er) :: ce_iter er /\
        answers (fun n k => Z.of_nat k = n /\ (1 <= n)%Z) (done_r ++ pre) (ce_abs er) /\
        (last_depth (ce_abs er) + o < 1)%Z /\
        exists s', (2 + s' + foldr (fun x s => pos_offset x + s) 0 (ce_iter er) < Z.of_N isize_bound)%Z /\ (0 <= s')%Z
    end.
Proof.
  induction e as [|[[[o l|l]|] u] e IH]; intros dr acc s HA HB HO HD Hs; cbn [abs_from_rel].
  - exists (CSuccess acc). by rewrite app_nil_r.
  - cbn [foldr] in HB. unfold pos_offset at 1 in HB. simpl fst in HB. cbn iota in HB.
    assert (Ho : (- Z.of_N isize_bound <= o)%Z) by (eapply HO; left).
    assert (Hnn : (0 <= foldr (fun x s => pos_offset x + s) 0 e)%Z).
    { clear. induction e as [|x e IH]; cbn [foldr]; [lia|].
      assert (0 <= pos_offset x)%Z; [|lia]. destruct x as [[[o l|l]|] u]; unfold pos_offset; simpl; lia. }
    rewrite isize_chk_ok by lia. cbn [mbind outcome_bind].
    destruct (Z.ltb_spec (o + last_depth acc) 1) as [Hlt|Hge].
    + eexists. split; [reflexivity|]. cbn [ce_label ce_leaf ce_iter ce_abs]. exists [], o. rewrite app_nil_r. split_and!; [done|done|lia|].
      exists (s + Z.max o 0)%Z. lia.
    + set (y := (Some (mk_abs (Z.to_nat (o + last_depth acc)) l), u) : option abs_anc * option str).
      assert (HY : last_depth (acc ++ [y]) = (o + last_depth acc)%Z).
      { rewrite last_depth_snoc. unfold y. simpl. lia. }
      rewrite <- HY. destruct (IH (dr ++ [(Some (RRegular o l), u)]) (acc ++ [y]) (s + Z.max o 0)%Z) as (c & Hc & Hcc).
      * apply answers_snoc; [done|]. unfold y. split; [done|]. simpl. split; [done|]. lia.
      * lia.
      * intros o' l' u' Hin. eapply HO. right. exact Hin.
      * rewrite HY. lia.
      * lia.
      * exists c. split; [exact Hc|]. destruct c as [a|er].
        -- by rewrite <- app_assoc in Hcc.
        -- destruct Hcc as (pre & o' & H1 & H2 & H3 & H4). exists ((Some (RRegular o l), u) :: pre), o'.
           rewrite <- app_assoc in H2. split_and!; [by rewrite H1|done|done|done].
  - cbn [foldr] in HB. unfold pos_offset at 1 in HB. simpl fst in HB. cbn iota in HB.
    set (y := (Some (mk_abs 1 l), u) : option abs_anc * option str).
    assert (HY : last_depth (acc ++ [y]) = 1%Z) by (by rewrite last_depth_snoc).
    destruct (IH (dr ++ [(Some (RRoot l), u)]) (acc ++ [y]) s) as (c & Hc & Hcc).
    * apply answers_snoc; [done|]. split; [done|]. simpl. split; [done|]. lia.
    * lia.
    * intros o' l' u' Hin. eapply HO. right. exact Hin.
    * rewrite HY. lia.
    * done.
    * rewrite HY in Hc. exists c. split; [exact Hc|]. destruct c as [a|er].
      -- by rewrite <- app_assoc in Hcc.
      -- destruct Hcc as (pre & o' & H1 & H2 & H3 & H4). exists ((Some (RRoot l), u) :: pre), o'.
         rewrite <- app_assoc in H2. split_and!; [by rewrite H1|done|done|done].
  - cbn [foldr] in HB. unfold pos_offset at 1 in HB. simpl fst in HB. cbn iota in HB.
    set (y := (None, u) : option abs_anc * option str).
    assert (HY : last_depth (acc ++ [y]) = last_depth acc) by (by rewrite last_depth_snoc).
    rewrite <- HY. destruct (IH (dr ++ [(None, u)]) (acc ++ [y]) s) as (c & Hc & Hcc).
    * by apply answers_snoc.
    * lia.
    * intros o' l' u' Hin. eapply HO. right. exact Hin.
    * by rewrite HY.
    * done.
    * exists c. split; [exact Hc|]. destruct c as [a|er].
      -- by rewrite <- app_assoc in Hcc.
      -- destruct Hcc as (pre & o' & H1 & H2 & H3 & H4). exists ((None, u) :: pre), o'.
         rewrite <- app_assoc in H2. split_and!; [by rewrite H1|done|done|done].
Qed.

Lemma fixed_ok n : (1 <= n)%Z -> fixed n (Z.to_nat n).
Proof. intros H. unfold fixed. destruct (decide _); [lia|done]. Qed.
Lemma fixed_bad n : (n < 1)%Z -> fixed n 2.
Proof. intros H. unfold fixed. by destruct (decide _); [lia|]. Qed.

Lemma fix_loop_spec e : forall done_r acc s,
  answers fixed done_r acc ->
  (2 + s + foldr (fun x s => pos_offset x + s) 0 e < Z.of_N isize_bound)%Z ->
  (forall o l u, (Some (RRegular o l), u) ∈ e -> (- Z.of_N isize_bound <= o)%Z) ->
  (0 <= last_depth acc <= 2 + s)%Z -> (0 <= s)%Z ->
  exists a, fix_loop e (last_depth acc) acc = Ret a /\ answers fixed (done_r ++ e) a.
Proof.
  induction e as [|[[[o l|l]|] u] e IH]; intros dr acc s HA HB HO HD Hs; cbn [fix_loop].
  - exists acc. by rewrite app_nil_r.
  - cbn [foldr] in HB. unfold pos_offset at 1 in HB. simpl fst in HB. cbn iota in HB.
    assert (Ho : (- Z.of_N isize_bound <= o)%Z) by (eapply HO; left).
    assert (Hnn : (0 <= foldr (fun x s => pos_offset x + s) 0 e)%Z).
    { clear. induction e as [|x e IH]; cbn [foldr]; [lia|].
      assert (0 <= pos_offset x)%Z; [|lia]. destruct x as [[[o l|l]|] u]; unfold pos_offset; simpl; lia. }
    rewrite isize_chk_ok by lia. cbn [mbind outcome_bind].
    set (n := if (o + last_depth acc <? 1)%Z then 2%Z else (o + last_depth acc)%Z).
    assert (Hn : (1 <= n <= 2 + (s + Z.max o 0))%Z /\ fixed (o + last_depth acc) (Z.to_nat n)).
    { unfold n. destruct (Z.ltb_spec (o + last_depth acc) 1); (split; [lia|]); [by apply fixed_bad|by apply fixed_ok]. }
    clearbody n. destruct Hn as [Hn Hf].
    set (y := (Some (mk_abs (Z.to_nat n) l), u) : option abs_anc * option str).
    assert (HY : last_depth (acc ++ [y]) = n) by (rewrite last_depth_snoc; unfold y; simpl; lia).
    rewrite <- HY. destruct (IH (dr ++ [(Some (RRegular o l), u)]) (acc ++ [y]) (s + Z.max o 0)%Z) as (a & Ha & Haa).
    + by apply answers_snoc.
    + lia.
    + intros o' l' u' Hin. eapply HO. right. exact Hin.
    + rewrite HY. lia.
    + lia.
    + exists a. split; [exact Ha|]. by rewrite <- app_assoc in Haa.
  - cbn [foldr] in HB. unfold pos_offset at 1 in HB. simpl fst in HB. cbn iota in HB.
    set (y := (Some (mk_abs 1 l), u) : option abs_anc * option str).
    assert (HY : last_depth (acc ++ [y]) = 1%Z) by (by rewrite last_depth_snoc).
    destruct (IH (dr ++ [(Some (RRoot l), u)]) (acc ++ [y]) s) as (a & Ha & Haa).
    + by apply answers_snoc.
    + lia.
    + intros o' l' u' Hin. eapply HO. right. exact Hin.
    + rewrite HY. lia.
    + done.
    + rewrite HY in Ha. exists a. split; [exact Ha|]. by rewrite <- app_assoc in Haa.
  - cbn [foldr] in HB. unfold pos_offset at 1 in HB. simpl fst in HB. cbn iota in HB.
    set (y := (None, u) : option abs_anc * option str).
    assert (HY : last_depth (acc ++ [y]) = last_depth acc) by (by rewrite last_depth_snoc).
    rewrite <- HY. destruct (IH (dr ++ [(None, u)]) (acc ++ [y]) s) as (a & Ha & Haa).
    + by apply answers_snoc.
    + lia.
    + intros o' l' u' Hin. eapply HO. right. exact Hin.
    + by rewrite HY.
    + done.
    + exists a. split; [exact Ha|]. by rewrite <- app_assoc in Haa.
Qed.

Lemma answers_impl (R R' : Z -> nat -> Prop) r e :
  (forall n k, R n k -> R' n k) -> answers R r e -> answers R' r e.
Proof.
  intros HR [HL H]. split; [done|]. intros i x y Hx Hy. destruct (H i x y Hx Hy) as [H1 H2]. split; [done|].
  destruct (x.1), (y.1); naive_solver.
Qed.

(** An answer is determined by the relative encoding. *)
Lemma answers_fun (R : Z -> nat -> Prop) r e1 e2 :
  (forall n k1 k2, R n k1 -> R n k2 -> k1 = k2) -> answers R r e1 -> answers R r e2 -> e1 = e2.
Proof.
  intros HF [L1 H1] [L2 H2].
  assert (G : forall i, i <= length r -> take i e1 = take i e2).
  { induction i as [|i IH]; intros Hi; [done|].
    destruct (lookup_lt_is_Some_2 r i ltac:(lia)) as [x Hx].
    destruct (lookup_lt_is_Some_2 e1 i ltac:(lia)) as [y1 Hy1].
    destruct (lookup_lt_is_Some_2 e2 i ltac:(lia)) as [y2 Hy2].
    erewrite !take_S_r by eassumption. rewrite IH by lia. f_equal. f_equal.
    destruct (H1 i x y1 Hx Hy1) as [A1 A2], (H2 i x y2 Hx Hy2) as [B1 B2].
    rewrite IH in A2 by lia. destruct x as [[a|] u], y1 as [[b1|] u1], y2 as [[b2|] u2]; simpl in *; try done.
    - destruct A2 as [A2 A3], B2 as [B2 B3]. destruct b1 as [k1 l1], b2 as [k2 l2]; simpl in *. subst.
      by rewrite (HF _ _ _ A3 B3).
    - by subst. }
  specialize (G (length r) ltac:(lia)). by rewrite !take_ge in G by lia.
Qed.

Lemma unwrap_or_fix_spec r :
  offsets_repr r ->
  exists c a, try_from_relative r = Ret c /\ unwrap_or_fix c = Ret a /\ answers fixed r a /\
    match c with
    | CSuccess a' => a' = a /\ answers (fun n k => Z.of_nat k = n /\ (1 <= n)%Z) r a
    | CError _ => ~ exists a', answers (fun n k => Z.of_nat k = n /\ (1 <= n)%Z) r a'
    end.
Proof.
  intros [HO HB]. unfold try_from_relative.
  destruct (abs_from_rel_spec r [] [] 0 (answers_nil _)) as (c & Hc & Hcc).
  { lia. } { done. } { unfold last_depth; simpl; lia. } { lia. }
  simpl app in Hcc. change (last_depth []) with 0%Z in Hc. rewrite Hc. destruct c as [a|er].
  - exists (CSuccess a), a. split_and!; try done. eapply answers_impl; [|exact Hcc].
    intros n k [E H]. unfold fixed. by destruct (decide _).
  - destruct Hcc as (pre & o & HE & HA & Hlt & s' & HB' & Hs').
    set (y := (Some (mk_abs 2 (ce_label er)), ce_leaf er) : option abs_anc * option str).
    assert (HY : last_depth (ce_abs er ++ [y]) = 2%Z) by (by rewrite last_depth_snoc).
    destruct (fix_loop_spec (ce_iter er) (pre ++ [(Some (RRegular o (ce_label er)), ce_leaf er)]) (ce_abs er ++ [y]) s') as (a & Ha & Haa).
    + apply answers_snoc.
      * eapply answers_impl; [|exact HA]. intros n k [E H]. unfold fixed. by destruct (decide _).
      * split; [done|]. simpl. split; [done|]. apply fixed_bad. lia.
    + done.
    + intros o' l u Hin. eapply (HO o' l u). rewrite HE. apply elem_of_app. right. by right.
    + rewrite HY. lia.
    + done.
    + exists (CError er), a. split_and!; [done| | |].
      * unfold unwrap_or_fix, fix_error. rewrite HY in Ha. exact Ha.
      * rewrite <- app_assoc in Haa. by rewrite HE.
      * intros (a' & [HL H]).
        assert (Hpre : take (length pre) a' = ce_abs er).
        { apply (answers_fun (fun n k => Z.of_nat k = n /\ (1 <= n)%Z) pre); [lia| |done].
          split; [rewrite take_length, HL, HE, app_length; simpl; lia|].
          intros i x z Hx Hz. assert (Hi : i < length pre) by (by apply lookup_lt_Some in Hx).
          rewrite lookup_take in Hz by done. rewrite take_take, Nat.min_l by lia.
          apply H; [|done]. rewrite HE, lookup_app_l by done. done. }
        destruct (lookup_lt_is_Some_2 a' (length pre)) as [z Hz].
        { rewrite HL, HE, app_length. simpl. lia. }
        destruct (H (length pre) (Some (RRegular o (ce_label er)), ce_leaf er) z) as [_ H2]; [|done|].
        { by rewrite HE, list_lookup_middle. }
        simpl in H2. destruct (z.1) as [b|]; [|done]. rewrite Hpre in H2. lia.
Qed.

Lemma answers_len_pos r a : answers fixed r a -> depths_pos a.
Proof.
  intros [HL H] b u Hin. apply elem_of_list_lookup in Hin as [i Hi].
  destruct (lookup_lt_is_Some_2 r i) as [x Hx]; [apply lookup_lt_Some in Hi; lia|].
  destruct (H i x _ Hx Hi) as [_ H2]. simpl in H2. destruct (x.1) as [c|]; [|done]. destruct H2 as [_ H2].
  unfold fixed in H2. destruct (decide _); lia.
Qed.

(** *** Ancestor tags *)
Lemma abs_tag_round a :
  plus_sign ∉ ab_label a -> (N.of_nat (ab_common a) < usize_bound)%N -> abs_try_from (abs_to_string a) = Ok a.
Proof.
  intros Hl Hk. unfold abs_try_from, abs_to_string.
  change ([plus_sign] ++ ?x) with (plus_sign :: x). rewrite split_char_app by done. rewrite split_char_none.
  - rewrite parse_print_nat by done. by destruct a.
  - intros H. apply print_nat_digits in H. unfold plus_sign in H. lia.
Qed.
Lemma print_Z_no_plus z : plus_sign ∉ print_Z z.
Proof.
  unfold print_Z, plus_sign. destruct z as [|p|p]; rewrite ?elem_of_cons; intros H.
  - apply print_nat_digits in H. lia.
  - apply print_nat_digits in H. lia.
  - destruct H as [H|H%print_nat_digits]; lia.
Qed.
Lemma rel_tag_round a :
  plus_sign ∉ rel_label a -> rel_label a <> [] ->
  match a with RRegular o _ => (- Z.of_N isize_bound <= o < Z.of_N isize_bound)%Z | _ => True end ->
  rel_try_from (rel_to_string a) = Ok a.
Proof.
  intros Hl Hne Hk. unfold rel_try_from, rel_to_string. destruct a as [o l|l]; simpl rel_label in *.
  - change ([plus_sign] ++ ?x) with (plus_sign :: x). rewrite split_char_app by done. rewrite split_char_none by apply print_Z_no_plus.
    destruct l; [done|]. by rewrite parse_print_Z.
  - rewrite split_char_none by done. by destruct l.
Qed.
