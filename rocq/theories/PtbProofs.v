(** The bracket parser recognises exactly the bracketed language. *)
From Coq Require Import Lia.
From Verif Require Import BaseProofs PtbSpec.

Definition starts_with (P : char -> bool) (s : str) : bool := match s with c :: _ => P c | [] => false end.

Lemma is_ws_iff c : is_ws c = true <-> c ∈ [32; 10; 13]%N.
Proof.
  unfold is_ws. rewrite !orb_true_iff, !N.eqb_eq. set_solver.
Qed.
Lemma is_char_iff c : is_char c = true <-> c ∉ [32; 10; 13; 40; 41]%N.
Proof.
  unfold is_char, is_ws. rewrite negb_true_iff, !orb_false_iff, !N.eqb_neq. set_solver.
Qed.
Lemma skip_blank b s : blank b -> starts_with is_ws s = false -> skip_ws (b ++ s) = s.
Proof.
  intros Hb Hs. induction Hb as [|c b Hc Hb IH]; simpl.
  - destruct s as [|c s]; simpl in *; [done|]. by rewrite Hs.
  - by rewrite (proj2 (is_ws_iff c) Hc).
Qed.
Lemma skip_ws_spec s : exists b, blank b /\ s = b ++ skip_ws s /\ starts_with is_ws (skip_ws s) = false.
Proof.
  induction s as [|c s (b & Hb & E & Hs)]; simpl.
  - exists []. by split; [constructor|].
  - destruct (is_ws c) eqn:Ec.
    + exists (c :: b). split_and!; [constructor; [by apply is_ws_iff|done]|simpl; by f_equal|done].
    + exists []. split_and!; [constructor|done|done].
Qed.
Lemma take_word w s :
  Forall (fun c => c ∉ [32; 10; 13; 40; 41]%N) w -> starts_with is_char s = false -> take_chars (w ++ s) = (w, s).
Proof.
  intros Hw Hs. induction Hw as [|c w Hc Hw IH]; simpl.
  - destruct s as [|c s]; simpl in *; [done|]. by rewrite Hs.
  - by rewrite (proj2 (is_char_iff c) Hc), IH.
Qed.
Lemma take_chars_spec s w r : take_chars s = (w, r) ->
  s = w ++ r /\ Forall (fun c => c ∉ [32; 10; 13; 40; 41]%N) w /\ starts_with is_char r = false.
Proof.
  revert w r. induction s as [|c s IH]; simpl; intros w r; [intros [= <- <-]; by split_and!|].
  destruct (is_char c) eqn:Ec.
  - destruct (take_chars s) as [a r'] eqn:E. intros [= <- <-]. destruct (IH _ _ eq_refl) as (-> & H & H').
    split_and!; [done| |done]. constructor; [by apply is_char_iff|done].
  - intros [= <- <-]. split_and!; [done|constructor|done].
Qed.
Lemma p_token_word w s : word w -> starts_with is_char s = false -> p_token (w ++ s) = Some (w, s).
Proof.
  intros [Hn Hw] Hs. unfold p_token. rewrite (take_word w s Hw Hs). by destruct w.
Qed.
Lemma p_token_spec s w r : p_token s = Some (w, r) -> s = w ++ r /\ word w /\ starts_with is_char r = false.
Proof.
  unfold p_token. destruct (take_chars s) as [w' r'] eqn:E. apply take_chars_spec in E as (-> & H & H').
  destruct w' as [|c w']; [done|]. intros [= <- <-]. split_and!; [done| |done]. by split.
Qed.
Lemma p_lit_spec c s r : p_lit c s = Some r <-> s = c :: r.
Proof.
  unfold p_lit. destruct s as [|x s]; [done|]. destruct (N.eqb_spec x c) as [->|Hne]; naive_solver.
Qed.

(** First characters. *)
Lemma word_start w s : word w -> starts_with is_ws (w ++ s) = false.
Proof.
  intros [Hn Hw]. destruct w as [|c w]; [done|]. simpl. apply Forall_cons in Hw as [Hc _].
  destruct (is_ws c) eqn:E; [|done]. apply is_ws_iff in E. exfalso. apply Hc. set_solver.
Qed.
Lemma blank_stop b s : blank b -> (b <> [] \/ starts_with is_char s = false) -> starts_with is_char (b ++ s) = false.
Proof.
  intros Hb H. destruct b as [|c b]; [by destruct H|]. simpl. apply Forall_cons in Hb as [Hc _].
  unfold is_char. by rewrite (proj2 (is_ws_iff c) Hc).
Qed.
Lemma G_start a s : G a s -> exists s', s = 40%N :: s'.
Proof. intros [? ? ? ? ? _ _ _ _ _ _|? ? ? ? _ _ _ _]; eauto. Qed.
Lemma GS_stop cs s r : GS cs s -> cs <> [] \/ starts_with is_char r = false -> starts_with is_char (s ++ r) = false.
Proof.
  intros [b Hb|a cs' b s1 s2 Hb Hg _] H.
  - apply blank_stop; [done|]. destruct H; [done|by right].
  - rewrite <- app_assoc. apply blank_stop; [done|]. right. by destruct (G_start _ _ Hg) as [s' ->].
Qed.

Section complete.
  Let P1 (a : ast) (s : str) := forall fuel rest, 2 * length s <= fuel -> p_node fuel (s ++ rest) = Ret (Some (a, rest)).
  Let P2 (cs : list ast) (s : str) := forall fuel rest, 2 * length s + 2 <= fuel ->
     exists b, blank b /\ p_nodes fuel (s ++ 41%N :: rest) = Ret (cs, b ++ 41%N :: rest).
  Lemma c_pre label form b1 b2 b3 :
    word label -> word form -> blank b1 -> blank b2 -> b2 <> [] -> blank b3 ->
    P1 (APre label form) ([40%N] ++ b1 ++ label ++ b2 ++ form ++ b3 ++ [41%N]).
  Proof.
    intros Hl Hf H1 H2 H2' H3 fuel rest Hfuel. destruct fuel as [|fuel]; [simpl in Hfuel; lia|].
    cbn [p_node]. unfold p_preterminal. simpl. rewrite <- !app_assoc.
    rewrite (skip_blank b1) by (done || by apply word_start).
    rewrite (p_token_word label) by (done || apply blank_stop; auto).
    rewrite (skip_blank b2) by (done || by apply word_start).
    rewrite (p_token_word form) by (done || apply blank_stop; auto).
    rewrite (skip_blank b3) by done. done.
  Qed.
  Lemma p_pre_node label b1 body rest :
    word label -> blank b1 -> starts_with is_char (skip_ws (body ++ rest)) = false ->
    starts_with is_char (body ++ rest) = false ->
    p_preterminal (40%N :: b1 ++ label ++ body ++ rest) = None /\
    p_head (40%N :: b1 ++ label ++ body ++ rest) = Some (label, body ++ rest).
  Proof.
    intros Hl H1 Hs Hs'. unfold p_preterminal, p_head. simpl.
    rewrite (skip_blank b1) by (done || by apply word_start).
    rewrite (p_token_word label) by done. split; [|done].
    unfold p_token. destruct (skip_ws (body ++ rest)) as [|c s]; simpl in *; [done|]. by rewrite Hs.
  Qed.
  Lemma c_node label cs b1 body :
    word label -> blank b1 -> cs <> [] -> GS cs body -> P2 cs body ->
    P1 (ANode label cs) ([40%N] ++ b1 ++ label ++ body ++ [41%N]).
  Proof.
    intros Hl H1 Hcs HG IH fuel rest Hfuel. destruct fuel as [|fuel]; [simpl in Hfuel; lia|].
    assert (E : ([40%N] ++ b1 ++ label ++ body ++ [41%N]) ++ rest = 40%N :: b1 ++ label ++ body ++ 41%N :: rest)
      by (simpl; by rewrite <- !app_assoc).
    etrans; [exact (f_equal (p_node (S fuel)) E)|]. cbn [p_node].
    destruct (p_pre_node label b1 body (41%N :: rest)) as [-> ->]; [done|done| |by eapply GS_stop; eauto|].
    { destruct HG as [b Hb|a cs' b s1 s2 Hb Hg _]; [done|]. destruct (G_start _ _ Hg) as [s' ->].
      rewrite <- app_assoc, skip_blank by done. done. }
    destruct (IH fuel rest) as (b & Hb & ->).
    { simpl in Hfuel. rewrite !app_length in Hfuel. simpl in Hfuel. lia. }
    cbn [mbind outcome_bind]. destruct cs as [|a cs]; [done|].
    rewrite skip_blank by done. done.
  Qed.
  Lemma c_nil b : blank b -> P2 [] b.
  Proof.
    intros Hb fuel rest Hfuel. exists b. split; [done|]. destruct fuel as [|[|fuel]]; [lia|lia|].
    cbn [p_nodes]. rewrite skip_blank by done. done.
  Qed.
  Lemma c_cons a cs b s s' : blank b -> G a s -> P1 a s -> GS cs s' -> P2 cs s' -> P2 (a :: cs) (b ++ s ++ s').
  Proof.
    intros Hb Hg IH1 _ IH2 fuel rest Hfuel. destruct fuel as [|fuel]; [lia|]. cbn [p_nodes].
    rewrite !app_length in Hfuel. destruct (G_start _ _ Hg) as [s0 E].
    rewrite <- !app_assoc, skip_blank by (done || by rewrite E).
    rewrite IH1 by lia. cbn [mbind outcome_bind].
    destruct (IH2 fuel rest) as (b' & Hb' & ->); [rewrite E in Hfuel; simpl in Hfuel; lia|].
    exists b'. by split.
  Qed.
  Definition p_node_complete : forall a s, G a s -> P1 a s :=
    G_mut P1 P2 c_pre c_node c_nil c_cons.
End complete.

(** ** Soundness and totality *)
Lemma p_preterminal_spec s a r : p_preterminal s = Some (a, r) -> exists s0, G a s0 /\ s = s0 ++ r.
Proof.
  unfold p_preterminal. destruct (p_lit 40%N s) as [s1|] eqn:E1; [|done]. apply p_lit_spec in E1 as ->.
  destruct (skip_ws_spec s1) as (b1 & Hb1 & Es1 & _).
  destruct (p_token (skip_ws s1)) as [[label s2]|] eqn:E2; [|done]. apply p_token_spec in E2 as (E2 & Hl & Hs2).
  destruct (skip_ws_spec s2) as (b2 & Hb2 & Es2 & _).
  destruct (p_token (skip_ws s2)) as [[form s3]|] eqn:E3; [|done]. apply p_token_spec in E3 as (E3 & Hf & Hs3).
  destruct (skip_ws_spec s3) as (b3 & Hb3 & Es3 & _).
  destruct (p_lit 41%N (skip_ws s3)) as [s4|] eqn:E4; [|done]. apply p_lit_spec in E4.
  intros [= <- <-].
  exists ([40%N] ++ b1 ++ label ++ b2 ++ form ++ b3 ++ [41%N]). split.
  - constructor; try done. intros ->. simpl in Es2. rewrite E3 in Es2. subst s2.
    destruct Hf as [Hn Hf]. destruct form as [|c form]; [done|]. simpl in Hs2.
    apply Forall_cons in Hf as [Hc _]. apply is_char_iff in Hc. congruence.
  - rewrite Es1, E2, Es2, E3, Es3, E4. simpl. by rewrite <- !app_assoc.
Qed.
Lemma p_head_spec s label r : p_head s = Some (label, r) -> exists b, blank b /\ word label /\ s = 40%N :: b ++ label ++ r.
Proof.
  unfold p_head. destruct (p_lit 40%N s) as [s1|] eqn:E1; [|done]. apply p_lit_spec in E1 as ->.
  destruct (skip_ws_spec s1) as (b1 & Hb1 & Es1 & _). intros (E2 & Hl & _)%p_token_spec.
  exists b1. split_and!; [done|done|]. by rewrite Es1, E2.
Qed.
Lemma skip_ws_length s : length (skip_ws s) <= length s.
Proof. destruct (skip_ws_spec s) as (b & _ & E & _). rewrite E at 2. rewrite app_length. lia. Qed.
Lemma blank_app a b : blank a -> blank b -> blank (a ++ b).
Proof. intros. by apply Forall_app. Qed.

Lemma p_sound fuel :
  (forall s, 2 * length s + 1 <= fuel ->
     exists r, p_node fuel s = Ret r /\ (forall a rest, r = Some (a, rest) -> exists s0, G a s0 /\ s = s0 ++ rest)) /\
  (forall s, 2 * length s + 2 <= fuel ->
     exists cs rest s0, p_nodes fuel s = Ret (cs, rest) /\ s = s0 ++ rest /\
       (forall b, blank b -> GS cs (s0 ++ b))).
Proof.
  induction fuel as [|fuel [IH1 IH2]]; [split; intros s Hs; lia|]. split; intros s Hs.
  - cbn [p_node]. destruct (p_preterminal s) as [[a r]|] eqn:E.
    { eexists. split; [done|]. intros a' r' [= <- <-]. by apply p_preterminal_spec. }
    destruct (p_head s) as [[label s1]|] eqn:Eh; [|by eexists].
    apply p_head_spec in Eh as (b & Hb & Hl & ->).
    destruct (IH2 s1) as (cs & rest & s0 & -> & E1 & HG).
    { simpl in Hs. rewrite !app_length in Hs. lia. }
    cbn [mbind outcome_bind]. destruct cs as [|a cs]; [by eexists|].
    destruct (skip_ws_spec rest) as (b' & Hb' & Er & _).
    destruct (p_lit 41%N (skip_ws rest)) as [s2|] eqn:El; [|by eexists]. apply p_lit_spec in El.
    eexists. split; [done|]. intros a' r' [= <- <-].
    exists ([40%N] ++ b ++ label ++ (s0 ++ b') ++ [41%N]). split.
    + constructor; [done|done|done|by apply HG].
    + rewrite E1, Er, El. simpl. by rewrite <- !app_assoc.
  - cbn [p_nodes]. destruct (skip_ws_spec s) as (b & Hb & Es & _).
    destruct (IH1 (skip_ws s)) as (r & -> & Hr).
    { pose proof (skip_ws_length s). lia. }
    cbn [mbind outcome_bind]. destruct r as [[a rest]|].
    + destruct (Hr _ _ eq_refl) as (s0 & HG & E). rewrite E in Es.
      destruct (IH2 rest) as (cs & rest' & s0' & -> & E' & HGS).
      { destruct (G_start _ _ HG) as [s' E0]. rewrite Es, E0 in Hs. rewrite !app_length in Hs. simpl in Hs. 
        lia. }
      exists (a :: cs), rest', (b ++ s0 ++ s0'). split_and!; [done| |].
      * rewrite Es, E'. by rewrite <- !app_assoc.
      * intros b' Hb'. rewrite <- !app_assoc. constructor; [done|done|by apply HGS].
    + exists [], s, []. split_and!; [done|done|]. intros b' Hb'. by constructor.
Qed.

(** ** The whole text *)
Lemma p_tree_spec s :
  exists r, p_tree s = Ret r /\ (forall a, r = Some a <-> bracketed a s).
Proof.
  destruct (skip_ws_spec s) as (b & Hb & Es & Hws). pose proof (skip_ws_length s) as Hlen.
  destruct (p_sound (2 * length s + 2)) as [H _].
  destruct (H (skip_ws s) ltac:(lia)) as (r & Er & Hr). unfold p_tree. rewrite Er. cbn [mbind outcome_bind].
  exists (match r with Some (a, s1) => match skip_ws s1 with [] => Some a | _ => None end | None => None end).
  split. { destruct r as [[a s1]|]; [|done]. by destruct (skip_ws s1). }
  intros a. split.
  - destruct r as [[a' s1]|]; [|done]. destruct (skip_ws_spec s1) as (b' & Hb' & Es' & _).
    destruct (skip_ws s1) eqn:E; [|done]. intros [= ->]. destruct (Hr _ _ eq_refl) as (s0 & HG & E0).
    exists b, s0, b'. split_and!; [|done|done|done]. rewrite Es, E0, Es'. by rewrite app_nil_r.
  - intros (b1 & s0 & b2 & -> & Hb1 & Hb2 & HG).
    assert (skip_ws (b1 ++ s0 ++ b2) = s0 ++ b2) as E.
    { destruct (G_start _ _ HG) as [s' ->]. by rewrite skip_blank. }
    rewrite E in Er. rewrite (p_node_complete a s0 HG) in Er by (rewrite !app_length; lia).
    injection Er as <-. rewrite <- (app_nil_r b2). by rewrite skip_blank.
Qed.
Lemma bracketed_unique a a' s : bracketed a s -> bracketed a' s -> a = a'.
Proof.
  intros H H'. destruct (p_tree_spec s) as (r & _ & Hr). apply Hr in H, H'. congruence.
Qed.
