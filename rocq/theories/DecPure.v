(** A graph-free account of [decode]: the right spine as a list of open nodes. *)
From Coq Require Import Lia ZArith.
From Verif Require Import EncModel TreeSpec RoseSpec EncSpec.

(** Trees without spans: leaves and labelled nodes with features. *)
Inductive pt := PL (tm : terminal) | PN (l : str) (f : option features) (cs : list pt).
Section pt_ind.
  Context (P : pt -> Prop).
  Hypothesis Hl : forall tm, P (PL tm).
  Hypothesis Hn : forall l f cs, Forall P cs -> P (PN l f cs).
  Fixpoint pt_ind' (x : pt) : P x :=
    match x with
    | PL tm => Hl tm
    | PN l f cs => Hn l f cs ((fix go cs : Forall P cs :=
        match cs with [] => @List.Forall_nil _ _ | c :: cs => @List.Forall_cons _ _ c cs (pt_ind' c) (go cs) end) cs)
    end.
End pt_ind.
Fixpoint pleaves (x : pt) : list terminal :=
  match x with PL tm => [tm] | PN _ _ cs => concat (map pleaves cs) end.
(** Every node has a child. *)
Fixpoint pfull (x : pt) : Prop :=
  match x with PL _ => True | PN _ _ cs => cs <> [] /\ foldr (fun c Q => pfull c /\ Q) True cs end.
Lemma pfull_PN l f cs : pfull (PN l f cs) <-> cs <> [] /\ Forall pfull cs.
Proof.
  simpl. split; intros [H1 H2]; split; try done; clear H1; induction cs as [|c cs IH]; simpl in *.
  - constructor.
  - constructor; naive_solver.
  - done.
  - inversion H2; subst. naive_solver.
Qed.

(** An open node of the spine: label, features, finished children. *)
Notation pframe := (str * option features * list pt)%type.
Definition pclose (f : pframe) : pt := PN f.1.1 f.1.2 f.2.
Definition addc (x : pt) (f : pframe) : pframe := (f.1, f.2 ++ [x]).
(** Innermost frame first. *)
Definition padd (x : pt) (st : list pframe) : list pframe :=
  match st with f :: st => addc x f :: st | [] => [] end.
Fixpoint pops (k : nat) (st : list pframe) : list pframe :=
  match k, st with S k, f :: g :: st => pops k (addc (pclose f) g :: st) | _, _ => st end.
Definition plabel (s : str) (f : pframe) : pframe :=
  match rsplit_us s with
  | Some (c, l) => (l, Some (<[lit "unary_chain" := Some c]> (default ∅ f.1.2)), f.2)
  | None => (s, f.1.2, f.2)
  end.
Definition prelabel (s : str) (st : list pframe) : list pframe :=
  match st with f :: st => plabel s f :: st | [] => [] end.
Definition dummy : pframe := (DUMMY, None, []).

(** Attach the finished tree [x] whose right neighbour is described by [a]. *)
Definition attach (x : pt) (a : option abs_anc) (st : list pframe) : list pframe :=
  match a with
  | None => padd x st
  | Some a =>
      let d := ab_common a - 1 in let p := length st - 1 in
      if decide (d < p) then prelabel (ab_label a) (pops (p - d) (padd x st))
      else padd x (prelabel (ab_label a) (replicate (d - p) dummy ++ st))
  end.
(** Store the chain of a word. *)
Definition put_chain (u : option str) (tm : terminal) : terminal :=
  match u with
  | Some c => mk_term (t_form tm) (t_pos tm) (t_lemma tm) (Some (<[lit "unary_chain" := Some c]> (default ∅ (t_feats tm)))) (t_span tm)
  | None => tm
  end.
Notation entry := (option abs_anc * option str * terminal)%type.
Definition pstep (st : list pframe) (e : entry) : list pframe := attach (PL (put_chain e.1.2 e.2)) e.1.1 st.
(** Close all open nodes. *)
Fixpoint plug (x : pt) (up : list pframe) : pt :=
  match up with [] => x | f :: up => plug (pclose (addc x f)) up end.
Definition pfinish (st : list pframe) : pt :=
  match st with [] => PN [] None [] | f :: up => plug (pclose f) up end.

(** *** Facts about the pure decoder *)
Lemma padd_length x st : length (padd x st) = length st.
Proof. by destruct st. Qed.
Lemma prelabel_length s st : length (prelabel s st) = length st.
Proof. by destruct st. Qed.
Lemma pops_length k : forall st, k < length st -> length (pops k st) = length st - k.
Proof.
  induction k as [|k IH]; intros [|f [|g st]]; simpl; intros H; try lia. rewrite IH; simpl in *; lia.
Qed.
Lemma attach_length x a st :
  st <> [] -> length (attach x a st) = match a with Some a => S (ab_common a - 1) | None => length st end.
Proof.
  intros Hst. destruct a as [a|]; simpl; [|apply padd_length]. destruct (decide _) as [H|H].
  - rewrite prelabel_length, pops_length; rewrite padd_length; lia.
  - rewrite padd_length, prelabel_length, app_length, replicate_length. destruct st; [done|]. simpl in *. lia.
Qed.
Lemma attach_nonnil x a st : st <> [] -> attach x a st <> [].
Proof.
  intros Hst E. apply (f_equal length) in E. rewrite attach_length in E by done. destruct a; [done|].
  by destruct st.
Qed.

(** Leaves from left to right. *)
Fixpoint sleaves (st : list pframe) : list terminal :=
  match st with [] => [] | f :: up => sleaves up ++ concat (map pleaves f.2) end.
Lemma sleaves_padd x st : st <> [] -> sleaves (padd x st) = sleaves st ++ pleaves x.
Proof. destruct st as [|f st]; [done|]. intros _. simpl. by rewrite map_app, concat_app, app_assoc; simpl; rewrite app_nil_r. Qed.
Lemma sleaves_prelabel s st : sleaves (prelabel s st) = sleaves st.
Proof. destruct st as [|f st]; [done|]. simpl. unfold plabel. by destruct (rsplit_us s) as [[??]|]. Qed.
Lemma sleaves_pops k : forall st, sleaves (pops k st) = sleaves st.
Proof.
  induction k as [|k IH]; intros [|f [|g st]]; try done. cbn [pops]. rewrite IH. simpl.
  by rewrite map_app, concat_app, app_assoc; simpl; rewrite app_nil_r.
Qed.
Lemma sleaves_dummies k st : sleaves (replicate k dummy ++ st) = sleaves st.
Proof. induction k as [|k IH]; simpl; [done|]. by rewrite IH, app_nil_r. Qed.
Lemma sleaves_attach x a st : st <> [] -> sleaves (attach x a st) = sleaves st ++ pleaves x.
Proof.
  intros Hst. destruct a as [a|]; simpl; [|by apply sleaves_padd]. destruct (decide _).
  - by rewrite sleaves_prelabel, sleaves_pops, sleaves_padd.
  - rewrite sleaves_padd, sleaves_prelabel, sleaves_dummies; [done|].
    intros E. apply (f_equal length) in E. rewrite prelabel_length, app_length in E. destruct st; [done|]. simpl in E. lia.
Qed.
Lemma sleaves_steps es : forall st, st <> [] ->
  sleaves (foldl pstep st es) = sleaves st ++ map (fun e => put_chain e.1.2 e.2) es.
Proof.
  induction es as [|e es IH]; intros st Hst; simpl; [by rewrite app_nil_r|].
  rewrite IH by (by apply attach_nonnil). unfold pstep. rewrite sleaves_attach by done. simpl. by rewrite <- app_assoc.
Qed.
Lemma pleaves_plug up : forall x, pleaves (plug x up) = sleaves up ++ pleaves x.
Proof.
  induction up as [|f up IH]; intros x; simpl; [done|]. rewrite IH. simpl.
  by rewrite map_app, concat_app; simpl; rewrite app_nil_r, app_assoc.
Qed.
Lemma pleaves_finish st : st <> [] -> pleaves (pfinish st) = sleaves st.
Proof. destruct st as [|f up]; [done|]. intros _. simpl. by rewrite pleaves_plug. Qed.

(** Every finished node has a child, and so has the innermost open node. *)
Definition sfull (st : list pframe) : Prop := Forall (fun f => Forall pfull f.2) st.
Definition ready (st : list pframe) : Prop := sfull st /\ match st with f :: _ => f.2 <> [] | [] => False end.
Lemma ready_padd x st : sfull st -> st <> [] -> pfull x -> ready (padd x st).
Proof.
  intros H Hst Hx. destruct st as [|f st]; [done|]. inversion H; subst. split; simpl.
  - constructor; [|done]. simpl. apply Forall_app. auto.
  - by destruct (f.2).
Qed.
Lemma ready_pops k : forall st, ready st -> ready (pops k st).
Proof.
  induction k as [|k IH]; intros [|f [|g st]] [H1 H2]; try done. cbn [pops]. apply IH.
  inversion H1 as [|?? Hf H1']; subst. inversion H1' as [|?? Hg H1'']; subst. split; [constructor|].
  - simpl. apply Forall_app. split; [done|]. constructor; [|constructor]. by apply pfull_PN.
  - done.
  - simpl. by destruct (g.2).
Qed.
Lemma ready_prelabel s st : ready st -> ready (prelabel s st).
Proof.
  destruct st as [|f st]; [done|]. intros [H1 H2]. inversion H1; subst. simpl. unfold plabel.
  destruct (rsplit_us s) as [[??]|]; split; try done; by constructor.
Qed.
Lemma sfull_prelabel s st : sfull st -> sfull (prelabel s st).
Proof.
  destruct st as [|f st]; [done|]. intros H1. inversion H1; subst. simpl. unfold plabel.
  destruct (rsplit_us s) as [[??]|]; by constructor.
Qed.
Lemma ready_attach x a st : sfull st -> st <> [] -> pfull x -> ready (attach x a st).
Proof.
  intros H1 H2 Hx. destruct a as [a|]; simpl; [|by apply ready_padd]. destruct (decide _).
  - by apply ready_prelabel, ready_pops, ready_padd.
  - apply ready_padd; [|destruct (replicate _ _); simpl; by destruct st|done]. apply sfull_prelabel.
    apply Forall_app. split; [|done]. apply Forall_replicate. constructor.
Qed.
Lemma ready_steps es : forall st, sfull st -> st <> [] -> es <> [] -> ready (foldl pstep st es).
Proof.
  induction es as [|e es IH]; intros st H1 H2 H3; [done|]. simpl.
  assert (R : ready (pstep st e)) by (by apply ready_attach).
  destruct es as [|e' es]; [done|]. apply IH; [apply R|by apply attach_nonnil|done].
Qed.
Lemma plug_full up : forall x, sfull up -> pfull x -> pfull (plug x up).
Proof.
  induction up as [|f up IH]; intros x H Hx; simpl; [done|]. inversion H; subst. apply IH; [done|].
  apply pfull_PN. unfold addc. simpl. split; [by destruct (f.2)|]. apply Forall_app. auto.
Qed.
Lemma finish_full st : ready st -> pfull (pfinish st).
Proof.
  destruct st as [|f up]; intros [H1 H2]; [done|]. inversion H1; subst. apply plug_full; [done|]. by apply pfull_PN.
Qed.

(** *** Encodings of rose trees decode to the tree *)
Definition chain_feats (c : option str) : option features :=
  match c with Some c => Some (<[lit "unary_chain" := Some c]> ∅) | None => None end.
Fixpoint pt_of (r : rose) : pt :=
  match r with
  | RLeaf tm => PL tm
  | RNode nt cs => PN (nt_label nt) (chain_feats (chain_in (nt_feats nt))) (map (fun c => pt_of c.2) cs)
  end.
(** No unary nodes, and ["_"] occurs in no label. *)
Fixpoint decodable (r : rose) : Prop :=
  match r with
  | RLeaf _ => True
  | RNode nt cs => 2 <= length cs /\ 95%N ∉ nt_label nt /\ foldr (fun c Q => decodable c.2 /\ Q) True cs
  end.
Lemma decodable_node nt cs :
  decodable (RNode nt cs) <-> 2 <= length cs /\ 95%N ∉ nt_label nt /\ Forall (fun c => decodable c.2) cs.
Proof.
  simpl. split; intros (H1 & H2 & H3); split_and!; try done; clear H1; induction cs as [|c cs IH]; simpl in *.
  - constructor.
  - constructor; naive_solver.
  - done.
  - inversion H3; subst. naive_solver.
Qed.

Lemma rsplit_none (s : str) : 95%N ∉ s -> rsplit_us s = None.
Proof.
  induction s as [|c s IH]; intros H; [done|]. simpl. rewrite IH by set_solver.
  destruct (N.eqb_spec c 95); [subst; set_solver|done].
Qed.
Lemma rsplit_app (c s : str) : 95%N ∉ s -> rsplit_us (c ++ lit "_" ++ s) = Some (c, s).
Proof.
  intros H. induction c as [|a c IH]; simpl.
  - by rewrite rsplit_none.
  - simpl in IH. by rewrite IH.
Qed.
Lemma plabel_full nt f :
  95%N ∉ nt_label nt -> (f.1.2 = None \/ f.1.2 = chain_feats (chain_in (nt_feats nt))) ->
  plabel (full_label nt) f = (nt_label nt, chain_feats (chain_in (nt_feats nt)), f.2).
Proof.
  intros Hl Hf. unfold plabel, full_label. destruct (chain_in (nt_feats nt)) as [c|] eqn:E.
  - rewrite rsplit_app by done. f_equal. f_equal. simpl. destruct Hf as [->| ->]; simpl; [done|].
    by rewrite insert_insert.
  - rewrite rsplit_none by done. destruct Hf as [->| ->]; done.
Qed.

(** The entries of the leaves below [r], the last one being [next]. *)
Fixpoint r_entries (d : nat) (r : rose) (next : option abs_anc) : list entry :=
  match r with
  | RLeaf tm => [(next, chain_in (t_feats tm), tm)]
  | RNode nt cs =>
      (fix go cs :=
         match cs with
         | [] => []
         | c :: cs' => r_entries (S d) c.2 (match cs' with [] => next | _ => Some (mk_abs (S d) (full_label nt)) end) ++ go cs'
         end) cs
  end.
Lemma r_entries_node d nt c cs next :
  r_entries d (RNode nt (c :: cs)) next =
  match cs with
  | [] => r_entries (S d) c.2 next
  | _ => r_entries (S d) c.2 (Some (mk_abs (S d) (full_label nt))) ++ r_entries d (RNode nt cs) next
  end.
Proof. destruct cs as [|c' cs]; simpl; [by rewrite app_nil_r|done]. Qed.
Lemma put_chain_same tm : put_chain (chain_in (t_feats tm)) tm = tm.
Proof.
  unfold chain_in. destruct (t_feats tm) as [m|] eqn:Ef; [|done].
  destruct (m !! lit "unary_chain") as [[v|]|] eqn:E; try done. unfold put_chain. rewrite Ef.
  cbn [default from_option]. rewrite insert_id by exact E. unfold id. rewrite <- Ef. by destruct tm.
Qed.

Lemma padd_prelabel x s st : prelabel s (padd x st) = padd x (prelabel s st).
Proof. destruct st as [|f st]; [done|]. simpl. unfold plabel, addc. by destruct (rsplit_us s) as [[??]|]. Qed.

(** [next] is [None] or an ancestor of depth at most [d]; an ancestor must be the parent if the parent
    is not open yet. *)
Definition next_ok (d p : nat) (next : option abs_anc) : Prop :=
  match next with
  | None => S p = d
  | Some a => 1 <= ab_common a <= d /\ (S p = d \/ ab_common a = d)
  end.
(** The decoder after the entries of [r]: as if the whole of [r] had been attached at once; only the
    nodes that stay open at the very end differ. *)
Definition attached (r : rose) (d : nat) : Prop :=
  forall next st, decodable r -> st <> [] -> length st <= d -> next_ok d (length st - 1) next ->
    match next with
    | Some _ => foldl pstep st (r_entries d r next) = attach (pt_of r) next st
    | None => pfinish (foldl pstep st (r_entries d r next)) = pfinish (attach (pt_of r) next st)
    end.
Lemma attached_leaf tm d : attached (RLeaf tm) d.
Proof.
  intros next st _ Hst Hd Hn. simpl. unfold pstep. simpl. rewrite put_chain_same. by destruct next.
Qed.
(** The children after the first, the parent being open and labelled. *)
Lemma attached_rest d nt : forall cs ds next st,
  95%N ∉ nt_label nt ->
  Forall (fun c => decodable c.2) cs -> Forall (fun c => attached c.2 (S d)) cs -> cs <> [] -> length st = d ->
  match next with None => True | Some a => 1 <= ab_common a <= d end ->
  let fs := chain_feats (chain_in (nt_feats nt)) in
  let st' := (nt_label nt, fs, ds) :: st in
  let x := PN (nt_label nt) fs (ds ++ map (fun c => pt_of c.2) cs) in
  match next with
  | Some a => foldl pstep st' (r_entries d (RNode nt cs) next) = prelabel (ab_label a) (pops (d - ab_common a) (padd x st))
  | None => pfinish (foldl pstep st' (r_entries d (RNode nt cs) next)) = plug x st
  end.
Proof.
  induction cs as [|c cs IH]; intros ds next st Hl Hdec Hatt Hne Hlen Hn fs st' x; [done|].
  inversion Hdec as [|?? Hdc Hdcs]; subst. inversion Hatt as [|?? Hac Hacs]; subst.
  rewrite r_entries_node. destruct cs as [|c' cs].
  - specialize (Hac next st' Hdc ltac:(done) ltac:(done)). destruct next as [a|].
    + rewrite Hac by (split; [lia|left; simpl; lia]). unfold attach. simpl length.
      destruct (decide _) as [H|H]; [|lia].
      replace (S (length st) - 1 - (ab_common a - 1)) with (S (length st - ab_common a)) by lia.
      unfold st'. cbn [padd addc]. destruct st as [|g st0]; [simpl in *; lia|]. done.
    + rewrite Hac by (simpl; lia). done.
  - rewrite foldl_app. rewrite (Hac (Some (mk_abs (S (length st)) (full_label nt))) st' Hdc) by (simpl; try done; lia).
    assert (E : attach (pt_of c.2) (Some (mk_abs (S (length st)) (full_label nt))) st' =
                (nt_label nt, fs, ds ++ [pt_of c.2]) :: st).
    { unfold attach. simpl ab_common. simpl ab_label. unfold st' at 1. simpl length.
      destruct (decide _) as [H|H]; [lia|]. replace (_ - _ - _) with 0 by lia. cbn [replicate app].
      unfold st'. cbn [prelabel]. rewrite plabel_full by (simpl; auto). done. }
    rewrite E. specialize (IH (ds ++ [pt_of c.2]) next st Hl Hdcs Hacs ltac:(done) eq_refl Hn).
    cbv zeta in IH. rewrite <- app_assoc in IH. exact IH.
Qed.
Lemma attached_all r : forall d, attached r d.
Proof.
  induction r as [tm|nt cs IH] using rose_ind'; intros d; [apply attached_leaf|].
  intros next st Hdec Hst Hd Hn. apply decodable_node in Hdec as (Hk & Hl & Hdec).
  destruct cs as [|c [|c' cs]]; [simpl in Hk; lia|simpl in Hk; lia|].
  rewrite r_entries_node, foldl_app.
  inversion Hdec as [|?? Hdc Hdcs]; subst. inversion IH as [|?? Hac Hacs]; subst.
  rewrite (Hac (S d) (Some (mk_abs (S d) (full_label nt))) st Hdc Hst ltac:(lia)) by (simpl; lia).
  set (fs := chain_feats (chain_in (nt_feats nt))).
  set (p := length st - 1) in *.
  assert (Hp : length st = S p). { unfold p. destruct st; [done|]. simpl. lia. }
  set (up := replicate (d - S p) dummy ++ st).
  assert (E : attach (pt_of c.2) (Some (mk_abs (S d) (full_label nt))) st = (nt_label nt, fs, [pt_of c.2]) :: up).
  { unfold attach. simpl ab_common. simpl ab_label. fold p. destruct (decide _) as [H|H]; [lia|].
    replace (S d - 1 - p) with (S (d - S p)) by lia. cbn [replicate app prelabel padd].
    rewrite plabel_full by (simpl; auto). done. }
  rewrite E.
  assert (Hup : length up = d). { unfold up. rewrite app_length, replicate_length, Hp. lia. }
  assert (Hacs' : Forall (fun c0 => attached c0.2 (S d)) (c' :: cs)) by (eapply Forall_impl; [exact Hacs|]; auto).
  pose proof (attached_rest d nt (c' :: cs) [pt_of c.2] next up Hl Hdcs Hacs' ltac:(done) Hup) as HR.
  cbv zeta in HR. fold fs in HR.
  destruct next as [a|]; simpl in Hn.
  - rewrite HR by lia. change ([pt_of c.2] ++ _) with (map (fun c => pt_of c.2) (c :: c' :: cs)).
    change (PN _ _ _) with (pt_of (RNode nt (c :: c' :: cs))). set (x := pt_of (RNode nt (c :: c' :: cs))).
    unfold attach. fold p. destruct Hn as [Hb [Hn|Hn]].
    + assert (up = st) as -> by (unfold up; by replace (d - S p) with 0 by lia).
      destruct (decide _) as [H|H].
      * by replace (p - (ab_common a - 1)) with (d - ab_common a) by lia.
      * replace (d - ab_common a) with 0 by lia. replace (ab_common a - 1 - p) with 0 by lia.
        cbn [replicate app]. rewrite <- padd_prelabel. destruct st; [done|]. by destruct (padd x (p0 :: st)).
    + destruct (decide _) as [H|H]; [lia|]. replace (d - ab_common a) with 0 by lia.
      rewrite <- padd_prelabel. unfold up. replace (ab_common a - 1 - p) with (d - S p) by lia. done.
  - rewrite HR by done. assert (up = st) as -> by (unfold up; by replace (d - S p) with 0 by lia).
    destruct st as [|f st]; [done|]. done.
Qed.
Lemma decode_rose nt cs :
  decodable (RNode nt cs) -> pfinish (foldl pstep [dummy] (r_entries 0 (RNode nt cs) None)) = pt_of (RNode nt cs).
Proof.
  intros Hdec. apply decodable_node in Hdec as (Hk & Hl & Hdec).
  destruct cs as [|c [|c' cs]]; [simpl in Hk; lia|simpl in Hk; lia|].
  rewrite r_entries_node, foldl_app. inversion Hdec as [|?? Hdc Hdcs]; subst.
  pose proof (attached_all c.2 1 (Some (mk_abs 1 (full_label nt))) [dummy] Hdc ltac:(done) ltac:(simpl; lia)) as H1.
  cbn [length] in H1. rewrite H1 by (simpl; lia). unfold attach. simpl ab_common. simpl ab_label.
  destruct (decide _) as [H|H]; [simpl in H; lia|]. cbn [length Nat.sub replicate app prelabel padd].
  rewrite plabel_full by (simpl; auto).
  apply (attached_rest 0 nt (c' :: cs) [pt_of c.2] None []); try done.
  apply Forall_forall. intros y _. apply attached_all.
Qed.

(** [r_entries] is the encoding zipped with the leaves. *)
Lemma leaves_pos r : decodable r -> 1 <= length (leaves r).
Proof.
  induction r as [tm|nt cs IH] using rose_ind'; [simpl; lia|]. intros (Hk & _ & Hd)%decodable_node.
  destruct cs as [|c cs]; [simpl in Hk; lia|]. inversion IH; subst. inversion Hd; subst. simpl. rewrite app_length.
  match goal with H : decodable _ -> _ |- _ => specialize (H ltac:(done)) end. lia.
Qed.
Lemma gaps_len r : decodable r -> forall d, S (length (gaps d r)) = length (leaves r).
Proof.
  induction r as [tm|nt cs IH] using rose_ind'; [done|]. intros (Hk & _ & Hd)%decodable_node d. cbn [gaps leaves].
  set (g := mk_abs _ _). clearbody g. assert (Hne : cs <> []) by (by destruct cs; [simpl in Hk; lia|]). clear Hk.
  induction cs as [|c cs IHcs]; [done|]. inversion IH as [|?? Hc Hcs]; subst. inversion Hd as [|?? Dc Dcs]; subst.
  destruct cs as [|c' cs].
  - simpl. rewrite app_nil_r. by apply Hc.
  - specialize (IHcs Hcs Dcs ltac:(done)). cbn [map interleave concat] in *. rewrite !app_length in *. cbn [length].
    rewrite <- (Hc Dc (S d)). lia.
Qed.
Lemma r_entries_zip r : decodable r -> forall d next,
  r_entries d r next = zip (zip (map Some (gaps d r) ++ [next]) (map (fun tm => chain_in (t_feats tm)) (leaves r))) (leaves r).
Proof.
  induction r as [tm|nt cs IH] using rose_ind'; [done|]. intros (Hk & _ & Hd)%decodable_node d next.
  assert (Hne : cs <> []) by (by destruct cs; [simpl in Hk; lia|]). clear Hk.
  induction cs as [|c cs IHcs]; [done|]. inversion IH as [|?? Hc Hcs]; subst. inversion Hd as [|?? Dc Dcs]; subst.
  rewrite r_entries_node. destruct cs as [|c' cs].
  - cbn [gaps leaves map interleave concat]. rewrite app_nil_r. by apply Hc.
  - specialize (IHcs Hcs Dcs ltac:(done)). rewrite IHcs, (Hc Dc).
    change (gaps d (RNode nt (c :: c' :: cs))) with
      (gaps (S d) c.2 ++ mk_abs (S d) (full_label nt) :: gaps d (RNode nt (c' :: cs))).
    change (leaves (RNode nt (c :: c' :: cs))) with (leaves c.2 ++ leaves (RNode nt (c' :: cs))).
    rewrite !map_app. cbn [map].
    rewrite <- (app_assoc _ _ [next]). change ((Some ?a :: ?l) ++ [next]) with ([Some a] ++ (l ++ [next])).
    rewrite (app_assoc (map Some (gaps (S d) c.2))).
    set (gs := gaps d (RNode nt (c' :: cs))). set (ls := leaves (RNode nt (c' :: cs))). clearbody gs ls.
    rewrite !zip_with_app.
    + done.
    + rewrite zip_with_length, app_length, !map_length. cbn [length]. pose proof (gaps_len c.2 Dc (S d)). lia.
    + rewrite app_length, !map_length. cbn [length]. pose proof (gaps_len c.2 Dc (S d)). lia.
Qed.
Lemma rose_enc_entries r : decodable r -> zip (rose_enc r) (leaves r) = r_entries 0 r None.
Proof. intros Hd. unfold rose_enc. by rewrite r_entries_zip. Qed.
Lemma rose_enc_len r : decodable r -> length (rose_enc r) = length (leaves r).
Proof. intros Hd. unfold rose_enc. rewrite zip_with_length, app_length, !map_length. simpl. pose proof (gaps_len r Hd 0). lia. Qed.
