(** The NEGRA reader as a state machine over lines. *)
From Coq Require Import Lia.
From Verif Require Import NegraModel TreeSpec BaseProofs SpanProofs ShapeProofs GraphProofs SortProofs TreeOps NegraSpec NegraStep.

Lemma starts_bos l : starts_with (lit "#BOS") (trim l) = true <-> is_bos l.
Proof. unfold starts_with, is_bos. apply is_prefix_spec. Qed.
Lemma starts_eos l : starts_with (lit "#EOS") (trim l) = true <-> is_eos l.
Proof. unfold starts_with, is_eos. apply is_prefix_spec. Qed.
Lemma bos_eos l : is_bos l -> ~ is_eos l.
Proof. intros [s H] [s' H']. rewrite H in H'. discriminate. Qed.

Definition emit (r : result tree) (m : outcome (list (result tree))) : outcome (list (result tree)) :=
  rs ← m; Ret (r :: rs).
Fixpoint run (cur : option builder) (ls : list (option str)) : outcome (list (result tree)) :=
  match ls with
  | [] => Ret []
  | None :: ls => emit Err (run None ls)
  | Some l :: ls =>
      if starts_with (lit "#BOS") (trim l) then
        match cur with
        | Some _ => emit Err (run None ls)
        | None =>
            r ← from_header (trim l);
            match r with Ok b => run (Some b) ls | Err => emit Err (run None ls) end
        end
      else if starts_with (lit "#EOS") (trim l) then
        match cur with
        | Some b => r ← try_into_tree b (trim l); emit r (run None ls)
        | None => emit Err (run None ls)
        end
      else
        match cur with
        | Some b =>
            r ← process_line b (trim l);
            match r with Ok b => run (Some b) ls | Err => emit Err (run None ls) end
        | None => run None ls
        end
  end.

Lemma run_next ls : forall cur,
  run cur ls = ('(r, ls') ← negra_next ls cur;
                match r with None => Ret [] | Some r => emit r (run None ls') end).
Proof.
  induction ls as [|[l|] ls IH]; intros cur; [done| |done]. cbn [run negra_next].
  destruct (starts_with (lit "#BOS") (trim l)).
  - destruct cur; [done|]. destruct (from_header (trim l)) as [[b|]| |]; cbn [mbind outcome_bind]; first [apply IH|done].
  - destruct (starts_with (lit "#EOS") (trim l)).
    + destruct cur; [|done]. by destruct (try_into_tree _ _) as [[?|]| |].
    + destruct cur as [b|]; [|apply IH]. destruct (process_line b (trim l)) as [[b'|]| |]; cbn [mbind outcome_bind]; first [apply IH|done].
Qed.
Lemma negra_next_length ls : forall cur r ls', negra_next ls cur = Ret (Some r, ls') -> length ls' < length ls.
Proof.
  induction ls as [|[l|] ls IH]; intros cur r ls'; cbn [negra_next]; [done| |intros [= _ <-]; simpl; lia].
  assert (IH' : forall cur, negra_next ls cur = Ret (Some r, ls') -> length ls' < length (Some l :: ls)).
  { intros cur' H%IH. simpl. lia. }
  destruct (starts_with (lit "#BOS") (trim l)).
  - destruct cur; [intros [= _ <-]; simpl; lia|]. destruct (from_header (trim l)) as [[b|]| |]; cbn [mbind outcome_bind]; try done; [apply IH'|].
    intros [= _ <-]; simpl; lia.
  - destruct (starts_with (lit "#EOS") (trim l)).
    + destruct cur; [|intros [= _ <-]; simpl; lia]. destruct (try_into_tree _ _) as [[b'|]| |]; cbn [mbind outcome_bind]; try done;
        intros [= _ <-]; simpl; lia.
    + destruct cur as [b|]; [|apply IH']. destruct (process_line b (trim l)) as [[b'|]| |]; cbn [mbind outcome_bind]; try done; [apply IH'|].
      intros [= _ <-]; simpl; lia.
Qed.
Lemma negra_read_run ls : negra_read ls = run None ls.
Proof.
  unfold negra_read. assert (G : forall fuel ls, length ls < fuel -> negra_read_all fuel ls = run None ls).
  { induction fuel as [|fuel IH]; intros ls0 Hf; [lia|]. cbn [negra_read_all]. rewrite run_next.
    destruct (negra_next ls0 None) as [[[r|] ls']| |] eqn:E; cbn [mbind outcome_bind]; try done.
    apply negra_next_length in E. rewrite IH by lia. done. }
  apply G. lia.
Qed.

(** *** Synchronisation *)
Lemma run_eos ls eos post : is_eos eos -> forall cur,
  run cur (ls ++ Some eos :: post) =
    (xs ← run cur (ls ++ [Some eos]); ys ← run None post; Ret (xs ++ ys)).
Proof.
  intros He. assert (Hn : starts_with (lit "#BOS") (trim eos) = false).
  { apply not_true_iff_false. rewrite starts_bos. intros Hb. by apply bos_eos in Hb. }
  assert (He' : starts_with (lit "#EOS") (trim eos) = true) by (by apply starts_eos).
  assert (Hemit : forall r m, (xs ← emit r m; ys ← run None post; Ret (xs ++ ys)) = emit r (xs ← m; ys ← run None post; Ret (xs ++ ys))).
  { intros r m. unfold emit. destruct m; cbn [mbind outcome_bind]; [|done..]. by destruct (run None post). }
  assert (Hnil : forall r, (xs ← emit r (Ret []); ys ← run None post; Ret (xs ++ ys)) = emit r (run None post)).
  { intros r. unfold emit. cbn [mbind outcome_bind]. by destruct (run None post). }
  induction ls as [|[l|] ls IH]; intros cur.
  - cbn [app run]. rewrite Hn, He'. destruct cur as [b|]; [|by rewrite Hnil].
    destruct (try_into_tree b (trim eos)); cbn [mbind outcome_bind]; [|done..]. by rewrite <- Hnil.
  - cbn [app run]. destruct (starts_with (lit "#BOS") (trim l)).
    + destruct cur; [by rewrite Hemit, IH|].
      destruct (from_header (trim l)) as [[b|]| |]; cbn [mbind outcome_bind]; rewrite ?Hemit, ?IH; done.
    + destruct (starts_with (lit "#EOS") (trim l)).
      * destruct cur; [|by rewrite Hemit, IH].
        destruct (try_into_tree _ _) as [r| |]; cbn [mbind outcome_bind]; rewrite ?Hemit, ?IH; done.
      * destruct cur as [b|]; [|by rewrite IH].
        destruct (process_line b (trim l)) as [[b'|]| |]; cbn [mbind outcome_bind]; rewrite ?Hemit, ?IH; done.
  - cbn [app run]. by rewrite Hemit, IH.
Qed.
Lemma run_outside pre ls : Forall plain_line pre -> run None (map Some pre ++ ls) = run None ls.
Proof.
  induction 1 as [|l pre [H1 H2] _ IH]; [done|]. cbn [map app run].
  destruct (starts_with (lit "#BOS") (trim l)) eqn:E1; [by apply starts_bos in E1|].
  destruct (starts_with (lit "#EOS") (trim l)) eqn:E2; [by apply starts_eos in E2|]. done.
Qed.

(** *** Sentences *)
Inductive steps : builder -> list str -> list nline -> builder -> Prop :=
| steps_nil b : steps b [] [] b
| steps_snoc b body b1 als l a b2 :
    steps b body als b1 -> parse_line (b_nterm b1) (trim l) = Some a -> stepped b1 a b2 ->
    steps b (body ++ [l]) (als ++ [a]) b2.
Definition started (bos : str) (body : list str) (als : list nline) (b : builder) : Prop :=
  is_bos bos /\ Forall plain_line body /\
  exists id meta b0, header_of (trim bos) = Some (id, meta) /\ fresh id meta b0 /\ steps b0 body als b.
Lemma steps_B0 b body als b' : B0 b -> steps b body als b' -> B0 b'.
Proof. intros B H. induction H as [|b body b1 als l a b2 H IH Hp Hs]; [done|]. eapply stepped_B0; [by apply IH|done]. Qed.
Lemma started_B0 bos body als b : started bos body als b -> B0 b.
Proof. intros (_ & _ & id & meta & b0 & _ & Hf & Hs). eapply steps_B0; [by eapply fresh_B0|done]. Qed.

(** The successive states of the machine: how an open sentence came about. *)
Lemma run_ind (P : option builder -> list (option str) -> outcome (list (result tree)) -> Prop) :
  (forall cur, P cur [] (Ret [])) ->
  (forall cur ls m, P None ls m -> P cur (None :: ls) (emit Err m)) ->
  (forall l ls m b, is_bos l -> P None ls m -> P (Some b) (Some l :: ls) (emit Err m)) ->
  (forall l ls m, is_bos l -> header_of (trim l) = None -> P None ls m -> P None (Some l :: ls) (emit Err m)) ->
  (forall l ls m b id meta, is_bos l -> from_header (trim l) = Ret (Ok b) -> header_of (trim l) = Some (id, meta) ->
     fresh id meta b -> P (Some b) ls m -> P None (Some l :: ls) m) ->
  (forall l ls m, is_eos l -> P None ls m -> P None (Some l :: ls) (emit Err m)) ->
  (forall l ls m b, is_eos l -> P None ls m -> P (Some b) (Some l :: ls) (r ← try_into_tree b (trim l); emit r m)) ->
  (forall l ls m, plain_line l -> P None ls m -> P None (Some l :: ls) m) ->
  (forall l ls m b, plain_line l -> process_line b (trim l) = Ret Err -> P None ls m -> P (Some b) (Some l :: ls) (emit Err m)) ->
  (forall l ls m b b' a, plain_line l -> process_line b (trim l) = Ret (Ok b') ->
     parse_line (b_nterm b) (trim l) = Some a -> stepped b a b' ->
     P (Some b') ls m -> P (Some b) (Some l :: ls) m) ->
  forall ls cur, (match cur with Some b => B0 b | None => True end) -> P cur ls (run cur ls).
Proof.
  intros H1 H2 H3 H4 H5 H6 H7 H8 H9 H10. induction ls as [|[l|] ls IH]; intros cur HB; [apply H1| |].
  - cbn [run]. destruct (starts_with (lit "#BOS") (trim l)) eqn:Eb.
    + pose proof (from_header_spec _ Eb) as Hh. apply starts_bos in Eb.
      destruct cur as [b|]; [by apply H3, IH|]. destruct (header_of (trim l)) as [[id meta]|] eqn:Eh.
      * destruct Hh as (b & Hfh & Hf). rewrite Hfh. cbn [mbind outcome_bind]. eapply H5; [done..|]. apply IH. by eapply fresh_B0.
      * rewrite Hh. cbn [mbind outcome_bind]. apply H4; [done..|]. by apply IH.
    + destruct (starts_with (lit "#EOS") (trim l)) eqn:Ee.
      * apply starts_eos in Ee. destruct cur as [b|]; [apply H7; [done|by apply IH]|by apply H6, IH].
      * assert (Hp : plain_line l).
        { split; [rewrite <- starts_bos; congruence|rewrite <- starts_eos; congruence]. }
        destruct cur as [b|]; [|by apply H8, IH].
        destruct (process_line_spec b (trim l) HB) as (r & Hr & HP). rewrite Hr. cbn [mbind outcome_bind].
        destruct r as [b'|]; [|apply H9; [done..|by apply IH]].
        destruct (parse_line (b_nterm b) (trim l)) as [a|] eqn:Ea; [|done]. destruct HP as [_ HP].
        specialize (HP b' eq_refl). eapply H10; [done..|]. apply IH. by eapply stepped_B0.
  - cbn [run]. apply H2, IH. done.
Qed.

(** Every tree delivered comes from a sentence of the stream. *)
Definition from_block (ls : list (option str)) (t : tree) : Prop :=
  exists bos body eos als b, block_in ls bos body eos /\ started bos body als b /\
    try_into_tree b (trim eos) = Ret (Ok t) /\ run None (Some bos :: map Some body ++ [Some eos]) = Ret [Ok t].
Definition from_open (b0 : builder) (ls : list (option str)) (t : tree) : Prop :=
  exists body eos post als b, ls = map Some body ++ Some eos :: post /\ Forall plain_line body /\
    is_eos eos /\ steps b0 body als b /\ try_into_tree b (trim eos) = Ret (Ok t) /\
    run (Some b0) (map Some body ++ [Some eos]) = Ret [Ok t].
Definition comes_from (cur : option builder) (ls : list (option str)) (t : tree) : Prop :=
  from_block ls t \/ match cur with Some b0 => from_open b0 ls t | None => False end.
Lemma from_block_cons o ls t : from_block ls t -> from_block (o :: ls) t.
Proof.
  intros (bos & body & eos & als & b & (B1 & B2 & B3 & pre & post & ->) & H).
  exists bos, body, eos, als, b. split; [|done]. split_and!; try done. by exists (o :: pre), post.
Qed.
Lemma steps_cons b l a b1 body als b2 :
  parse_line (b_nterm b) (trim l) = Some a -> stepped b a b1 -> steps b1 body als b2 -> steps b (l :: body) (a :: als) b2.
Proof.
  intros Ha Hst Hs. revert Ha Hst. induction Hs as [b1|b1 body b1' als l' a' b2' Hs IHs Hp' Hst']; intros.
  - apply (steps_snoc b [] b []); [constructor|done..].
  - apply (steps_snoc b (l :: body) b1' (a :: als)); [by apply IHs|done..].
Qed.
Lemma run_Ok ls rs t : run None ls = Ret rs -> Ok t ∈ rs -> from_block ls t.
Proof.
  assert (G : forall ls cur, (match cur with Some b => B0 b | None => True end) ->
    forall rs, run cur ls = Ret rs -> Ok t ∈ rs -> comes_from cur ls t).
  { assert (Hemit : forall (m : outcome (list (result tree))) rs, emit Err m = Ret rs -> Ok t ∈ rs -> exists rs', m = Ret rs' /\ Ok t ∈ rs').
    { intros m rs' H Hin. apply bind_Ret in H as (rs0 & Hm & [= <-]).
      apply elem_of_cons in Hin as [?|Hin]; [done|]. eauto. }
    assert (Hskip : forall cur o ls', comes_from None ls' t -> comes_from cur (o :: ls') t).
    { intros cur o ls' [H|[]]. left. by apply from_block_cons. }
    apply (run_ind (fun cur ls m => forall rs, m = Ret rs -> Ok t ∈ rs -> comes_from cur ls t)).
    - intros cur rs' [= <-]. set_solver.
    - intros cur ls' m IH rs' H Hin. destruct (Hemit _ _ H Hin) as (? & ? & ?). eapply Hskip, IH; done.
    - intros l ls' m b0 Hb IH rs' H Hin. destruct (Hemit _ _ H Hin) as (? & ? & ?). eapply Hskip, IH; done.
    - intros l ls' m Hb Hh IH rs' H Hin. destruct (Hemit _ _ H Hin) as (? & ? & ?). eapply Hskip, IH; done.
    - intros l ls' m b0 id meta Hb Hfh Hh Hf IH rs' H Hin. left.
      destruct (IH _ H Hin) as [H'|(body & eos & post & als & b & -> & Hpl & He & Hs & Ht & Hr)]; [by apply from_block_cons|].
      exists l, body, eos, als, b. split; [split_and!; try done; by exists [], post|]. split.
      { split_and!; try done. by exists id, meta, b0. }
      split; [done|]. cbn [run]. rewrite (proj2 (starts_bos l) Hb), Hfh. exact Hr.
    - intros l ls' m He IH rs' H Hin. destruct (Hemit _ _ H Hin) as (? & ? & ?). eapply Hskip, IH; done.
    - intros l ls' m b0 He IH rs' H Hin. apply bind_Ret in H as (r & Hr & H).
      apply bind_Ret in H as (rs0 & Hm & [= <-]). apply elem_of_cons in Hin as [<-|Hin].
      + right. exists [], l, ls', [], b0. split_and!; try done; [constructor|]. cbn [map app run].
        destruct (starts_with (lit "#BOS") (trim l)) eqn:E; [by apply starts_bos, bos_eos in E|].
        by rewrite (proj2 (starts_eos l) He), Hr.
      + eapply Hskip, IH; done.
    - intros l ls' m Hp IH rs' H Hin. eapply Hskip, IH; done.
    - intros l ls' m b0 Hp _ IH rs' H Hin. destruct (Hemit _ _ H Hin) as (? & ? & ?). eapply Hskip, IH; done.
    - intros l ls' m b0 b1 a Hp Hpr Ha Hst IH rs' H Hin.
      destruct (IH _ H Hin) as [H'|(body & eos & post & als & b & -> & Hpl & He & Hs & Ht & Hr)]; [left; by apply from_block_cons|].
      right. exists (l :: body), eos, post, (a :: als), b. split_and!; try done; [by constructor|by eapply steps_cons|].
      destruct Hp as [Hp1 Hp2]. cbn [map app run].
      destruct (starts_with (lit "#BOS") (trim l)) eqn:E1; [by apply starts_bos in E1|].
      destruct (starts_with (lit "#EOS") (trim l)) eqn:E2; [by apply starts_eos in E2|]. by rewrite Hpr. }
  intros H Hin. destruct (G ls None I rs H Hin) as [H'|[]]. done.
Qed.

(** *** What a line says *)
Lemma parse_line_pid k l a : parse_line k (trim l) = Some a -> parent_id l = Some (line_pid a).
Proof.
  unfold parse_line, parse_fields, parent_id, fields_of, edge_part. set (fs := split_whitespace (trim l)).
  destruct (fs !! 0), (fs !! 1), (fs !! 2), (fs !! 3), (fs !! 4), (fs !! 5); try done.
  destruct (parse_usize _) as [pid|]; [|done]. destruct (opt_fields _); [|done].
  destruct (starts_with _ _); [|by intros [= <-]].
  destruct (parse_usize (tail _)); [|done]. destruct (split_char _ _); [done|]. by intros [= <-].
Qed.
Lemma parse_line_sec k l a : parse_line k (trim l) = Some a -> sec_id l = snd <$> line_sec a.
Proof.
  unfold parse_line, parse_fields, sec_id, fields_of, edge_part. set (fs := split_whitespace (trim l)).
  destruct (fs !! 0), (fs !! 1), (fs !! 2), (fs !! 3), (fs !! 4), (fs !! 5); try done.
  destruct (parse_usize _) as [pid|]; [|done].
  assert (H6 : fs !! 6 = drop 6 fs !! 0) by (by rewrite lookup_drop).
  assert (H7 : fs !! 7 = drop 6 fs !! 1) by (by rewrite lookup_drop).
  match goal with |- context [@lookup ?A ?B ?C ?D 6 ?x] => change (@lookup A B C D 6 x) with (fs !! 6) end.
  match goal with |- context [@lookup ?A ?B ?C ?D 7 ?x] => change (@lookup A B C D 7 x) with (fs !! 7) end.
  rewrite H6, H7. clear H6 H7.
  destruct (opt_fields (drop 6 fs)) as [sec|] eqn:Eo; [|done]. intros H.
  assert (Hs : line_sec a = sec).
  { destruct (starts_with _ _); [|by injection H as [= <-]].
    destruct (parse_usize (tail _)); [|done]. destruct (split_char _ _); [done|]. by injection H as [= <-]. }
  rewrite Hs. clear H Hs. destruct (drop 6 fs) as [|p parts]; simpl in *; [by injection Eo as [= <-]|].
  unfold starts_percent in Eo. destruct p as [|c p].
  - destruct parts as [|q parts]; [done|]. simpl in *. destruct (parse_usize q); [|done]. by injection Eo as [= <-].
  - destruct (N.eqb_spec c 37) as [->|Hc]; [by injection Eo as [= <-]|].
    destruct parts as [|q parts]; [done|]. simpl in *. destruct (parse_usize q); [|done]. injection Eo as [= <-].
    simpl. destruct c as [|c]; [done|]. repeat (destruct c as [c|c|]; try done).
Qed.
Lemma parse_line_own k l a : parse_line k (trim l) = Some a -> own_id l = line_own a.
Proof.
  unfold parse_line, parse_fields, own_id, fields_of. set (fs := split_whitespace (trim l)).
  destruct (fs !! 0) as [f0|], (fs !! 1), (fs !! 2), (fs !! 3); try done.
  destruct (edge_part fs) as [[[e p] s']|]; [|done].
  destruct (starts_with (lit "#") (trim l)) eqn:Eh.
  - apply is_prefix_spec in Eh as [x ->]. simpl. destruct (parse_usize (tail f0)); [|done].
    destruct (split_char _ _); [done|]. by intros [= <-].
  - intros [= <-]. simpl. destruct (trim l) as [|c x]; [done|]. destruct (decide (c = 35%N)) as [->|Hc].
    + exfalso. apply not_true_iff_false in Eh. apply Eh, is_prefix_spec. by exists x.
    + destruct c as [|c]; [done|]. repeat (destruct c as [c|c|]; try done).
Qed.

(** *** No panic *)
Lemma parsed_pid_idx b a b' : B0 b -> stepped b a b' -> is_Some (b_idx b' !! line_pid a) /\
  (forall i n, b_idx b !! i = Some n -> b_idx b' !! i = Some n).
Proof.
  intros B (_ & _ & H). destruct a as [tm edge pid sec|id label ann edge pid sec].
  - destruct H as (_ & _ & _ & _ & _ & _ & n & p & e & Hn & Hgr & _).
    assert (Hnt : forall i m, b_idx b !! i = Some m -> exists nt0, <[n:=T tm]> (bnodes b) !! m = Some (NT nt0)).
    { intros i m Hi. destruct (b0_idx _ B _ _ Hi) as [nt Hm]. exists nt. rewrite lookup_insert_ne; [done|congruence]. }
    destruct (grown_live b _ pid p _ _ Hnt Hgr) as (_ & _ & G3 & G4 & _). split; [eauto|done].
  - destruct H as (_ & _ & _ & _ & n & nt & p & e & sp & N' & Hid & Hn & Hgr & _).
    assert (Hnt : forall i m, b_idx b !! i = Some m -> exists nt0, <[n:=NT (named nt label ann)]> (bnodes b) !! m = Some (NT nt0)).
    { intros i m Hi. destruct (decide (m = n)) as [->|Hne]; [rewrite lookup_insert; eauto|].
      rewrite lookup_insert_ne by done. by eapply b0_idx. }
    destruct (grown_live b _ pid p _ _ Hnt Hgr) as (_ & _ & G3 & G4 & _). split; [eauto|done].
Qed.
(** The state [b] of a sentence after the lines [body]. *)
Record after (b : builder) (body : list str) : Prop := {
  af_B0 : B0 b;
  af_pid : forall l id, l ∈ body -> parent_id l = Some id -> is_Some (b_idx b !! id);
  af_sec : forall id lab n, (id, lab, n) ∈ b_sec b -> exists l, l ∈ body /\ sec_id l = Some id;
  af_term : body <> [] -> 0 < b_nterm b
}.
Lemma after_fresh id meta b : fresh id meta b -> after b [].
Proof.
  intros F. split; [by eapply fresh_B0|set_solver| |done].
  destruct (fr_rest _ _ _ F) as (_ & _ & _ & _ & _ & ->). set_solver.
Qed.
Lemma after_step b body l a b' :
  after b body -> parse_line (b_nterm b) (trim l) = Some a -> stepped b a b' -> after b' (body ++ [l]).
Proof.
  intros [B H1 H2 H3] Ha Hst. destruct (parsed_pid_idx _ _ _ B Hst) as [Hp Hi].
  split; [by eapply stepped_B0| | |].
  - intros l' id Hl' Hid. apply elem_of_app in Hl' as [Hl'|Hl'%elem_of_list_singleton]; [|subst l'].
    + destruct (H1 _ _ Hl' Hid) as [n Hn]. eauto.
    + rewrite (parse_line_pid _ _ _ Ha) in Hid. by injection Hid as [= <-].
  - intros id lab n Hin.
    assert (Hs : exists m, b_sec b' = add_sec (b_sec b) (line_sec a) m).
    { destruct Hst as (_ & _ & Hst). destruct a as [tm edge pid sec|id' label ann edge pid sec].
      - destruct Hst as (_ & _ & _ & _ & _ & _ & m & p & e & _ & _ & _ & HS). by exists m.
      - destruct Hst as (_ & _ & _ & _ & m & nt & p & e & sp & N' & _ & _ & _ & _ & HS & _). by exists m. }
    destruct Hs as [m Hs]. rewrite Hs in Hin. unfold add_sec in Hin.
    assert (Hold : (id, lab, n) ∈ b_sec b -> exists l0, l0 ∈ body ++ [l] /\ sec_id l0 = Some id).
    { intros (l0 & ? & ?)%H2. exists l0. split; [set_solver|done]. }
    pose proof (parse_line_sec _ _ _ Ha) as Hsec.
    destruct (line_sec a) as [[lab' id']|]; [|auto]. apply elem_of_app in Hin as [Hin|Hin]; [auto|].
    apply elem_of_list_singleton in Hin as [= -> -> ->]. exists l. split; [set_solver|done].
  - intros _. destruct Hst as (_ & _ & Hst). destruct a as [tm edge pid sec|id' label ann edge pid sec].
    + destruct Hst as (_ & _ & _ & -> & _). lia.
    + destruct Hst as (Hk & _ & -> & _). done.
Qed.
Lemma run_no_panic ls :
  (forall bos body eos, block_in ls bos body eos -> sound_body body) -> exists rs, run None ls = Ret rs.
Proof.
  assert (G : forall ls cur, (match cur with Some b => B0 b | None => True end) ->
    (forall bos body eos, block_in ls bos body eos -> sound_body body) ->
    (forall b, cur = Some b -> exists body1, after b body1 /\
       forall body2 eos post, ls = map Some body2 ++ Some eos :: post -> Forall plain_line body2 -> is_eos eos ->
         sound_body (body1 ++ body2)) ->
    exists rs, run cur ls = Ret rs).
  { assert (Hsk : forall o ls', (forall bos body eos, block_in (o :: ls') bos body eos -> sound_body body) ->
       forall bos body eos, block_in ls' bos body eos -> sound_body body).
    { intros o ls' H bos body eos (B1 & B2 & B3 & pre & post & ->). apply (H bos body eos). split_and!; try done.
      by exists (o :: pre), post. }
    assert (Hem : forall r m, (exists rs, m = Ret rs) -> exists rs, emit r m = Ret rs).
    { intros r m [rs ->]. by eexists. }
    apply (run_ind (fun cur ls m => (forall bos body eos, block_in ls bos body eos -> sound_body body) ->
      (forall b, cur = Some b -> exists body1, after b body1 /\
       forall body2 eos post, ls = map Some body2 ++ Some eos :: post -> Forall plain_line body2 -> is_eos eos ->
         sound_body (body1 ++ body2)) -> exists rs, m = Ret rs)).
    - eauto.
    - intros cur ls' m IH Hb _. apply Hem, IH; [by eapply Hsk|done].
    - intros l ls' m b _ IH Hb _. apply Hem, IH; [by eapply Hsk|done].
    - intros l ls' m _ _ IH Hb _. apply Hem, IH; [by eapply Hsk|done].
    - intros l ls' m b id meta Hbos _ Hh Hf IH Hb _. apply IH; [by eapply Hsk|]. intros b' [= <-].
      exists []. split; [by eapply after_fresh|]. intros body2 eos post -> Hpl He. apply (Hb l body2 eos).
      split_and!; try done. by exists [], post.
    - intros l ls' m _ IH Hb _. apply Hem, IH; [by eapply Hsk|done].
    - intros l ls' m b He IH Hb Hc. destruct (Hc b eq_refl) as (body1 & [B H1 H2 H3] & Hs).
      destruct (Hs [] l ls' eq_refl (Forall_nil_2 _) He) as [Hne Hsec]. rewrite (right_id_L [] (++)) in Hne, Hsec.
      destruct (try_into_tree_spec b (trim l) B) as [Ht _]; [by apply starts_eos|].
      destruct Ht as (r & -> & _).
      + by apply H3.
      + intros id lab n (l0 & Hl0 & Hid)%H2. destruct (Hsec l0 id Hl0 Hid) as [->|(l' & Hl' & Hp)]; [|by eapply H1].
        rewrite (b0_root _ B). eauto.
      + cbn [mbind outcome_bind]. apply Hem, IH; [by eapply Hsk|done].
    - intros l ls' m _ IH Hb _. apply IH; [by eapply Hsk|done].
    - intros l ls' m b _ _ IH Hb _. apply Hem, IH; [by eapply Hsk|done].
    - intros l ls' m b b' a Hp _ Ha Hst IH Hb Hc. apply IH; [by eapply Hsk|]. intros b'' [= <-].
      destruct (Hc b eq_refl) as (body1 & Haf & Hs). exists (body1 ++ [l]). split; [by eapply after_step|].
      intros body2 eos post -> Hpl He. rewrite <- (assoc_L (++)). apply (Hs (l :: body2) eos post); [done| |done].
      by constructor. }
  intros H. apply G; [done|done|by intros b [=]].
Qed.
