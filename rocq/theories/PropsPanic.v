(** C37: exactly which streams make the reader of bracketed files panic. *)
From Coq Require Import Lia.
From Verif Require Import PtbModel PtbSpec BaseProofs PtbProofs PtbReader PropsPtb.
Local Arguments lit : simpl never.

(** ** Specification *)
(** Lines up to the first one after which more brackets have been closed than opened, while after every
    earlier line more have been opened than closed. *)
Definition overclosed (g : list str) : Prop :=
  (exists l g', g = l :: g' /\ l <> [] /\ ~ comment l) /\
  opens (concat g) < closes (concat g) /\
  forall i, 0 < i < length g -> closes (concat (take i g)) < opens (concat (take i g)).
(** Such lines follow after any number of trees, failing reads and skipped lines. *)
Inductive fatal_lines : list (option str) -> Prop :=
| fl_here g ls : overclosed g -> fatal_lines (map Some g ++ ls)
| fl_skip l ls : l = [] \/ comment l -> fatal_lines ls -> fatal_lines (Some l :: ls)
| fl_group g ls : balanced_group g -> fatal_lines ls -> fatal_lines (map Some g ++ ls)
| fl_io ls : fatal_lines ls -> fatal_lines (None :: ls)
| fl_io_inside g ls : unfinished g -> fatal_lines ls -> fatal_lines (map Some g ++ None :: ls).

(** ** Proofs *)
Lemma over_snoc (g : list str) (l : str) : unfinished g \/ g = [] /\ l <> [] /\ ~ comment l ->
  opens (concat (g ++ [l])) < closes (concat (g ++ [l])) -> overclosed (g ++ [l]).
Proof.
  intros Hg Heq. split; [|split; [done|]].
  - destruct Hg as [[(l0 & g' & -> & H1 & H2) _]|(-> & H1 & H2)]; [exists l0, (g' ++ [l])|exists l, []]; done.
  - intros i Hi. rewrite app_length in Hi. simpl in Hi. rewrite take_app_le by lia.
    destruct Hg as [[_ Hg]|(-> & _)]; [apply Hg; lia|simpl in *; lia].
Qed.
Lemma next_multi_fatal f : forall ls g, pending g ->
  match next_multi f ls (concat g) (level g) with
  | Panic => fatal_lines (map Some g ++ ls)
  | Ret (Some r, ls') => fatal_lines ls' -> fatal_lines (map Some g ++ ls)
  | _ => True
  end.
Proof.
  induction ls as [|[l|] ls IH]; intros g Hp.
  - done.
  - assert (Happ : map Some g ++ Some l :: ls = map Some (g ++ [l]) ++ ls) by (rewrite map_app, <- (assoc_L (++)); done).
    assert ((g = [] /\ (l = [] \/ comment l)) \/ (unfinished g /\ l = []) \/ (g = [] /\ l <> [] /\ ~ comment l) \/ (unfinished g /\ l <> [])) as Hc.
    { destruct (decide (l = [])) as [->|Hl]; [destruct Hp as [->|Hu]; tauto|].
      destruct Hp as [->|Hu]; [|tauto]. destruct (starts_percent l) eqn:Ep; [apply starts_percent_spec in Ep|apply starts_percent_false in Ep]; tauto. }
    destruct Hc as [Hc|[Hc|Hc]].
    + rewrite next_multi_skip by (try done; by left). destruct Hc as [-> Hc].
      specialize (IH [] Hp). simpl in *. destruct (next_multi f ls [] (level [])) as [[[r|] ls']| |]; simpl in *; try done.
      * intros Hf. apply fl_skip; auto.
      * apply fl_skip; auto.
    + rewrite next_multi_skip by (try done; by right). destruct Hc as [Hu ->].
      assert (Hu' : unfinished (g ++ [[]])).
      { apply unfinished_snoc; [by left|]. rewrite concat_snoc, app_nil_r. apply unfinished_facts in Hu. tauto. }
      specialize (IH (g ++ [[]]) (or_intror Hu')). unfold level in IH. rewrite concat_snoc, app_nil_r in IH.
      by rewrite Happ.
    + rewrite next_multi_line by done.
      assert (Hg' : unfinished g \/ g = [] /\ l <> [] /\ ~ comment l) by tauto.
      destruct (decide (opens (concat (g ++ [l])) < closes (concat (g ++ [l])))) as [Hlt|Hge].
      { rewrite Happ. apply fl_here. by apply over_snoc. }
      destruct (decide (opens (concat (g ++ [l])) = closes (concat (g ++ [l])))) as [Heq|Hneq].
      * destruct (parsed_total f (concat (g ++ [l]))) as [r Hr]. rewrite Hr. cbn [mbind outcome_bind].
        intros Hf. rewrite Happ. apply fl_group; [|done]. by apply group_snoc.
      * assert (Hu' : unfinished (g ++ [l])) by (apply unfinished_snoc; [done|lia]).
        specialize (IH _ (or_intror Hu')). by rewrite Happ.
  - cbn [next_multi]. intros Hf. destruct Hp as [->|Hu]; [by apply fl_io|by apply fl_io_inside].
Qed.
Lemma next_multi_over f g ls : overclosed g -> next_multi f (map Some g ++ ls) [] 0 = Panic.
Proof.
  intros Hg. pose proof Hg as ((l0 & g' & E & H1 & H2) & Heq & Hall).
  destruct (exists_last (l := g)) as (g1 & l & ->); [by rewrite E|].
  rewrite map_app, <- (assoc_L (++)). cbn [map app].
  assert (Hp : pending g1).
  { destruct g1 as [|x g1]; [by left|right]. simpl in E. injection E as -> E.
    split; [exists l0, g1; done|]. intros i Hi. specialize (Hall i). rewrite app_length in Hall. simpl in Hall, Hi.
    specialize (Hall ltac:(lia)). pose proof (take_app_le (l0 :: g1) [l] i ltac:(simpl; lia)) as Et. simpl app in Et. by rewrite Et in Hall. }
  assert (Hlast : next_multi f (Some l :: ls) (concat g1) (level g1) = Panic).
  { rewrite next_multi_line; [by rewrite decide_True by lia|done|].
    assert (l <> []). { intros ->. rewrite concat_snoc, app_nil_r in Heq. pose proof (pending_le g1 Hp). lia. }
    destruct Hp as [->|]; [left|by right]. simpl in E. injection E as <- <-. done. }
  destruct Hp as [->|Hu]; [done|].
  etrans; [apply (next_multi_run f g1 [] (Some l :: ls)); [by left| |done]|done].
  left. apply (unfinished_facts g1 Hu).
Qed.

(** ** C37 *)
(** The reader panics exactly on these streams; with C37_multi_partial this is its whole behaviour. *)
Theorem C37_panics f ls : ptb_read f MultiLine ls = Panic <-> fatal_lines ls.
Proof.
  unfold ptb_read. split.
  - generalize (S (length ls)) at 1. intros fuel. revert ls. induction fuel as [|fuel IH]; intros ls H; [done|].
    cbn [ptb_read_all ptb_next] in H. pose proof (next_multi_fatal f ls [] (or_introl eq_refl)) as HF. simpl app in HF.
    change (level []) with 0 in HF. change (concat []) with ([] : str) in HF.
    destruct (next_multi f ls [] 0) as [[[r|] ls']| |]; cbn [mbind outcome_bind] in H; try done.
    apply HF, IH. destruct (ptb_read_all fuel f MultiLine ls') as [| |]; done.
  - intros H. assert (G : forall fuel, length ls < fuel -> ptb_read_all fuel f MultiLine ls = Panic); [|apply G; lia].
    assert (Hsplit : forall fuel ls, ptb_read_all (S fuel) f MultiLine ls =
     ('(r, ls) ← next_multi f ls [] 0; match r with None => Ret [] | Some r => rs ← ptb_read_all fuel f MultiLine ls; Ret (r :: rs) end)) by done.
    induction H as [g ls Hg|l ls Hl H IH|g ls Hg H IH|ls H IH|g ls Hg H IH]; intros fuel Hf;
      (destruct fuel as [|fuel]; [lia|]).
    + by rewrite Hsplit, (next_multi_over f g ls Hg).
    + rewrite Hsplit. assert (next_multi f (Some l :: ls) [] 0 = next_multi f ls [] 0) as ->.
      { apply (next_multi_skip f l ls []); [by left|left; split; [done|tauto]]. }
      specialize (IH (S fuel) ltac:(simpl in Hf; lia)). by rewrite Hsplit in IH.
    + destruct (parsed_total f (concat g)) as [r Hr]. rewrite Hsplit, (next_multi_group f g ls r Hg Hr). cbn [mbind outcome_bind]. rewrite IH; [done|].
      rewrite app_length, map_length in Hf. destruct Hg as [(l & g' & -> & _) _]. simpl in Hf. lia.
    + rewrite Hsplit. cbn [next_multi mbind outcome_bind]. rewrite IH; [done|]. simpl in Hf. lia.
    + rewrite Hsplit. pose proof (next_multi_run f g [] (None :: ls) ltac:(by left) (or_introl (proj1 (unfinished_facts g Hg))) Hg) as E.
      unfold level in E. simpl concat in E. change (opens [] - closes []) with 0 in E. rewrite E.
      cbn [next_multi mbind outcome_bind]. rewrite IH; [done|]. rewrite app_length in Hf. simpl in Hf. lia.
Qed.
Print Assumptions C37_panics.
(** A comment, a tree over two lines, then a line with a bracket too many. *)
Definition ex_fatal : list (option str) :=
  [Some (lit "% note"); Some (lit "(S (D the)"); Some (lit " (N dog))"); Some (lit "(S (D the"); Some (lit "))) (X y)"); Some (lit "(A b)")].
Example C37_panics_ex : fatal_lines ex_fatal /\ ptb_read PTB MultiLine ex_fatal = Panic.
Proof.
  assert (H : ptb_read PTB MultiLine ex_fatal = Panic) by (by vm_compute). split; [by apply (C37_panics PTB)|done].
Qed.
