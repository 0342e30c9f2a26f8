(** The stream reader. *)
From Coq Require Import Lia.
From Verif Require Import ModModel TreeSpec BaseProofs RoseSpec PtbSpec PtbProofs PtbBuild.

Definition parsed (f : ptb_format) (s : str) (r : result tree) : Prop := string_to_tree f s = Ret r.

Lemma parsed_total f s : exists r, string_to_tree f s = Ret r.
Proof. destruct (string_to_tree_spec f s) as (r & H & _). eauto. Qed.
Lemma starts_percent_spec l : starts_percent l = true <-> comment l.
Proof.
  unfold starts_percent, comment. destruct l as [|c l]; [split; [done|intros [s H]; done]|].
  rewrite N.eqb_eq. split; [intros ->; eauto|]. intros [s [= -> ->]]. done.
Qed.
Lemma starts_percent_false l : starts_percent l = false <-> ~ comment l.
Proof. rewrite <- starts_percent_spec. by destruct (starts_percent l). Qed.

(** *** One tree per line *)
Lemma read_single f : forall fuel ls, length ls < fuel ->
  exists rs, ptb_read_all fuel f SingleLine ls = Ret rs /\ single_results (parsed f) Err ls rs.
Proof.
  assert (Hnext : forall ls, exists res ls', next_single f ls = Ret (res, ls') /\
    match res with
    | None => forall rs, rs = [] -> single_results (parsed f) Err ls rs
    | Some r => length ls' < length ls /\ forall rs, single_results (parsed f) Err ls' rs -> single_results (parsed f) Err ls (r :: rs)
    end).
  { induction ls as [|[l|] ls IH]; cbn [next_single].
    - eexists _, _. split; [done|]. intros rs ->. constructor.
    - destruct (starts_percent l) eqn:Ep.
      + destruct IH as (res & ls' & -> & H). eexists _, _. split; [done|]. apply starts_percent_spec in Ep.
        destruct res as [r|].
        * destruct H as [H1 H2]. split; [simpl; lia|]. intros rs Hrs. constructor; auto.
        * intros rs ->. constructor; auto.
      + destruct (parsed_total f l) as [r Hr]. rewrite Hr. cbn [mbind outcome_bind]. eexists _, _. split; [done|].
        split; [simpl; lia|]. intros rs Hrs. apply starts_percent_false in Ep. by constructor.
    - eexists _, _. split; [done|]. split; [simpl; lia|]. intros rs Hrs. by constructor. }
  induction fuel as [|fuel IH]; intros ls Hf; [lia|]. cbn [ptb_read_all ptb_next].
  destruct (Hnext ls) as (res & ls' & -> & H). cbn [mbind outcome_bind]. destruct res as [r|].
  - destruct H as [H1 H2]. destruct (IH ls' ltac:(lia)) as (rs & -> & Hrs). cbn [mbind outcome_bind].
    eexists. split; [done|]. auto.
  - eexists. split; [done|]. by apply H.
Qed.

(** *** Trees over several lines *)
Lemma opens_app a b : opens (a ++ b) = opens a + opens b.
Proof. unfold opens. etrans; [exact (f_equal length (filter_app (fun c => c = 40%N) a b))|apply app_length]. Qed.
Lemma closes_app a b : closes (a ++ b) = closes a + closes b.
Proof. unfold closes. etrans; [exact (f_equal length (filter_app (fun c => c = 41%N) a b))|apply app_length]. Qed.
Lemma count_pars_spec l : count_pars l = (opens l, closes l).
Proof. done. Qed.

Lemma unfinished_facts g : unfinished g -> g <> [] /\ concat g <> [] /\ closes (concat g) < opens (concat g).
Proof.
  intros [(l & g' & -> & Hl & Hc) H]. split_and!; [done|by destruct l|].
  specialize (H (length (l :: g')) ltac:(simpl; lia)). by rewrite firstn_all in H.
Qed.
Lemma unfinished_snoc (g : list str) (l : str) : unfinished g \/ g = [] /\ l <> [] /\ ~ comment l ->
  closes (concat (g ++ [l])) < opens (concat (g ++ [l])) -> unfinished (g ++ [l]).
Proof.
  intros Hg Hlt. split.
  - destruct Hg as [[(l0 & g' & -> & H1 & H2) _]|(-> & H1 & H2)]; [exists l0, (g' ++ [l])|exists l, []]; done.
  - intros i Hi. rewrite app_length in Hi. simpl in Hi.
    destruct (decide (i = length g + 1)) as [->|Hne].
    + rewrite take_ge; [done|]. rewrite app_length. simpl. lia.
    + rewrite take_app_le by lia. destruct Hg as [[_ Hg]|(-> & _)]; [apply Hg; lia|simpl in *; lia].
Qed.
Lemma group_snoc (g : list str) (l : str) : unfinished g \/ g = [] /\ l <> [] /\ ~ comment l ->
  closes (concat (g ++ [l])) = opens (concat (g ++ [l])) -> balanced_group (g ++ [l]).
Proof.
  intros Hg Heq. split; [|split; [done|]].
  - destruct Hg as [[(l0 & g' & -> & H1 & H2) _]|(-> & H1 & H2)]; [exists l0, (g' ++ [l])|exists l, []]; done.
  - intros i Hi. rewrite app_length in Hi. simpl in Hi. rewrite take_app_le by lia.
    destruct Hg as [[_ Hg]|(-> & _)]; [apply Hg; lia|simpl in *; lia].
Qed.
Lemma concat_snoc (g : list str) (l : str) : concat (g ++ [l]) = concat g ++ l.
Proof. induction g as [|x g IH]; simpl; [by rewrite app_nil_r|]. by rewrite IH, (assoc_L (++)). Qed.

Definition pending (g : list str) : Prop := g = [] \/ unfinished g.
Definition level (g : list str) : nat := opens (concat g) - closes (concat g).
Lemma pending_le g : pending g -> closes (concat g) <= opens (concat g).
Proof. intros [->|H]; [done|]. apply unfinished_facts in H. lia. Qed.

(** One step of the reader on a line that is not skipped. *)
Lemma next_multi_skip f (l : str) ls (g : list str) : pending g ->
  (g = [] /\ (l = [] \/ comment l)) \/ (unfinished g /\ l = []) ->
  next_multi f (Some l :: ls) (concat g) (level g) = next_multi f ls (concat g) (level g).
Proof.
  intros Hp H. cbn [next_multi]. destruct H as [[-> [->|Hc]]|[Hu ->]].
  - done.
  - apply starts_percent_spec in Hc. simpl. by rewrite Hc.
  - by rewrite orb_true_r.
Qed.
Lemma next_multi_line f (l : str) ls (g : list str) : pending g ->
  (g = [] /\ l <> [] /\ ~ comment l) \/ (unfinished g /\ l <> []) ->
  next_multi f (Some l :: ls) (concat g) (level g) =
    if decide (opens (concat (g ++ [l])) < closes (concat (g ++ [l]))) then Panic
    else if decide (opens (concat (g ++ [l])) = closes (concat (g ++ [l]))) then
      r ← string_to_tree f (concat (g ++ [l])); Ret (Some r, ls)
    else next_multi f ls (concat (g ++ [l])) (level (g ++ [l])).
Proof.
  intros Hp H. cbn [next_multi].
  assert (((starts_percent l && match concat g with [] => true | _ => false end) || match l with [] => true | _ => false end)%bool = false) as ->.
  { destruct H as [(-> & Hl & Hc)|[Hu Hl]].
    - apply starts_percent_false in Hc. rewrite Hc. by destruct l.
    - apply unfinished_facts in Hu as (_ & Hc & _). destruct (concat g); [done|]. rewrite andb_false_r. by destruct l. }
  rewrite count_pars_spec. pose proof (pending_le g Hp) as Hle. unfold level. rewrite concat_snoc, opens_app, closes_app.
  unfold sub_chk. destruct (Nat.leb_spec (closes l) (opens (concat g) - closes (concat g) + opens l)) as [H1|H1]; cbn [mbind outcome_bind].
  - rewrite decide_False by lia. destruct (Nat.eqb_spec (opens (concat g) - closes (concat g) + opens l - closes l) 0) as [H2|H2].
    + by rewrite decide_True by lia.
    + rewrite decide_False by lia. f_equal. lia.
  - by rewrite decide_True by lia.
Qed.

Lemma next_multi_sound f : forall ls g, pending g -> forall res ls',
  next_multi f ls (concat g) (level g) = Ret (res, ls') ->
  match res with
  | None => multi_results (parsed f) Err (map Some g ++ ls) []
  | Some r => length ls' < length ls /\
      forall rs, multi_results (parsed f) Err ls' rs -> multi_results (parsed f) Err (map Some g ++ ls) (r :: rs)
  end.
Proof.
  induction ls as [|[l|] ls IH]; intros g Hp res ls' H.
  - injection H as <- <-. rewrite app_nil_r. destruct Hp as [->|Hu]; [constructor|by constructor].
  - assert (Happ : map Some g ++ Some l :: ls = map Some (g ++ [l]) ++ ls) by (rewrite map_app, <- (assoc_L (++)); done).
    assert ((g = [] /\ (l = [] \/ comment l)) \/ (unfinished g /\ l = []) \/ (g = [] /\ l <> [] /\ ~ comment l) \/ (unfinished g /\ l <> [])) as Hc.
    { destruct (decide (l = [])) as [->|Hl]; [destruct Hp as [->|Hu]; tauto|].
      destruct Hp as [->|Hu]; [|tauto]. destruct (starts_percent l) eqn:Ep; [apply starts_percent_spec in Ep|apply starts_percent_false in Ep]; tauto. }
    destruct Hc as [Hc|[Hc|Hc]].
    + rewrite next_multi_skip in H by (try done; by left). destruct Hc as [-> Hc].
      specialize (IH [] Hp res ls' H). destruct res as [r|]; simpl in *.
      * destruct IH as [I1 I2]. split; [lia|]. intros rs Hrs. constructor; auto.
      * constructor; auto.
    + rewrite next_multi_skip in H by (try done; by right). destruct Hc as [Hu ->].
      assert (Hu' : unfinished (g ++ [[]])).
      { apply unfinished_snoc; [by left|]. rewrite concat_snoc, app_nil_r. apply unfinished_facts in Hu. tauto. }
      specialize (IH (g ++ [[]]) (or_intror Hu') res ls'). unfold level in IH. rewrite concat_snoc, app_nil_r in IH.
      specialize (IH H). rewrite Happ. destruct res as [r|]; [|done]. simpl. destruct IH as [I1 I2]. split; [lia|done].
    + rewrite next_multi_line in H by done.
      destruct (decide (opens (concat (g ++ [l])) < closes (concat (g ++ [l])))) as [|Hge]; [done|].
      assert (Hg' : unfinished g \/ g = [] /\ l <> [] /\ ~ comment l) by tauto.
      destruct (decide (opens (concat (g ++ [l])) = closes (concat (g ++ [l])))) as [Heq|Hneq].
      * destruct (parsed_total f (concat (g ++ [l]))) as [r Hr]. rewrite Hr in H. injection H as <- <-.
        split; [simpl; lia|]. intros rs Hrs. rewrite Happ. apply mr_group; [|done|done]. by apply group_snoc.
      * assert (Hu' : unfinished (g ++ [l])) by (apply unfinished_snoc; [done|lia]).
        specialize (IH _ (or_intror Hu') res ls' H). rewrite Happ. destruct res as [r|]; [|done]. simpl.
        destruct IH as [I1 I2]. split; [lia|done].
  - injection H as <- <-. split; [simpl; lia|]. intros rs Hrs. destruct Hp as [->|Hu]; [by constructor|by apply mr_io_inside].
Qed.

Lemma take_prefix {A} (g1 : list A) l g2 : take (length g1 + 1) (g1 ++ l :: g2) = g1 ++ [l].
Proof. induction g1 as [|x g1 IH]; simpl; [done|]. by rewrite IH. Qed.

(** Inside an unfinished group the reader goes on. *)
Lemma next_multi_run f g2 : forall g1 ls, pending g1 -> g2 <> [] \/ unfinished g1 ->
  unfinished (g1 ++ g2) ->
  next_multi f (map Some g2 ++ ls) (concat g1) (level g1) = next_multi f ls (concat (g1 ++ g2)) (level (g1 ++ g2)).
Proof.
  induction g2 as [|l g2 IH]; intros g1 ls Hp _ Hu; [by rewrite app_nil_r|].
  assert (Hu1 : unfinished (g1 ++ [l])).
  { destruct Hu as [(l0 & g' & E & H1 & H2) Hall]. split.
    - destruct g1 as [|x g1]; simpl in *; injection E as -> E; eauto.
    - intros i Hi. rewrite app_length in Hi. simpl in Hi.
      specialize (Hall i). rewrite app_length in Hall. simpl in Hall. specialize (Hall ltac:(lia)).
      assert (take i (g1 ++ l :: g2) = take i (g1 ++ [l])) as E'.
      { rewrite <- (take_prefix g1 l g2), take_take. f_equal. lia. }
      by rewrite E' in Hall. }
  assert (Happ : g1 ++ l :: g2 = (g1 ++ [l]) ++ g2) by (rewrite <- (assoc_L (++)); done).
  cbn [map app]. destruct (decide (l = [])) as [->|Hl].
  - assert (unfinished g1) as Hug.
    { destruct Hp as [->|]; [|done]. exfalso. destruct Hu1 as [(l0 & g' & E & H1 & H2) _]. injection E as <- <-. done. }
    change (Some [] :: map Some g2 ++ ls) with (Some ([] : str) :: (map Some g2 ++ ls)).
    rewrite next_multi_skip by (try done; by right). rewrite Happ, <- IH; [|by right|by right|by rewrite <- Happ].
    unfold level. by rewrite concat_snoc, app_nil_r.
  - change (Some l :: map Some g2 ++ ls) with (Some l :: (map Some g2 ++ ls)).
    rewrite next_multi_line; [|done|].
    + pose proof (unfinished_facts _ Hu1) as (_ & _ & Hlt). rewrite !decide_False by lia.
      rewrite Happ. apply IH; [by right|by right|by rewrite <- Happ].
    + destruct Hp as [->|]; [|by right]. left. destruct Hu1 as [(l0 & g' & E & H1 & H2) _]. injection E as <- <-. done.
Qed.

Lemma next_multi_group f g ls r : balanced_group g -> parsed f (concat g) r ->
  next_multi f (map Some g ++ ls) [] 0 = Ret (Some r, ls).
Proof.
  intros Hg Hr. pose proof Hg as ((l0 & g' & E & H1 & H2) & Heq & Hall).
  destruct (exists_last (l := g)) as (g1 & l & ->); [by rewrite E|].
  rewrite map_app, <- (assoc_L (++)). cbn [map app].
  assert (Hp : pending g1 /\ (g1 = [] \/ unfinished g1)).
  { assert (g1 = [] \/ unfinished g1); [|done]. destruct g1 as [|x g1]; [by left|right]. simpl in E. injection E as -> E.
    split; [exists l0, g1; done|]. intros i Hi. specialize (Hall i). rewrite app_length in Hall. simpl in Hall, Hi.
    specialize (Hall ltac:(lia)). pose proof (take_app_le (l0 :: g1) [l] i ltac:(simpl; lia)) as Et. simpl app in Et. by rewrite Et in Hall. }
  destruct Hp as [Hp _].
  assert (Hlast : next_multi f (Some l :: ls) (concat g1) (level g1) = Ret (Some r, ls)).
  { assert (Hl : l <> [] \/ unfinished g1 /\ l = []).
    { destruct (decide (l = [])) as [->|]; [right|by left]. destruct Hp as [->|]; [|done]. simpl in E. injection E as <- <-. done. }
    destruct Hl as [Hl|[Hu ->]].
    - rewrite next_multi_line; [|done|].
      + rewrite decide_False by lia. rewrite decide_True by lia. unfold parsed in Hr. by rewrite Hr.
      + destruct Hp as [->|]; [left|by right]. simpl in E. injection E as <- <-. done.
    - exfalso. rewrite concat_snoc, app_nil_r in Heq. apply unfinished_facts in Hu. lia. }
  destruct Hp as [->|Hu]; [done|].
  etrans; [apply (next_multi_run f g1 [] (Some l :: ls)); [by left| |done]|done].
  left. apply (unfinished_facts g1 Hu).
Qed.

Lemma read_multi_complete f ls rs : multi_results (parsed f) Err ls rs ->
  forall fuel, length ls < fuel -> ptb_read_all fuel f MultiLine ls = Ret rs.
Proof.
  assert (Hsplit : forall fuel ls, ptb_read_all (S fuel) f MultiLine ls = 
     ('(r, ls) ← next_multi f ls [] 0; match r with None => Ret [] | Some r => rs ← ptb_read_all fuel f MultiLine ls; Ret (r :: rs) end)) by done.
  induction 1 as [|l ls rs Hl H IH|g ls r rs Hg Hr H IH|ls rs H IH|g ls rs Hg H IH|g Hg]; intros fuel Hf;
    (destruct fuel as [|fuel]; [lia|]).
  - done.
  - rewrite Hsplit. assert (next_multi f (Some l :: ls) [] 0 = next_multi f ls [] 0) as ->.
    { apply (next_multi_skip f l ls []); [by left|left; split; [done|tauto]]. }
    specialize (IH (S fuel) ltac:(simpl in Hf; lia)). by rewrite Hsplit in IH.
  - rewrite Hsplit, (next_multi_group f g ls r Hg Hr). cbn [mbind outcome_bind]. rewrite IH; [done|].
    rewrite app_length, map_length in Hf. destruct Hg as [(l & g' & -> & _) _]. simpl in Hf. lia.
  - rewrite Hsplit. cbn [next_multi mbind outcome_bind]. rewrite IH; [done|]. simpl in Hf. lia.
  - rewrite Hsplit. pose proof (next_multi_run f g [] (None :: ls) ltac:(by left) (or_introl (proj1 (unfinished_facts g Hg))) Hg) as E.
    unfold level in E. simpl concat in E. change (opens [] - closes []) with 0 in E. rewrite E.
    cbn [next_multi mbind outcome_bind]. rewrite IH; [done|]. rewrite app_length in Hf. simpl in Hf. lia.
  - rewrite Hsplit. pose proof (next_multi_run f g [] [] ltac:(by left) (or_introl (proj1 (unfinished_facts g Hg))) Hg) as E.
    rewrite app_nil_r in E. unfold level in E. simpl concat in E. change (opens [] - closes []) with 0 in E. rewrite E. done.
Qed.

Lemma next_multi_nodiv f : forall ls g o, next_multi f ls g o <> Diverge.
Proof.
  induction ls as [|[l|] ls IH]; intros g o; cbn [next_multi]; [done| |done].
  match goal with |- context[if ?b then _ else _] => destruct b end; [apply IH|].
  rewrite count_pars_spec. unfold sub_chk. destruct (Nat.leb _ _); cbn [mbind outcome_bind]; [|done].
  destruct (Nat.eqb _ _); [|apply IH]. destruct (parsed_total f (g ++ l)) as [r ->]. done.
Qed.

Lemma read_multi_sound f : forall fuel ls, length ls < fuel ->
  ptb_read_all fuel f MultiLine ls <> Diverge /\
  forall rs, ptb_read_all fuel f MultiLine ls = Ret rs -> multi_results (parsed f) Err ls rs.
Proof.
  induction fuel as [|fuel IH]; intros ls Hf; [lia|]. cbn [ptb_read_all ptb_next].
  pose proof (next_multi_nodiv f ls [] 0) as Hnd.
  destruct (next_multi f ls [] 0) as [[res ls']| |] eqn:En; cbn [mbind outcome_bind]; [|done|done].
  pose proof (next_multi_sound f ls [] (or_introl eq_refl) res ls' En) as HS. simpl in HS.
  destruct res as [r|]; [|split; [done|]; intros rs [= <-]; done].
  destruct HS as [H1 H2]. destruct (IH ls' ltac:(lia)) as [I1 I2].
  destruct (ptb_read_all fuel f MultiLine ls') as [rs'| |]; cbn [mbind outcome_bind]; [|done|done].
  split; [done|]. intros rs [= <-]. auto.
Qed.
