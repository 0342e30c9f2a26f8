(** [filter_nonterminals]: removing a set of inner nodes. *)
From Coq Require Import Lia.
From Verif Require Import ModModel TreeSpec BaseProofs ShapeProofs GraphProofs DfsProofs ResetProofs
  ShapeOps TreeOps SortProofs EditProofs UnaryProofs.

Lemma remove_node_inner t n nt :
  WF t -> nodes t !! n = Some (NT nt) -> n <> tr_root t ->
  exists t', remove_node t n = Ret (t', Ok (NT nt)) /\ WF t' /\
    nodes t' = delete n (nodes t) /\ tr_nterm t' = tr_nterm t /\ tr_root t' = tr_root t /\
    (forall a b, a <> n -> b <> n -> Dom (edges t') a b <-> Dom (edges t) a b) /\
    (forall p, PE (edges t) p n -> forall a b, PE (edges t') a b <->
        (a = p /\ PE (edges t) n b) \/ (a <> n /\ b <> n /\ PE (edges t) a b)) /\
    (forall r, e_src r <> n -> e_tgt r <> n ->
       is_primary (e_w r) = false \/ ~ PE (edges t) n (e_tgt r) ->
       r ∈ edges t' <-> r ∈ edges t).
Proof.
  intros W Hn Hr. pose proof W as [G Sh Tm Nt Nd].
  destruct (live_parent Sh n ltac:(eauto) Hr) as [p Hp].
  destruct (remove_nonterminal_ok t n nt p W Hn Hp) as (t' & H1 & W' & HN & Hk & Hrt & HPE & HE).
  exists t'. split_and!; try done.
  - unfold remove_node. by rewrite (node_at_Some _ _ _ Hn).
  - intros a b Ha Hb. by eapply splice_Dom.
  - intros q Hq. by rewrite (PE_parent_unique Sh q p n Hq Hp).
Qed.

Definition node_based (f : tree -> nat -> bool) : Prop :=
  forall t t' n, nodes t' !! n = nodes t !! n -> f t' n = f t n.

Lemma filter_loop f l : forall t,
  WF t -> NoDup l -> node_based f ->
  (forall n, n ∈ l -> exists nt, nodes t !! n = Some (NT nt) /\ n <> tr_root t) ->
  exists t', foldR (fun t n =>
           if negb (f t n) then
             '(t, r) ← remove_node t n;
             match r with Ok _ => Ret (t, Ok ()) | Err => Ret (t, Err) end
           else Ret (t, Ok ())) l t = Ret (t', Ok ()) /\ WF t' /\
    tr_root t' = tr_root t /\ tr_nterm t' = tr_nterm t /\
    (forall n, nodes t' !! n = if decide (n ∈ l /\ f t n = false) then None else nodes t !! n) /\
    (forall a b, is_Some (nodes t' !! a) -> is_Some (nodes t' !! b) ->
       Dom (edges t') a b <-> Dom (edges t) a b).
Proof.
  induction l as [|n l IH]; intros t W Hnd Hf Hl.
  - exists t. split_and!; try done.
  - apply NoDup_cons in Hnd as [Hn Hnd]. cbn [foldR].
    destruct (Hl n) as (nt & Hnt & Hnr); [set_solver|].
    destruct (f t n) eqn:E; cbn [negb mbind outcome_bind].
    + destruct (IH t W Hnd Hf) as (t' & H1 & H2 & H3 & H4 & H5 & H6).
      { intros m Hm. apply Hl. set_solver. }
      exists t'. split_and!; try done. intros m. rewrite H5.
      destruct (decide (m ∈ l /\ f t m = false)) as [[D1 D2]|D].
      * rewrite decide_True; [done|]. set_solver.
      * rewrite decide_False; [done|]. intros [[->|Hm]%elem_of_cons Hfm]; [congruence|tauto].
    + destruct (remove_node_inner t n nt W Hnt Hnr) as (t1 & -> & W1 & N1 & K1 & R1 & D1 & _).
      cbn [mbind outcome_bind].
      destruct (IH t1 W1 Hnd Hf) as (t' & H1 & H2 & H3 & H4 & H5 & H6).
      { intros m Hm. destruct (Hl m) as (ntm & Hm1 & Hm2); [set_solver|]. exists ntm.
        rewrite N1, lookup_delete_ne by set_solver. by rewrite R1. }
      exists t'. split_and!; try done; try congruence.
      * intros m. rewrite H5. rewrite N1. destruct (decide (m = n)) as [->|Hmn].
        -- rewrite lookup_delete. rewrite (decide_True _ _ (P := n ∈ n :: l /\ f t n = false)) by set_solver.
           by destruct (decide _).
        -- rewrite lookup_delete_ne by done.
           rewrite (Hf t t1 m) by (by rewrite N1, lookup_delete_ne).
           destruct (decide (m ∈ l /\ f t m = false)) as [[E1 E2]|E1].
           ++ rewrite decide_True; [done|]. set_solver.
           ++ rewrite decide_False; [done|]. set_solver.
      * intros a b Ha Hb. rewrite (H6 a b Ha Hb).
        assert (Hk : forall x, is_Some (nodes t' !! x) -> x <> n).
        { intros x Hx ->. rewrite H5, N1, lookup_delete in Hx. destruct (decide _); by inversion Hx. }
        apply D1; by apply Hk.
Qed.

Lemma filter_nonterminals_ok t f :
  WF t -> node_based f ->
  exists t', filter_nonterminals t f = Ret (t', Ok ()) /\ WF t' /\
    tr_root t' = tr_root t /\ tr_nterm t' = tr_nterm t /\
    (forall n w, nodes t' !! n = Some w <->
       nodes t !! n = Some w /\ (n = tr_root t \/ is_terminal w = true \/ f t n = true)) /\
    (forall a b, is_Some (nodes t' !! a) -> is_Some (nodes t' !! b) ->
       Dom (edges t') a b <-> Dom (edges t) a b).
Proof.
  intros W Hf. pose proof W as [G Sh Tm Nt Nd]. unfold filter_nonterminals.
  destruct (filter_loop f (filter (fun n => n <> tr_root t) (nonterminals t)) t) as (t' & H1 & H2 & H3 & H4 & H5 & H6); try done.
  - apply NoDup_filter, nonterminals_nodup.
  - intros n [Hn Hn']%elem_of_list_filter. apply elem_of_nonterminals in Hn' as [nt Hnt]; [|done]. by exists nt.
  - exists t'. split_and!; try done. intros n w. rewrite H5.
    destruct (decide _) as [[Hin Hfn]|Hn].
    + split; [done|]. intros [Hw [->|[Ht|Ht]]]; [..|congruence].
      * apply elem_of_list_filter in Hin as [? _]. done.
      * apply elem_of_list_filter in Hin as [_ Hin]. apply elem_of_nonterminals in Hin as [nt Hnt]; [|done].
        rewrite Hw in Hnt. injection Hnt as ->. done.
    + split; [|tauto]. intros Hw. split; [done|].
      destruct (decide (n = tr_root t)) as [->|Hne]; [by left|right].
      destruct w as [nt|tm]; [right|by left]. destruct (f t n) eqn:E; [done|]. exfalso. apply Hn. split; [|done].
      apply elem_of_list_filter. split; [done|]. apply elem_of_nonterminals; eauto.
Qed.
