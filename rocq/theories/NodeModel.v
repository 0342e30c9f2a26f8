(** Model of /repo/lumberjack/src/node.rs and /repo/lumberjack/src/edge.rs. *)
From Verif Require Export SpanModel FeatModel.

(** node.rs:186-191 [NonTerminal]. *)
Record nonterminal := mk_nt {
  nt_label : str;
  nt_feats : option features;
  nt_span : span
}.
(** node.rs:311-318 [Terminal]. *)
Record terminal := mk_term {
  t_form : str;
  t_pos : str;
  t_lemma : option str;
  t_feats : option features;
  t_span : span
}.
(** node.rs:9-15 [Node]. *)
Inductive node := NT (n : nonterminal) | T (t : terminal).

Global Instance nonterminal_eq_dec : EqDecision nonterminal.
Proof. solve_decision. Defined.
Global Instance terminal_eq_dec : EqDecision terminal.
Proof. solve_decision. Defined.
Global Instance node_eq_dec : EqDecision node.
Proof. solve_decision. Defined.

(** node.rs:208-214 [NonTerminal::new], node.rs:338-346 [Terminal::new]. *)
Definition nt_new (label : str) (s : span) : nonterminal := mk_nt label None s.
Definition term_new (form pos : str) (idx : nat) : terminal :=
  mk_term form pos None None (span_of idx).

(** node.rs:31-36 [Node::is_terminal]. *)
Definition is_terminal (n : node) : bool := match n with T _ => true | NT _ => false end.
(** node.rs:41-56, the accessors [terminal] and [nonterminal]. *)
Definition node_terminal (n : node) : option terminal := match n with T t => Some t | NT _ => None end.
Definition node_nonterminal (n : node) : option nonterminal :=
  match n with NT t => Some t | T _ => None end.
(** node.rs:93-98 [Node::label]. *)
Definition node_label (n : node) : str := match n with NT n => nt_label n | T t => t_pos t end.
(** node.rs:111-116 [Node::features]. *)
Definition node_feats (n : node) : option features :=
  match n with NT n => nt_feats n | T t => t_feats t end.
(** node.rs:139-144 [Node::span]. *)
Definition node_span (n : node) : span := match n with NT n => nt_span n | T t => t_span t end.
(** node.rs:72-78 [Node::continuity]. *)
Definition node_continuity (n : node) : continuity := span_continuity (node_span n).

(** Field updates (node.rs:103-108, 131-136, 228-230, 362-364, 416-421). *)
Definition nt_set_span (n : nonterminal) (s : span) : nonterminal :=
  mk_nt (nt_label n) (nt_feats n) s.
Definition t_set_span (t : terminal) (s : span) : terminal :=
  mk_term (t_form t) (t_pos t) (t_lemma t) (t_feats t) s.
Definition node_put_span (n : node) (s : span) : node :=
  match n with NT n => NT (nt_set_span n s) | T t => T (t_set_span t s) end.
Definition node_set_label (n : node) (l : str) : node :=
  match n with
  | NT n => NT (mk_nt l (nt_feats n) (nt_span n))
  | T t => T (mk_term (t_form t) l (t_lemma t) (t_feats t) (t_span t))
  end.
Definition node_set_feats (n : node) (f : option features) : node :=
  match n with
  | NT n => NT (mk_nt (nt_label n) f (nt_span n))
  | T t => T (mk_term (t_form t) (t_pos t) (t_lemma t) f (t_span t))
  end.
Definition t_set_lemma (t : terminal) (l : option str) : terminal :=
  mk_term (t_form t) (t_pos t) l (t_feats t) (t_span t).

(** [features_mut().insert(k, Some(v))]: features are initialised when absent
    (node.rs:121-126, 265-272, 394-401). *)
Definition node_insert_feat (n : node) (k : str) (v : option str) : node :=
  node_set_feats n (Some (feats_insert (default ∅ (node_feats n)) k v).1).

(** node.rs:357-359 [Terminal::idx]. *)
Definition t_idx (t : terminal) : nat := sp_start (t_span t).

(** node.rs:147-160 [Node::set_span]: [Err] for a terminal and a span that is not a singleton. *)
Definition node_set_span (n : node) (s : span) : result node :=
  match n with
  | T t =>
      match sp_skips s with
      | Some _ => Err
      | None => if Nat.eqb (span_n_indices s) 1 then Ok (T (t_set_span t s)) else Err
      end
  | NT n => Ok (NT (nt_set_span n s))
  end.

(** node.rs:163-171 [Node::extend_span]. *)
Definition node_extend_span (n : node) : result node :=
  match n with
  | T _ => Err
  | NT n => Ok (NT (nt_set_span n (span_extend (nt_span n))))
  end.

(** node.rs:193-205 and 320-332 [PartialEq]; note that [form] is not compared. *)
Definition nt_eqb (a b : nonterminal) : bool :=
  (str_eqb (nt_label a) (nt_label b) && span_eqb (nt_span a) (nt_span b)
   && opt_feats_eqb (nt_feats a) (nt_feats b))%bool.
Definition term_eqb (a b : terminal) : bool :=
  (str_eqb (t_pos a) (t_pos b) && span_eqb (t_span a) (t_span b)
   && bool_decide (t_lemma a = t_lemma b) && opt_feats_eqb (t_feats a) (t_feats b))%bool.
(** node.rs:9 derived [PartialEq for Node]. *)
Definition node_eqb (a b : node) : bool :=
  match a, b with
  | NT a, NT b => nt_eqb a b
  | T a, T b => term_eqb a b
  | _, _ => false
  end.

(** edge.rs:5-9 [Edge]; derived equality. *)
Inductive edgew := Primary (l : option str) | Secondary (l : option str).
Global Instance edgew_eq_dec : EqDecision edgew.
Proof. solve_decision. Defined.
(** edge.rs:43-49, 52-57. *)
Definition is_primary (e : edgew) : bool := match e with Primary _ => true | Secondary _ => false end.
Definition edge_label (e : edgew) : option str := match e with Primary l => l | Secondary l => l end.
