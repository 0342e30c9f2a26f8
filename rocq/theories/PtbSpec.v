(** Specification of bracketed trees: the language of well-bracketed texts, and what the labels of
    the three formats mean.  No function of the model is used, only its data types. *)
From Verif Require Export PtbModel RoseSpec.

(** Separators: spaces and line breaks. *)
Definition blank (s : str) : Prop := Forall (fun c => c ∈ [32; 10; 13]%N) s.
(** Labels and words: non-empty, no blanks, no brackets. *)
Definition word (s : str) : Prop := s <> [] /\ Forall (fun c => c ∉ [32; 10; 13; 40; 41]%N) s.

(** [G a s]: the text [s] is the bracketed tree [a]; [GS]: a sequence of bracketed trees with blanks
    before, between and after. *)
Inductive G : ast -> str -> Prop :=
| G_pre label form b1 b2 b3 :
    word label -> word form -> blank b1 -> blank b2 -> b2 <> [] -> blank b3 ->
    G (APre label form) ([40%N] ++ b1 ++ label ++ b2 ++ form ++ b3 ++ [41%N])
| G_node label cs b1 body :
    word label -> blank b1 -> cs <> [] -> GS cs body ->
    G (ANode label cs) ([40%N] ++ b1 ++ label ++ body ++ [41%N])
with GS : list ast -> str -> Prop :=
| GS_nil b : blank b -> GS [] b
| GS_cons a cs b s s' : blank b -> G a s -> GS cs s' -> GS (a :: cs) (b ++ s ++ s').

Scheme G_mut := Minimality for G Sort Prop
  with GS_mut := Minimality for GS Sort Prop.

(** A whole line / file: one tree with blanks around it. *)
Definition bracketed (a : ast) (s : str) : Prop :=
  exists b1 s0 b2, s = b1 ++ s0 ++ b2 /\ blank b1 /\ blank b2 /\ G a s0.

(** *** Labels *)
(** [cut c s p q]: [p] is the part of [s] before the first [c], [q] the part after it if there is
    one. *)
Inductive cut (c : char) : str -> str -> option str -> Prop :=
| cut_none s : c ∉ s -> cut c s s None
| cut_some p q : c ∉ p -> cut c (p ++ c :: q) p (Some q).
(** The first [c]-separated field of an optional text. *)
Inductive field (c : char) : option str -> option str -> Prop :=
| field_none : field c None None
| field_some s p q : cut c s p q -> field c (Some s) (Some p).

(** [label_of f l lab edge ann]: in format [f] the label text [l] consists of label, edge label and
    annotation. *)
Inductive label_of : ptb_format -> str -> str -> option str -> option str -> Prop :=
| lo_simple l : label_of Simple l l None None
| lo_ptb_plain l : 45%N ∉ l -> label_of PTB l l None None
| lo_ptb_ann a b : 45%N ∉ a -> label_of PTB (a ++ 45%N :: b) a None (Some (45%N :: b))
| lo_tueba l tag o1 e lab o2 ann :
    cut 58%N l tag o1 -> field 58%N o1 e -> cut 61%N tag lab o2 -> field 61%N o2 ann ->
    label_of TueBa l lab (if decide (e = Some [45; 45]%N) then None else e) ann.

(** [ast_rose f a edge r]: the bracketed tree [a] read in format [f] is the constituency tree [r]
    with edge label [edge] above it. *)
Inductive ast_rose (f : ptb_format) : ast -> option str -> rose -> Prop :=
| ar_pre label form tag edge ann tm :
    label_of f label tag edge ann -> t_form tm = form -> t_pos tm = tag ->
    t_lemma tm = None -> t_feats tm = None -> ast_rose f (APre label form) edge (RLeaf tm)
| ar_node label cs lab edge ann nt ds :
    label_of f label lab edge ann -> nt_label nt = lab ->
    nt_feats nt = match ann with Some a => Some {[ lit "node_annotation" := Some a ]} | None => None end ->
    Forall2 (fun c d => ast_rose f c d.1 d.2) cs ds ->
    ast_rose f (ANode label cs) edge (RNode nt ds).

(** *** Writing *)

(** The node annotation of a nonterminal. *)
Definition annotated (nt : nonterminal) (a : str) : Prop :=
  exists m, nt_feats nt = Some m /\ m !! lit "node_annotation" = Some (Some a).
Definition same_annotation (a b : nonterminal) : Prop := forall s, annotated a s <-> annotated b s.

(** No blank, no bracket, none of the given characters. *)
Definition plain (no : list char) (s : str) : Prop :=
  Forall (fun c => c ∉ [32; 10; 13; 40; 41]%N ++ no) s.

(** The strings of a tree that can be told apart again in the written text. *)
Definition edge_fits (e : option str) : Prop :=
  forall s, e = Some s -> plain [58%N] s /\ s <> lit "--".
Definition term_fits (f : ptb_format) (e : option str) (tm : terminal) : Prop :=
  word (t_form tm) /\
  match f with
  | Simple => word (t_pos tm)
  | PTB => word (t_pos tm) /\ 45%N ∉ t_pos tm
  | TueBa => plain [58%N; 61%N] (t_pos tm) /\ edge_fits e
  end.
Definition nt_fits (f : ptb_format) (e : option str) (nt : nonterminal) : Prop :=
  match f with
  | Simple => word (nt_label nt)
  | PTB => word (nt_label nt) /\ 45%N ∉ nt_label nt /\ forall a, annotated nt a -> plain [] a
  | TueBa => plain [58%N; 61%N] (nt_label nt) /\ (forall a, annotated nt a -> plain [58%N; 61%N] a) /\ edge_fits e
  end.
Inductive fits (f : ptb_format) : option str -> rose -> Prop :=
| fits_leaf e tm : term_fits f e tm -> fits f e (RLeaf tm)
| fits_node e nt cs : nt_fits f e nt -> Forall (fun c => fits f c.1 c.2) cs -> fits f e (RNode nt cs).

(** The strings of a tree that leave the text a bracketed tree: brackets in words and tags are
    allowed (they are escaped). *)
Definition unblank (s : str) : Prop := Forall (fun c => c ∉ [32; 10; 13]%N) s.
Definition term_printable (f : ptb_format) (e : option str) (tm : terminal) : Prop :=
  t_form tm <> [] /\ unblank (t_form tm) /\ unblank (t_pos tm) /\
  match f with
  | TueBa => forall s, e = Some s -> plain [] s
  | _ => t_pos tm <> []
  end.
Definition nt_printable (f : ptb_format) (e : option str) (nt : nonterminal) : Prop :=
  plain [] (nt_label nt) /\
  match f with
  | Simple => nt_label nt <> []
  | PTB => nt_label nt <> [] /\ forall a, annotated nt a -> plain [] a
  | TueBa => (forall a, annotated nt a -> plain [] a) /\ forall s, e = Some s -> plain [] s
  end.
Inductive printable (f : ptb_format) : option str -> rose -> Prop :=
| pr_leaf e tm : term_printable f e tm -> printable f e (RLeaf tm)
| pr_node e nt cs : nt_printable f e nt -> Forall (fun c => printable f c.1 c.2) cs -> printable f e (RNode nt cs).

(** The words of a bracketed tree from left to right. *)
Fixpoint words (a : ast) : list str :=
  match a with
  | APre _ form => [form]
  | ANode _ cs => concat (map words cs)
  end.
(** [escaped s s']: [s'] is [s] with every "(" written as "LBR" and every ")" as "RBR". *)
Inductive escaped : str -> str -> Prop :=
| esc_nil : escaped [] []
| esc_open s s' : escaped s s' -> escaped (40%N :: s) (lit "LBR" ++ s')
| esc_close s s' : escaped s s' -> escaped (41%N :: s) (lit "RBR" ++ s')
| esc_other c s s' : c <> 40%N -> c <> 41%N -> escaped s s' -> escaped (c :: s) (c :: s').

Inductive balanced : str -> Prop :=
| bal_nil : balanced []
| bal_other c s : c <> 40%N -> c <> 41%N -> balanced s -> balanced (c :: s)
| bal_pair s1 s2 : balanced s1 -> balanced s2 -> balanced (40%N :: s1 ++ 41%N :: s2).

(** No brackets in labels, annotations and edge labels. *)
Definition bracketless (s : str) : Prop := 40%N ∉ s /\ 41%N ∉ s.
Inductive labels_bracketless : option str -> rose -> Prop :=
| lb_leaf e tm : (forall s, e = Some s -> bracketless s) -> labels_bracketless e (RLeaf tm)
| lb_node e nt cs :
    (forall s, e = Some s -> bracketless s) -> bracketless (nt_label nt) ->
    (forall a, annotated nt a -> bracketless a) ->
    Forall (fun c => labels_bracketless c.1 c.2) cs -> labels_bracketless e (RNode nt cs).

(** What reading a written tree preserves. *)
Definition term_kept (a b : terminal) : Prop :=
  t_form a = t_form b /\ t_pos a = t_pos b /\ t_span a = t_span b.
Definition nt_kept (f : ptb_format) (a b : nonterminal) : Prop :=
  nt_label a = nt_label b /\ nt_span a = nt_span b /\
  match f with
  | Simple => forall s, ~ annotated b s
  | PTB => forall s, annotated b s <-> exists s', s = 45%N :: s' /\ annotated a s'
  | TueBa => same_annotation a b
  end.
Definition edge_kept (f : ptb_format) (a b : option str) : Prop :=
  match f with TueBa => a = b | _ => b = None end.

(** *** Streams of lines *)
Definition opens (s : str) : nat := length (filter (fun c => c = 40%N) s).
Definition closes (s : str) : nat := length (filter (fun c => c = 41%N) s).
Definition comment (l : str) : Prop := exists s, l = 37%N :: s.

(** Lines that begin a tree which is not finished yet: after every line more brackets have been
    opened than closed. *)
Definition unfinished (g : list str) : Prop :=
  (exists l g', g = l :: g' /\ l <> [] /\ ~ comment l) /\
  forall i, 0 < i <= length g -> closes (concat (take i g)) < opens (concat (take i g)).
(** Lines up to the first one after which all brackets are closed. *)
Definition balanced_group (g : list str) : Prop :=
  (exists l g', g = l :: g' /\ l <> [] /\ ~ comment l) /\
  closes (concat g) = opens (concat g) /\
  forall i, 0 < i < length g -> closes (concat (take i g)) < opens (concat (take i g)).

(** The results of reading a stream in the two modes; [None] is a failing read of a line, [parse]
    gives the result for the text of one tree. *)
Inductive single_results {R} (parse : str -> R -> Prop) (err : R) : list (option str) -> list R -> Prop :=
| sr_nil : single_results parse err [] []
| sr_comment l ls rs : comment l -> single_results parse err ls rs -> single_results parse err (Some l :: ls) rs
| sr_line l ls r rs : ~ comment l -> parse l r -> single_results parse err ls rs ->
    single_results parse err (Some l :: ls) (r :: rs)
| sr_io ls rs : single_results parse err ls rs -> single_results parse err (None :: ls) (err :: rs).
Inductive multi_results {R} (parse : str -> R -> Prop) (err : R) : list (option str) -> list R -> Prop :=
| mr_nil : multi_results parse err [] []
| mr_skip l ls rs : l = [] \/ comment l -> multi_results parse err ls rs ->
    multi_results parse err (Some l :: ls) rs
| mr_group g ls r rs : balanced_group g -> parse (concat g) r -> multi_results parse err ls rs ->
    multi_results parse err (map Some g ++ ls) (r :: rs)
| mr_io ls rs : multi_results parse err ls rs -> multi_results parse err (None :: ls) (err :: rs)
| mr_io_inside g ls rs : unfinished g -> multi_results parse err ls rs ->
    multi_results parse err (map Some g ++ None :: ls) (err :: rs)
| mr_eof g : unfinished g -> multi_results parse err (map Some g) [].
