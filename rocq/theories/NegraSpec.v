(** Vocabulary for the NEGRA export format.  Nothing here calls a function of the reader or the
    writer; [print_nat] is the decimal notation, [lit] quotes a text. *)
From Verif Require Import NegraModel.
From Verif Require Export RoseSpec.

(** A text made of fields that are separated by one or more spaces. *)
Inductive spaced : list str -> str -> Prop :=
| spaced_one f : spaced [f] f
| spaced_more f k fs s : 0 < k -> spaced fs s -> spaced (f :: fs) (f ++ replicate k 32%N ++ s).

(** A missing value is written as two dashes. *)
Definition or_dashes (o : option str) : str := match o with Some s => s | None => lit "--" end.

(** The value of a feature, if it is present and has one. *)
Definition has_feat (f : option features) (k : str) (v : option str) : Prop :=
  v = match f with Some m => match m !! k with Some v => v | None => None end | None => None end.

(** The order in which the nonterminals other than the root are numbered: every one once, children
    before their parents. *)
Definition numbering (t : tree) (nts : list nat) : Prop :=
  NoDup nts /\
  (forall n, n ∈ nts <-> n <> tr_root t /\ exists nt, nodes t !! n = Some (NT nt)) /\
  (forall i j p c, nts !! i = Some p -> nts !! j = Some c -> PE (edges t) p c -> j < i).
(** The number of a nonterminal: 0 for the root, 500, 501, ... for the others. *)
Definition id_of (t : tree) (nts : list nat) (n k : nat) : Prop :=
  n = tr_root t /\ k = 0 \/ exists i, nts !! i = Some n /\ k = 500 + i.

(** The fields for the edges into a node: label and parent, and the same for a secondary edge if
    there is one. *)
Definition edge_fields (t : tree) (nts : list nat) (n : nat) (fs : list str) : Prop :=
  exists r k, r ∈ edges t /\ is_primary (e_w r) = true /\ e_tgt r = n /\ id_of t nts (e_src r) k /\
    ((forall r2, r2 ∈ edges t -> e_tgt r2 = n -> is_primary (e_w r2) = true) /\
       fs = [or_dashes (edge_label (e_w r)); print_nat k] \/
     exists r2 k2, r2 ∈ edges t /\ is_primary (e_w r2) = false /\ e_tgt r2 = n /\
       id_of t nts (e_src r2) k2 /\
       fs = [or_dashes (edge_label (e_w r)); print_nat k;
             or_dashes (edge_label (e_w r2)); print_nat k2]).
(** The line of a terminal. *)
Definition term_line (t : tree) (nts : list nat) (n : nat) (line : str) : Prop :=
  exists tm morph es, nodes t !! n = Some (T tm) /\ has_feat (t_feats tm) (lit "morph") morph /\
    edge_fields t nts n es /\
    spaced ([t_form tm; or_dashes (t_lemma tm); t_pos tm; or_dashes morph] ++ es) line.
(** The line of a nonterminal with number [k]. *)
Definition nt_line (t : tree) (nts : list nat) (k n : nat) (line : str) : Prop :=
  exists nt ann es, nodes t !! n = Some (NT nt) /\
    has_feat (nt_feats nt) (lit "node_annotation") ann /\ edge_fields t nts n es /\
    spaced ([lit "#" ++ print_nat k; lit "--";
             nt_label nt ++ match ann with Some a => lit "=" ++ a | None => [] end; lit "--"] ++ es)
           line.

(** The sentence number written: the feature of the root, or the counter. *)
Definition sid_of (t : tree) (c : nat) (sid : str) (c' : nat) : Prop :=
  exists w v, nodes t !! tr_root t = Some w /\ has_feat (node_feats w) (lit "sentence_id") v /\
    match v with Some s => sid = s /\ c' = c | None => sid = print_nat c /\ c' = c + 1 end.

(** The header and the footer; [sid] is the sentence number. *)
Definition header_line (t : tree) (sid header : str) : Prop :=
  exists w meta, nodes t !! tr_root t = Some w /\ has_feat (node_feats w) (lit "metadata") meta /\
    header = lit "#BOS " ++ sid ++ match meta with Some m => lit "  " ++ m | None => [] end.
Definition unlines (ls : list str) : str := concat (map (fun l => l ++ [10%N]) ls).

(** ** Reading *)

(** The lines that begin and end a sentence (whitespace around a line is ignored; [trim],
    [split_whitespace] and [parse_usize] are the functions of the Rust standard library). *)
Definition is_bos (l : str) : Prop := exists s, trim l = lit "#BOS" ++ s.
Definition is_eos (l : str) : Prop := exists s, trim l = lit "#EOS" ++ s.
Definition plain_line (l : str) : Prop := ~ is_bos l /\ ~ is_eos l.

(** Fields of a line: the number of the parent, of the node itself (lines starting with [#]), and of
    the parent of a secondary edge. *)
Definition fields_of (l : str) : list str := split_whitespace (trim l).
Definition parent_id (l : str) : option nat :=
  match fields_of l !! 5 with Some s => parse_usize s | None => None end.
Definition own_id (l : str) : option nat :=
  match trim l, fields_of l !! 0 with
  | 35%N :: _, Some s => parse_usize (tail s)
  | _, _ => None
  end.
Definition sec_id (l : str) : option nat :=
  match fields_of l !! 6, fields_of l !! 7 with
  | Some (37%N :: _), _ => None
  | Some _, Some s => parse_usize s
  | _, _ => None
  end.

(** A sentence in a stream: everything between a [#BOS] line and the next [#EOS] line. *)
Definition block_in (ls : list (option str)) (bos : str) (body : list str) (eos : str) : Prop :=
  is_bos bos /\ Forall plain_line body /\ is_eos eos /\
  exists pre post, ls = pre ++ Some bos :: map Some body ++ Some eos :: post.

(** The sentence has a line, and secondary edges start at the root or at a node that is the parent
    of some line. *)
Definition sound_body (body : list str) : Prop :=
  body <> [] /\
  forall l id, l ∈ body -> sec_id l = Some id -> id = 0 \/ exists l', l' ∈ body /\ parent_id l' = Some id.

(** Nonterminals have one line each, after the lines of their children; the root has none. *)
Definition bottom_up (body : list str) : Prop :=
  (forall i j l l' id, body !! i = Some l -> body !! j = Some l' -> own_id l = Some id ->
     own_id l' = Some id -> i = j) /\
  (forall l, l ∈ body -> own_id l <> Some 0) /\
  (forall i j l l' id, body !! i = Some l -> body !! j = Some l' -> own_id l = Some id ->
     parent_id l' = Some id -> j < i).

(** A line with at least six fields: the sixth is a number, a secondary edge is complete, and the
    first field of a line starting with [#] is [#] and a number. *)
Definition readable (l : str) : Prop :=
  is_Some (parent_id l) /\
  (fields_of l !! 6 = None \/ (exists s, fields_of l !! 6 = Some (37%N :: s)) \/ is_Some (sec_id l)) /\
  ((exists s, trim l = 35%N :: s) -> is_Some (own_id l)).
(** A complete sentence: a numbered header with the footer of the same number, readable lines,
    terminals first, every nonterminal has one line, after the first line that mentions it, and
    secondary edges start at known nodes. *)
Definition complete (bos : str) (body : list str) (eos : str) : Prop :=
  (exists x w num rest id,
     trim bos = lit "#BOS" ++ x ++ [w] ++ num ++ rest /\
     Forall (fun c => is_white c = false) x /\ is_white w = true /\
     Forall (fun c => is_white c = false) num /\ (rest = [] \/ exists w' s, rest = w' :: s /\ is_white w' = true) /\
     parse_usize num = Some id /\ is_eos eos /\ fields_of eos !! 1 = Some (print_nat id)) /\
  Forall plain_line body /\ Forall readable body /\ sound_body body /\
  (forall i j l l', body !! i = Some l -> body !! j = Some l' -> is_Some (own_id l) -> own_id l' = None -> j < i) /\
  (forall i j l l' id, body !! i = Some l -> body !! j = Some l' -> own_id l = Some id -> own_id l' = Some id -> i = j) /\
  (forall i l id, body !! i = Some l -> own_id l = Some id ->
     id <> 0 /\ exists j l', j < i /\ body !! j = Some l' /\ parent_id l' = Some id) /\
  (forall l id, l ∈ body -> parent_id l = Some id -> id <> 0 -> exists l', l' ∈ body /\ own_id l' = Some id).

(** ** Writing and reading back *)

(** A text without whitespace that is not empty. *)
Definition word (s : str) : Prop := s <> [] /\ Forall (fun c => is_white c = false) s.
(** A word that differs from the notation of a missing value. *)
Definition value (s : str) : Prop := word s /\ s <> lit "--".

(** Trees whose strings fit into the columns of the format: words, with the column separators of
    the format excluded where they would be read as such. *)
Record writable (t : tree) : Prop := {
  wr_root : exists nt, nodes t !! tr_root t = Some (NT nt) /\ nt_label nt = lit "VROOT" /\
    has_feat (nt_feats nt) (lit "node_annotation") None /\
    (forall s, has_feat (nt_feats nt) (lit "sentence_id") (Some s) ->
       exists k, (N.of_nat k < usize_bound)%N /\ s = print_nat k) /\
    (forall m, has_feat (nt_feats nt) (lit "metadata") (Some m) -> m <> [] /\ 10%N ∉ m /\ trim m = m);
  wr_term : forall n tm, nodes t !! n = Some (T tm) ->
    word (t_form tm) /\ (forall s, t_form tm <> lit "#" ++ s) /\ word (t_pos tm) /\
    (forall s, t_lemma tm = Some s -> value s) /\
    (forall s, has_feat (t_feats tm) (lit "morph") (Some s) -> value s);
  wr_nt : forall n nt, nodes t !! n = Some (NT nt) -> n <> tr_root t ->
    Forall (fun c => is_white c = false) (nt_label nt) /\ 61%N ∉ nt_label nt /\
    (nt_label nt = [] -> exists s, has_feat (nt_feats nt) (lit "node_annotation") (Some s)) /\
    (forall s, has_feat (nt_feats nt) (lit "node_annotation") (Some s) ->
       Forall (fun c => is_white c = false) s /\ 61%N ∉ s);
  wr_edge : forall r s, r ∈ edges t -> is_primary (e_w r) = true -> edge_label (e_w r) = Some s -> value s;
  wr_sec : forall r, r ∈ edges t -> is_primary (e_w r) = false ->
    (exists nt, nodes t !! e_src r = Some (NT nt)) /\
    (forall s, edge_label (e_w r) = Some s -> word s);
  wr_size : (N.of_nat (500 + size (nodes t)) < usize_bound)%N
}.
