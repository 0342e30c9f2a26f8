(** Model of /repo/lumberjack/src/io/conllx.rs: conversion between trees and CONLL-X sentences. *)
From Coq Require Import ZArith.
From Verif Require Export EncModel.

(** [conllx::token::Token] of the external crate [conllx], restricted to the columns that
    conllx.rs writes or reads.  A [Sentence] is the list of its tokens; the artificial root node that
    the crate keeps in front is skipped by [filter_map(Node::token)] (conllx.rs:52, 88). *)
Record token := mk_tok {
  k_form : str;
  k_lemma : option str;
  k_pos : option str;
  k_feats : option str
}.
(** [conllx::token::Features::as_map] (external crate, trusted): pieces separated by ['|'], each split
    at [':'] into a key and an optional value; later keys replace earlier ones. *)
Definition feats_as_map (s : str) : features := feats_from_iter (map feat_piece (split_char 124%N s)).

(** ** Trees to sentences *)
(** conllx.rs:132-142 [From<&Terminal> for Token]. *)
Definition token_of (tm : terminal) : token :=
  mk_tok (t_form tm) (t_lemma tm) (Some (t_pos tm)) (feats_to_string <$> t_feats tm).
(** conllx.rs:170-179 [From<&Tree> for Sentence]; conllx.rs:125-129 [to_conllx] calls it. *)
Definition to_conllx (t : tree) : outcome (list token) :=
  mapO (fun n => w ← node_at t n; tm ← unwrap (node_terminal w); Ret (token_of tm)) (sort_indices t (terminals t)).
(** The terminal after its parts were moved out (conllx.rs:152-158): [set_form(String::new())],
    [set_lemma(None)], [set_label(String::new())], [set_features(None)]. *)
Definition emptied (tm : terminal) : terminal := mk_term [] [] None None (t_span tm).
(** conllx.rs:151-160, the loop of the consuming conversion. *)
Fixpoint move_tokens (t : tree) (l : list nat) (acc : list (token * nat)) : outcome (list (token * nat)) :=
  match l with
  | [] => Ret acc
  | n :: l =>
      w ← node_at t n;
      tm ← unwrap (node_terminal w);
      let k := mk_tok (t_form tm) (t_lemma tm) (Some (t_pos tm)) (feats_to_string <$> t_feats tm) in
      let tm' := emptied tm in
      move_tokens (put_node t n (T tm')) l (acc ++ [(k, sp_start (t_span tm'))])
  end.
(** conllx.rs:144-168 [From<Tree> for Sentence]. *)
Definition into_conllx (t : tree) : outcome (list token) :=
  tokens ← move_tokens t (sort_indices t (terminals t)) [];
  Ret (map fst (sort_by (fun a b => Nat.compare a.2 b.2) tokens)).

(** ** Sentences to trees *)
(** conllx.rs:53-77 and 89-113, one token: the ancestor tag and the chain label. *)
Definition read_tag {A} (key : str) (try_from : str -> result A) (k : token) : result (option A * option str) :=
  match k_feats k with
  | None => Err
  | Some f =>
      match feats_as_map f !! key with
      | Some (Some s) =>
          match split_char tilde s with
          | [] => Err
          | a :: parts =>
              let chain := match parts with c :: _ => if str_eqb c [] then None else Some c | [] => None end in
              if str_eqb a (lit "NONE") then Ok (None, chain)
              else match try_from a with Ok x => Ok (Some x, chain) | Err => Err end
          end
      | _ => Err
      end
  end.
(** conllx.rs:52-79 and 88-115, the loop over the tokens. *)
Fixpoint read_tokens {A} (key : str) (try_from : str -> result A) (idx : nat) (l : list token)
    : result (list (option A * option str) * list terminal) :=
  match l with
  | [] => Ok ([], [])
  | k :: l =>
      match read_tag key try_from k with
      | Err => Err
      | Ok x =>
          let tm := term_new (k_form k) (default (lit "_") (k_pos k)) idx in
          match read_tokens key try_from (S idx) l with
          | Ok (e, terms) => Ok (x :: e, tm :: terms)
          | Err => Err
          end
      end
  end.
(** conllx.rs:80-82 and 120-122. *)
Definition decode_restore (e : abs_enc) (terms : list terminal) : outcome (result tree) :=
  t ← decode e terms;
  '(t, r) ← restore_unary_chains t (lit "_");
  Ret (match r with Ok _ => Ok t | Err => Err end).
(** conllx.rs:49-83 [try_from_conllx_with_absolute_encoding]. *)
Definition from_conllx_absolute (l : list token) : outcome (result tree) :=
  match read_tokens ABS_KEY abs_try_from 0 l with
  | Err => Ret Err
  | Ok (e, terms) => decode_restore e terms
  end.
(** conllx.rs:85-123 [try_from_conllx_with_relative_encoding]. *)
Definition from_conllx_relative (l : list token) : outcome (result tree) :=
  match read_tokens REL_KEY rel_try_from 0 l with
  | Err => Ret Err
  | Ok (e, terms) =>
      r ← try_from_relative e;
      e ← match r with CSuccess e => Ret e | CError err => fix_error err end;
      decode_restore e terms
  end.
