(** Specification of texts that cannot be saved any more. *)
From Coq Require Import List NArith Bool.
From Verif Require Import Base Lex SpecTok SpecLex.
Import ListNotations.

(** No text that continues [s] can be cut into tokens. *)
Definition hopeless (name s : str) : Prop :=
  forall v ts, ~ lexes (loc_new name) (s ++ v) ts.

(** All the calls for a list of fragments, going on after failures. *)
Definition calls (lx : lexer) (fs : list fragment) : lexer :=
  fold_left (fun lx f => fst (call lx f)) fs lx.
