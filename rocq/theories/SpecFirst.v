(** The two kinds of mistakes in a text, and which of them is noticed first. *)
From Coq Require Import String List NArith Arith Bool.
From Verif Require Import Base Tokenizer Ast Lex SpecText SpecTok SpecLex SpecGram SpecFault.
Import ListNotations.
Open Scope nat_scope.

(** Behind tokens comes something that is the beginning of no token, and [e] says why. *)
Definition broken (name s : str) (e : error) : Prop :=
  exists ts l v, cuts (loc_new name) s ts l v /\ fault l v e /\ ~ unfinished v e.
(** A beginning of the text that ends with a terminator is a correct sequence of tokens, but
    not of rules; by itself it has the outcome [o]. *)
Definition wrong (name s : str) (o : res (list rule)) : Prop :=
  exists u v ts t l, s = u ++ v /\ lexes (loc_new name) u (ts ++ [t; TEOF l]) /\ terminator t /\
    parse_str name u = o /\ is_ok o = false.
