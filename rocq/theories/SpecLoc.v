(** Specification of the source text of a construct. *)
From Coq Require Import List NArith Bool.
From Verif Require Import Base Ast SpecText SpecTok SpecSyntax.
Import ListNotations.

(** [p] is a primary of the definition of [r], at any depth. *)
Definition part_of (p : primary) (r : rule) : Prop :=
  exists s t, In s (r_defs r) /\ In t s /\
    (inside p (f_prim (t_factor t)) \/ exists e, t_exc t = Some e /\ inside p (f_prim e)).

(** [v] begins with a meta-identifier whose canonical name is [id], and this is as long
    as the word it ends with allows. *)
Definition begins_ident (id v : str) : Prop :=
  exists c w r ws, v = (c :: w) ++ r /\ letter c /\ words_of (c :: w) ws /\ id = unwords ws /\
    (forall x y, r = x :: y -> ~ letter x /\ ~ digit x).

(** [v] begins with the text of [p]: its opening bracket, or all of it. *)
Definition begins (p : primary) (v : str) : Prop :=
  match p with
  | POptional _ _ => exists r, v = c_lbrk :: r \/ v = c_lpar :: c_slash :: r
  | PRepeated _ _ => exists r, v = c_lbrace :: r \/ v = c_lpar :: c_colon :: r
  | PGrouped _ _ => exists r, v = c_lpar :: r
  | PMeta _ id => begins_ident id v
  | PTerminal _ s => exists q r, (q = c_squote \/ q = c_dquote) /\ ~ In q s /\ v = q :: s ++ q :: r
  | PSpecial _ s => exists r, ~ In c_quest s /\ v = c_quest :: s ++ c_quest :: r
  | PEmpty _ => True
  end.
Definition is_empty (p : primary) : Prop := match p with PEmpty _ => True | _ => False end.
