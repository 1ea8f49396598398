(** How large a syntax is, and how deep a parse may go. *)
From Coq Require Import List NArith Arith.
From Verif Require Import Base Ast.
Import ListNotations.
Open Scope nat_scope.

(** The size of a syntax: its signs, and the numbers in front of its factors. *)
Fixpoint primary_size (p : primary) : nat :=
  let factor_size (f : factor) : nat := 2 + N.to_nat (f_rep f) + primary_size (f_prim f) in
  let term_size (t : term) : nat :=
    1 + factor_size (t_factor t) + match t_exc t with Some e => factor_size e | None => 0 end in
  let sequence_size := fix sequence_size (ts : list term) : nat :=
    match ts with [] => 0 | t :: r => term_size t + sequence_size r end in
  let defs_size := fix defs_size (ds : list (list term)) : nat :=
    match ds with [] => 1 | ts :: r => sequence_size ts + defs_size r end in
  match p with
  | POptional _ d | PRepeated _ d | PGrouped _ d => 3 + defs_size d
  | _ => 1
  end.
Definition factor_size (f : factor) : nat := 2 + N.to_nat (f_rep f) + primary_size (f_prim f).
Definition term_size (t : term) : nat :=
  1 + factor_size (t_factor t) + match t_exc t with Some e => factor_size e | None => 0 end.
Fixpoint sequence_size (ts : list term) : nat :=
  match ts with [] => 0 | t :: r => term_size t + sequence_size r end.
Fixpoint defs_size (ds : definition_list) : nat :=
  match ds with [] => 1 | ts :: r => sequence_size ts + defs_size r end.
Fixpoint syntax_size (rs : list rule) : nat :=
  match rs with [] => 0 | r :: rest => defs_size (r_defs r) + syntax_size rest end.
(** Enough for [n] characters: each of them is reached through at most all rules. *)
Definition depth_bound (rs : list rule) (n : nat) : nat :=
  3 + S n * (S (length rs) * S (syntax_size rs)).
