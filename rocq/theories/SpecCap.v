(** How many instructions a parse that ends may take. *)
From Coq Require Import List NArith Arith.
From Verif Require Import Base Ast Graph SpecParse.
Import ListNotations.
Open Scope nat_scope.

(** What there is to try in a construct, its exceptions included, counting the body of
    [n * x] [n] times and that of a repetition twice. *)
Fixpoint primary_load (p : primary) : nat :=
  let factor_load (f : factor_ primary) : nat := 1 + N.to_nat (N.max 1 (f_rep f)) * primary_load (f_prim f) in
  let term_load (t : term_ primary) : nat :=
    factor_load (t_factor t) + match t_exc t with Some e => 1 + factor_load e | None => 0 end in
  let sequence_load := fix sequence_load (ts : list (term_ primary)) : nat :=
    match ts with [] => 0 | t :: r => term_load t + sequence_load r end in
  let alts_load := fix alts_load (ds : list (list (term_ primary))) : nat :=
    match ds with [] => 0 | ts :: r => sequence_load ts + alts_load r end in
  match p with
  | POptional _ d => 1 + (1 + alts_load d)
  | PRepeated _ d => 1 + 2 * (1 + alts_load d)
  | PGrouped _ d => 1 + alts_load d
  | PSpecial _ _ => 2
  | _ => 1
  end.
Definition factor_load (f : factor) : nat := 1 + N.to_nat (N.max 1 (f_rep f)) * primary_load (f_prim f).
Definition term_load (t : term) : nat :=
  factor_load (t_factor t) + match t_exc t with Some e => 1 + factor_load e | None => 0 end.
Fixpoint sequence_load (ts : list term) : nat :=
  match ts with [] => 0 | t :: r => term_load t + sequence_load r end.
Fixpoint alts_load (ds : definition_list) : nat :=
  match ds with [] => 0 | ts :: r => sequence_load ts + alts_load r end.
Definition defs_load (ds : definition_list) : nat := 1 + alts_load ds.
Fixpoint syntax_load (rs : list rule) : nat :=
  match rs with [] => 2 | r :: rest => defs_load (r_defs r) + syntax_load rest end.

(** For a text of [n] characters: a power of a number that depends on the rules. *)
Definition step_cap (rs : list rule) (n : nat) : nat := syntax_load rs ^ ((n + 1) * (length rs + 2)).
