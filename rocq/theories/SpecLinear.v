(** How many instructions a parse that looks one character ahead may take. *)
From Coq Require Import List NArith Arith.
From Verif Require Import Base Ast Graph SpecParse.
Import ListNotations.
Open Scope nat_scope.

(** What there is to try in a construct, counting the body of [n * x] [n] times and that
    of a repetition twice. *)
Fixpoint primary_effort (p : primary) : nat :=
  let term_effort (t : term) : nat :=
    1 + N.to_nat (N.max 1 (f_rep (t_factor t))) * primary_effort (f_prim (t_factor t)) in
  let sequence_effort := fix sequence_effort (ts : list term) : nat :=
    match ts with [] => 0 | t :: r => term_effort t + sequence_effort r end in
  let alts_effort := fix alts_effort (ds : list (list term)) : nat :=
    match ds with [] => 0 | ts :: r => sequence_effort ts + alts_effort r end in
  match p with
  | POptional _ d => 1 + (1 + alts_effort d)
  | PRepeated _ d => 1 + 2 * (1 + alts_effort d)
  | PGrouped _ d => 1 + alts_effort d
  | _ => 1
  end.
Definition factor_effort (f : factor) : nat := 1 + N.to_nat (N.max 1 (f_rep f)) * primary_effort (f_prim f).
Definition term_effort (t : term) : nat := factor_effort (t_factor t).
Fixpoint sequence_effort (ts : list term) : nat :=
  match ts with [] => 0 | t :: r => term_effort t + sequence_effort r end.
Fixpoint alts_effort (ds : definition_list) : nat :=
  match ds with [] => 0 | ts :: r => sequence_effort ts + alts_effort r end.
Definition defs_effort (ds : definition_list) : nat := 1 + alts_effort ds.
Fixpoint syntax_effort (rs : list rule) : nat :=
  match rs with [] => 0 | r :: rest => defs_effort (r_defs r) + syntax_effort rest end.

(** What a rule takes that reads nothing, when rules tried in turn at one place are nested at
    most [d] deep. *)
Fixpoint resting (w d : nat) : nat :=
  match d with O => 1 | S d => 1 + w * resting w d end.
(** For a text of [n] characters: [n] times a number that depends on the syntax, and another. *)
Definition steps_at_rest (rs : list rule) : nat := resting (syntax_effort rs) (S (length rs)).
Definition steps_on_the_way (rs : list rule) : nat :=
  S (length rs) * (syntax_effort rs * steps_at_rest rs + 1).
Definition step_bound (rs : list rule) (n : nat) : nat :=
  steps_at_rest rs + steps_on_the_way rs + n * (2 * (steps_on_the_way rs + syntax_effort rs * steps_at_rest rs)).
