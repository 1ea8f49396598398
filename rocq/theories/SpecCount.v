(** How many events a parse may give. *)
From Coq Require Import List NArith Arith.
From Verif Require Import Base Ast Graph SpecParse.
Import ListNotations.
Open Scope nat_scope.

(** The places of a syntax at which events may come from, counting the body of [n * x] [n]
    times. *)
Fixpoint primary_weight (p : primary) : nat :=
  let term_weight (t : term) : nat :=
    Nat.max 1 (N.to_nat (f_rep (t_factor t))) * primary_weight (f_prim (t_factor t)) in
  let sequence_weight := fix sequence_weight (ts : list term) : nat :=
    match ts with [] => 0 | t :: r => term_weight t + sequence_weight r end in
  let defs_weight := fix defs_weight (ds : list (list term)) : nat :=
    match ds with [] => 0 | ts :: r => sequence_weight ts + defs_weight r end in
  match p with
  | POptional _ d | PRepeated _ d | PGrouped _ d => defs_weight d
  | _ => 1
  end.
Definition factor_weight (f : factor) : nat := Nat.max 1 (N.to_nat (f_rep f)) * primary_weight (f_prim f).
Definition term_weight (t : term) : nat := factor_weight (t_factor t).
Fixpoint sequence_weight (ts : list term) : nat :=
  match ts with [] => 0 | t :: r => term_weight t + sequence_weight r end.
Fixpoint defs_weight (ds : definition_list) : nat :=
  match ds with [] => 0 | ts :: r => sequence_weight ts + defs_weight r end.
Fixpoint syntax_weight (rs : list rule) : nat :=
  match rs with [] => 0 | r :: rest => defs_weight (r_defs r) + syntax_weight rest end.

(** Scanners give at most [M] events when they match. *)
Definition frugal (M : nat) (cfg : config) : Prop :=
  forall l c s s' evs, scanned (cfg l c) l s (SMatch s' evs) -> length evs <= M.

(** Events of a rule that reads nothing, when rules tried in turn at one place are nested at
    most [d] deep. *)
Fixpoint idle (w M d : nat) : nat :=
  match d with O => 1 + M | S d => 2 + M + w * idle w M d end.
(** For a text of [n] characters: [n] times a number that depends on the syntax, and another. *)
Definition at_rest (rs : list rule) (M : nat) : nat := idle (syntax_weight rs) M (S (length rs)).
Definition on_the_way (rs : list rule) (M : nat) : nat :=
  S (length rs) * (syntax_weight rs * at_rest rs M + 2).
Definition event_bound (rs : list rule) (M n : nat) : nat :=
  at_rest rs M + on_the_way rs M + n * (2 * (on_the_way rs M + syntax_weight rs * at_rest rs M)).
