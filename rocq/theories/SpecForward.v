(** Special sequences that forward to a rule. *)
From Coq Require Import String List NArith Arith Bool.
From Verif Require Import Base Ast Graph SpecText SpecSyntax SpecParse.
Import ListNotations.
Open Scope nat_scope.

(** What is tried in the end: the body of the rule with that name or, when a dollar sign stands
    before the name, a reference to it. *)
Inductive target (rules : list rule) (id : str) : node -> Prop :=
| tg_rule : forall r, names rules id r -> target rules id (NDefs (r_defs r))
| tg_reference : forall r, In r rules -> dollar id r -> target rules id (NRef (r_loc r) (r_id r)).
(** A failure counts as a match of what was read until then. *)
Definition forgiven (o : outcome) : outcome := match o with No _ s evs => Match s evs | _ => o end.
