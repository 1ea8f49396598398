(** Viable beginnings: texts that can be continued to a word of a rule. *)
From Coq Require Import String List NArith Arith Bool.
From Verif Require Import Base Ast Graph SpecText SpecSyntax SpecParse SpecEvents.
Import ListNotations.
Open Scope nat_scope.

(** [w] is the beginning of a word of the rule named [id]. *)
Definition viable (rules : list rule) (cfg : config) (id w : str) : Prop :=
  exists r v, names rules id r /\ lang cfg rules (NDefs (r_defs r)) (w ++ v).
(** The errors of scanners stand where the scanner started. *)
Definition local_failures (cfg : config) : Prop :=
  forall l c s x, scanned (cfg l c) l s (SFail x) -> e_loc x = p_at s.
