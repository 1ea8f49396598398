(** Refactoring rules: naming a part of a definition, or writing out what a name stands for. *)
From Coq Require Import String List NArith Arith Bool Relations Permutation.
From Verif Require Import Base Ast Graph SpecText SpecSyntax SpecParse SpecLaws.
Import ListNotations.
Open Scope nat_scope.

(** Definitions in the place of the name of a rule, among the rules [known]. *)
Inductive inline_law (known : list rule) : node -> node -> Prop :=
| il_loose : forall n n', loose_law n n' -> inline_law known n n'
(** In a group: at the end of a sequence, counted or with an exception, in an exception. *)
| il_last : forall id r l l', names known id r ->
    inline_law known (NSeq [just (PMeta l id)]) (NSeq [just (PGrouped l' (r_defs r))])
| il_counted : forall id r l l' n x, names known id r -> (n <> 1%N \/ x <> None) ->
    inline_law known (NTerm (Term (Factor n (PMeta l id)) x)) (NTerm (Term (Factor n (PGrouped l' (r_defs r))) x))
| il_excepted : forall id r l l' n f, names known id r ->
    inline_law known (NTerm (Term f (Some (Factor n (PMeta l id))))) (NTerm (Term f (Some (Factor n (PGrouped l' (r_defs r))))))
(** A rule of one sequence, anywhere in a sequence (without group standing by itself, since
    what follows it would not count). *)
| il_sequence : forall id r l d ts, names known id r -> r_defs r = [d] -> Forall (fun t => bare_group t = None) d ->
    inline_law known (NSeq (just (PMeta l id) :: ts)) (NSeq (d ++ ts)).

(** All references are to rules that there are. *)
Definition closed_rules (rs : list rule) : Prop := forall r l x, In r rs -> refers_deep r l x -> defined rs x.
(** Refactoring that keeps the rule named [id] as entry. *)
Inductive refactored (id : str) : list rule -> list rule -> Prop :=
| rf_refl : forall rs, refactored id rs rs
| rf_trans : forall a b c, refactored id a b -> refactored id b c -> refactored id a c
(** One place in a rule, by the definitions of the others. *)
| rf_place : forall a l x d d' b, rewrites (inline_law (a ++ b)) (NDefs d) (NDefs d') ->
    refactored id (a ++ Rule l x d :: b) (a ++ Rule l x d' :: b)
| rf_order : forall rs rs', Permutation rs rs' -> refactored id rs rs'
(** New rules, and rules that are not needed any more. *)
| rf_more : forall rs more, closed_rules rs -> defined rs id -> no_repeat (rs ++ more) -> no_dollar (rs ++ more) ->
    refactored id rs (rs ++ more)
| rf_fewer : forall rs more, closed_rules rs -> defined rs id -> refactored id (rs ++ more) rs.
