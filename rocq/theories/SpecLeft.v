(** Specification of where a parse that fails leaves the reader. *)
From Coq Require Import String List NArith Arith Bool.
From Verif Require Import Base Ast Graph SpecText SpecSyntax SpecParse.
Import ListNotations.
Open Scope nat_scope.

Section Rules.
Variable rules : list rule.
Variable cfg : config.
(** [gives_up n s s']: at [s], [n] fails, and it leaves the reader at [s'].  A choice of
    several definitions and a term with an exception go back to where they started; anything
    else stays where the part that failed has left the reader. *)
Inductive gives_up : node -> pst -> pst -> Prop :=
| gu_terminal : forall l w s, fails rules cfg (NPrim (PTerminal l w)) s -> gives_up (NPrim (PTerminal l w)) s s
| gu_special : forall l c s, fails rules cfg (NPrim (PSpecial l c)) s -> gives_up (NPrim (PSpecial l c)) s s
| gu_meta : forall l id s s', gives_up (NRef l id) s s' -> gives_up (NPrim (PMeta l id)) s s'
| gu_grouped : forall l d s s', gives_up (NDefs d) s s' -> gives_up (NPrim (PGrouped l d)) s s'
| gu_ref : forall l id r s s', names rules id r -> gives_up (NDefs (r_defs r)) s s' -> gives_up (NRef l id) s s'
| gu_choice : forall d1 d2 ds s, fails rules cfg (NDefs (d1 :: d2 :: ds)) s -> gives_up (NDefs (d1 :: d2 :: ds)) s s
| gu_single : forall ts s s', gives_up (NSeq ts) s s' -> gives_up (NDefs [ts]) s s'
| gu_group : forall t ts d s s', bare_group t = Some d -> gives_up (NDefs d) s s' -> gives_up (NSeq (t :: ts)) s s'
| gu_here : forall t ts s s', bare_group t = None -> gives_up (NTerm t) s s' -> gives_up (NSeq (t :: ts)) s s'
| gu_later : forall t ts s e s1 s', bare_group t = None -> matches rules cfg (NTerm t) s s1 e -> gives_up (NSeq ts) s1 s' ->
    gives_up (NSeq (t :: ts)) s s'
| gu_except : forall f e s, fails rules cfg (NTerm (Term f (Some e))) s -> gives_up (NTerm (Term f (Some e))) s s
| gu_plain : forall f s s', gives_up (NFactor f) s s' -> gives_up (NTerm (Term f None)) s s'
| gu_once : forall p s s', gives_up (NPrim p) s s' -> gives_up (NFactor (Factor 1 p)) s s'
| gu_times : forall n p k s s1 e s', n <> 1%N -> fails rules cfg (NFactor (Factor n p)) s ->
    rounds rules cfg (NPrim p) k s s1 e -> k < N.to_nat n -> gives_up (NPrim p) s1 s' ->
    gives_up (NFactor (Factor n p)) s s'.
End Rules.
