(** Which rules make a reader hold what it reads, told from the rules alone.  A pin is
    a place the reader is told to be able to come back to; what was read from a pin on
    is kept. *)
From Coq Require Import String List NArith Arith Bool.
From Verif Require Import Base Ast Graph SpecText SpecSyntax SpecParse.
Import ListNotations.
Open Scope nat_scope.

Section Hold.
Variable rules : list rule.
Variable cfg : config.

(** What begins with a pin that stays when it matches: a choice between several
    definitions, a term with an exception, a factor asked for twice or more often, a
    [CharsScanner]; and whatever begins with one of these. *)
Inductive pins : node -> Prop :=
| pn_choice : forall d1 d2 ds, pins (NDefs (d1 :: d2 :: ds))
| pn_only : forall d, pins (NSeq d) -> pins (NDefs [d])
| pn_first : forall t ts, pins (NTerm t) -> pins (NSeq (t :: ts))
| pn_except : forall f e, pins (NTerm (Term f (Some e)))
| pn_factor : forall f, pins (NFactor f) -> pins (NTerm (Term f None))
| pn_counted : forall n p, (2 <= n)%N -> pins (NFactor (Factor n p))
| pn_once : forall p, pins (NPrim p) -> pins (NFactor (Factor 1 p))
| pn_group : forall l d, pins (NDefs d) -> pins (NPrim (PGrouped l d))
| pn_ref : forall l id r, names rules id r -> pins (NDefs (r_defs r)) -> pins (NPrim (PMeta l id))
| pn_chars : forall l c p mn mx, cfg l c = ScChars p mn mx -> pins (NPrim (PSpecial l c)).

(** What never asks the reader to come back: terminals one after the other, however
    they are grouped and named. *)
Inductive flat : node -> Prop :=
| fl_only : forall d, flat (NSeq d) -> flat (NDefs [d])
| fl_one : forall t, flat (NTerm t) -> flat (NSeq [t])
| fl_more : forall t t2 ts, flat (NTerm t) -> flat (NSeq (t2 :: ts)) -> flat (NSeq (t :: t2 :: ts))
| fl_term : forall f, flat (NFactor f) -> flat (NTerm (Term f None))
| fl_factor : forall p, flat (NPrim p) -> flat (NFactor (Factor 1 p))
| fl_group : forall l d, flat (NDefs d) -> flat (NPrim (PGrouped l d))
| fl_ref : forall l id r, names rules id r -> flat (NDefs (r_defs r)) -> flat (NPrim (PMeta l id))
| fl_terminal : forall l w, flat (NPrim (PTerminal l w))
| fl_empty : forall l, flat (NPrim (PEmpty l)).
End Hold.
