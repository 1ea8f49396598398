(** Specification of trees made of events: what a program does that turns the events of a
    parse into an [AST] with the constructors of src/lib.rs:415-441. *)
From Coq Require Import String List NArith Arith Bool.
From Verif Require Import Base Ast Graph Tree SpecText SpecSyntax SpecParse SpecEvents.
Import ListNotations.
Open Scope nat_scope.

(** A Begin that was not closed yet: what it tells, and the trees that came before it. *)
Record frame := Frame { fr_def : location; fr_at : location; fr_label : str; fr_before : list ast }.
(** One event after the other: a Token becomes a leaf, an End makes a node of the trees that
    came since the last open Begin.  None: an End that closes nothing or something else, or a
    Begin that stays open. *)
Fixpoint fold_events (es : list event) (open : list frame) (here : list ast) : option (list ast) :=
  match es with
  | [] => match open with [] => Some here | _ :: _ => None end
  | EvToken _ l w :: es => fold_events es open (here ++ [a_with_token l w])
  | EvBegin d l b :: es => fold_events es (Frame d l b here :: open) []
  | EvEnd d _ b :: es =>
      match open with
      | [] => None
      | f :: open =>
          if loc_eqb (fr_def f) d && str_eqb (fr_label f) b
          then fold_events es open (fr_before f ++ [a_with_children (fr_at f) here])
          else None
      end
  end.
Definition trees (es : list event) : option (list ast) := fold_events es [] [].

(** A walk through a tree, and what an event tells of it. *)
Inductive mark := MLeaf (l : location) (w : str) | MOpen (l : location) | MClose.
Fixpoint walk (t : ast) : list mark :=
  match t with
  | AAtom l _ w => [MLeaf l w]
  | AComplex l _ cs => MOpen l :: flat_map walk cs ++ [MClose]
  end.
Definition bare (e : event) : mark :=
  match e with EvToken _ l w => MLeaf l w | EvBegin _ l _ => MOpen l | EvEnd _ _ _ => MClose end.
(** [u] is [t] or a part of it. *)
Inductive part_of (u : ast) : ast -> Prop :=
| pt_self : part_of u u
| pt_child : forall l n cs c, In c cs -> part_of u c -> part_of u (AComplex l n cs).
(** The text of [u] lies ahead of [s], at the location of [u]. *)
Definition located (s : pst) (u : ast) : Prop :=
  exists w s1 s2, goes s w s1 /\ goes s1 (a_token u) s2 /\ a_location u = p_at s1.
