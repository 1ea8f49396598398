(** Model of [AST] (src/lib.rs:370-448). *)
From Coq Require Import List.
From Verif Require Import Base.
Import ListNotations.

(** 370-375 and 444-448  [struct AST], [enum Node]. *)
Inductive ast :=
| AAtom (l : location) (name : option str) (token : str)
| AComplex (l : location) (name : option str) (children : list ast).

(** 378-399  [is_leaf], [is_node], [location], [name]. *)
Definition a_is_leaf (a : ast) : bool :=
  match a with AAtom _ _ _ => true | AComplex _ _ _ => false end.
Definition a_is_node (a : ast) : bool := negb (a_is_leaf a).
Definition a_location (a : ast) : location :=
  match a with AAtom l _ _ | AComplex l _ _ => l end.
Definition a_name (a : ast) : option str :=
  match a with AAtom _ n _ | AComplex _ n _ => n end.

(** 400-411  [AST::token]: the loop pushes the token of each child. *)
Fixpoint a_token (a : ast) : str :=
  match a with
  | AAtom _ _ t => t
  | AComplex _ _ cs => fold_left (fun buffer node => buffer ++ a_token node) cs []
  end.

(** 415-441  [with_token], [with_name], [with_children]. *)
Definition a_with_token (l : location) (t : str) : ast := AAtom l None t.
Definition a_with_name (l : location) (n t : str) : ast := AAtom l (Some n) t.
Definition a_with_children (l : location) (cs : list ast) : ast := AComplex l None cs.
