(** How deep the brackets of a rule stand inside each other. *)
From Coq Require Import List Arith.
From Verif Require Import Base Ast.
Import ListNotations.
Open Scope nat_scope.

(** The brackets of a primary, of a term, of a definition and of a list of definitions. *)
Fixpoint nest_p (p : primary) : nat :=
  let nest_d (d : list (list (term_ primary))) :=
    list_max (map (fun ts => list_max (map (fun t =>
      Nat.max (nest_p (f_prim (t_factor t)))
              (match t_exc t with Some e => nest_p (f_prim e) | None => 0 end)) ts)) d) in
  match p with
  | POptional _ d | PRepeated _ d | PGrouped _ d => S (nest_d d)
  | _ => 0
  end.
Definition nest_t (t : term) : nat :=
  Nat.max (nest_p (f_prim (t_factor t)))
          (match t_exc t with Some e => nest_p (f_prim e) | None => 0 end).
Definition nest_sd (ts : single_definition) : nat := list_max (map nest_t ts).
Definition nest_dl (d : definition_list) : nat := list_max (map nest_sd d).
