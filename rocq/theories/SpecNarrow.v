(** Rules whose repetition counts are [u32]s, as the type of the field demands
    (src/lex/mod.rs:253, [repetition: u32]). *)
From Coq Require Import List NArith Bool.
From Verif Require Import Base Ast.
Import ListNotations.
Open Scope N_scope.

Fixpoint u32_primary (p : primary) : bool :=
  let u32_factor (f : factor) := (f_rep f <=? 4294967295) && u32_primary (f_prim f) in
  let u32_term (t : term) := u32_factor (t_factor t) && match t_exc t with Some e => u32_factor e | None => true end in
  match p with
  | POptional _ d | PRepeated _ d | PGrouped _ d => forallb (forallb u32_term) d
  | _ => true
  end.
Definition u32_factor (f : factor) : bool := (f_rep f <=? 4294967295) && u32_primary (f_prim f).
Definition u32_term (t : term) : bool := u32_factor (t_factor t) && match t_exc t with Some e => u32_factor e | None => true end.
Definition u32_defs (d : definition_list) : bool := forallb (forallb u32_term) d.
Definition u32_rules (rs : list rule) : bool := forallb (fun r => u32_defs (r_defs r)) rs.
