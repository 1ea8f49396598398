(** The syntax tree produced by the lexer (src/lex/mod.rs:186-275) and its
    [Display] implementations. *)
From Coq Require Import String List NArith Arith Bool.
From Verif Require Import Base.
Import ListNotations.
Open Scope N_scope.

(** 251-255  [struct SyntacticFactor] (the primary is a parameter so that
    [primary] below can be a single inductive type). *)
Record factor_ (P : Type) := Factor { f_rep : N; f_prim : P }.
Arguments Factor {P} f_rep f_prim.
Arguments f_rep {P} _.
Arguments f_prim {P} _.

(** 234-238  [struct SyntacticTerm]. *)
Record term_ (P : Type) := Term { t_factor : factor_ P; t_exc : option (factor_ P) }.
Arguments Term {P} t_factor t_exc.
Arguments t_factor {P} _.
Arguments t_exc {P} _.

(** 266-275  [enum SyntacticPrimary]; [DefinitionList] (203) and
    [SingleDefinition] (218-220) are newtypes of vectors and are plain lists
    here. *)
Inductive primary :=
| POptional (l : location) (d : list (list (term_ primary)))
| PRepeated (l : location) (d : list (list (term_ primary)))
| PGrouped (l : location) (d : list (list (term_ primary)))
| PMeta (l : location) (id : str)
| PTerminal (l : location) (s : str)
| PSpecial (l : location) (s : str)
| PEmpty (l : location).

Definition factor := factor_ primary.
Definition term := term_ primary.
Definition single_definition := list term.
Definition definition_list := list single_definition.

(** 186-191  [struct SyntaxRule]. *)
Record rule := Rule { r_loc : location; r_id : str; r_defs : definition_list }.

(** 277-289  [SyntacticPrimary::location]. *)
Definition p_loc (p : primary) : location :=
  match p with
  | POptional l _ | PRepeated l _ | PGrouped l _
  | PMeta l _ | PTerminal l _ | PSpecial l _ | PEmpty l => l
  end.

(** Decimal rendering of an unsigned integer ([{}] on [u32]); [fuel] bounds the
    number of digits. *)
Fixpoint dec_digits (fuel : nat) (n : N) (acc : str) : str :=
  match fuel with
  | O => acc
  | S f =>
      let acc' := (48 + n mod 10) :: acc in
      if n <? 10 then acc' else dec_digits f (n / 10) acc'
  end.
Definition show_N (n : N) : str := dec_digits (S (N.to_nat (N.log2 n))) n [].

(** [for i in 0..n { if i != 0 { write(sep) } write(x[i]) }] *)
Fixpoint sep_concat (sep : str) (xs : list str) : str :=
  match xs with
  | [] => []
  | [x] => x
  | x :: r => x ++ sep ++ sep_concat sep r
  end.

Definition has_char (c : char) (s : str) : bool := existsb (N.eqb c) s.

(** 291-324  [impl Display for SyntacticPrimary], with 257-264
    ([SyntacticFactor]), 240-249 ([SyntacticTerm]), 222-232
    ([SingleDefinition]) and 205-215 ([DefinitionList]) inlined in the nested
    recursion. *)
Fixpoint show_primary (p : primary) : str :=
  let show_factor (f : factor_ primary) :=
    (if f_rep f =? 1 then [] else show_N (f_rep f) ++ [c_star])
    ++ show_primary (f_prim f) in
  let show_term (t : term_ primary) :=
    show_factor (t_factor t)
    ++ match t_exc t with Some e => c_minus :: show_factor e | None => [] end in
  let show_single (ts : list (term_ primary)) :=
    sep_concat [c_comma] (map show_term ts) in
  let show_defs (d : list (list (term_ primary))) :=
    sep_concat [c_bar] (map show_single d) in
  match p with
  | POptional _ d => [c_lbrk] ++ show_defs d ++ [c_rbrk]
  | PRepeated _ d => [c_lbrace] ++ show_defs d ++ [c_rbrace]
  | PGrouped _ d => [c_lpar] ++ show_defs d ++ [c_rpar]
  | PMeta _ id => id
  | PTerminal _ s =>
      let q := if negb (has_char c_squote s) then c_squote else c_dquote in
      [q] ++ s ++ [q]
  | PSpecial _ s => [c_quest] ++ s ++ [c_quest]
  | PEmpty _ => []
  end.

Definition show_factor (f : factor) : str :=
  (if f_rep f =? 1 then [] else show_N (f_rep f) ++ [c_star])
  ++ show_primary (f_prim f).
Definition show_term (t : term) : str :=
  show_factor (t_factor t)
  ++ match t_exc t with Some e => c_minus :: show_factor e | None => [] end.
Definition show_single (ts : single_definition) : str :=
  sep_concat [c_comma] (map show_term ts).
Definition show_defs (d : definition_list) : str :=
  sep_concat [c_bar] (map show_single d).

(** 193-200  [impl Display for SyntaxRule]. *)
Definition show_rule (r : rule) : str :=
  r_id r ++ [c_eq] ++ show_defs (r_defs r) ++ [c_semi].

(** src/lib.rs:275-282  [impl Display for Syntax]. *)
Definition show_rules (rs : list rule) : str := flat_map show_rule rs.
