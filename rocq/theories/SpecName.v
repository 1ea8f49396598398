(** The name of the source of a syntax. *)
From Coq Require Import String List NArith Arith Bool.
From Verif Require Import Base Tokenizer Ast Lex Syntax SpecText SpecSyntax SpecLex SpecLike.
Import ListNotations.
Open Scope nat_scope.

(** The same line and column in the source [n]. *)
Definition in_source (n : str) (l : location) : location := Loc n (l_lines l) (l_columns l).
(** The place an empty definition in empty brackets gets (C53). *)
Definition unplaced : location := loc_new (of_string "<unknown>").
Section Names.
Variables n1 n2 : str.
Definition renamed_place (l l' : location) : Prop :=
  (l_name l = n1 /\ l' = in_source n2 l) \/ (l = unplaced /\ l' = unplaced).
Definition renamed_rule : rule -> rule -> Prop := like_rule renamed_place eq.
Definition renamed_error (e e' : error) : Prop := e_msg e = e_msg e' /\ renamed_place (e_loc e) (e_loc e').
(** Answers with related values, with related errors, with the same panic. *)
Definition renamed_res {A} (r : A -> A -> Prop) (x y : res A) : Prop :=
  match x, y with
  | Ok a, Ok b => r a b
  | Err e, Err e' => renamed_error e e'
  | Panic p, Panic q => p = q
  | OutOfFuel, OutOfFuel => True
  | _, _ => False
  end.
Definition renamed_rules : list rule -> list rule -> Prop := Forall2 renamed_rule.
Definition renamed_option (x y : option rule) : Prop :=
  match x, y with Some r, Some r' => renamed_rule r r' | None, None => True | _, _ => False end.
Definition renamed_observation (x y : hresult) : Prop :=
  match x, y with
  | ROpt a, ROpt b => renamed_res renamed_option a b
  | RList a, RList b => renamed_res renamed_rules a b
  | RNone, RNone => True
  | _, _ => False
  end.
Definition renamed_syntax (x y : syntax) : Prop :=
  sy_names x = sy_names y /\ sy_index x = sy_index y /\ renamed_rules (sy_rules x) (sy_rules y).
End Names.
