(** Specification of places in a text that stands after another text. *)
From Coq Require Import List NArith Bool.
From Verif Require Import Base.

(** [after o l]: the place that is [l] counted from [o] instead of from 1:1. *)
Definition after (o l : location) : location :=
  Loc (l_name o) (l_lines o + l_lines l - 1)
      (if N.eqb (l_lines l) 1 then (l_columns o + l_columns l - 1)%N else l_columns l).
