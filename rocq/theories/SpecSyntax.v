(** Specification of [Syntax]: names, duplicates and references. *)
From Coq Require Import String List NArith Arith Bool.
From Verif Require Import Base Ast SpecText.
Import ListNotations.
Open Scope nat_scope.

(** Two spellings of one identifier: the same words once run together. *)
Definition same_name (a b : str) : Prop :=
  exists wa wb, words_of a wa /\ words_of b wb /\ concat wa = concat wb.

(** Rule number [i] repeats the name of the earlier rule number [j]. *)
Definition repeats (rs : list rule) (i j : nat) (r d : rule) : Prop :=
  j < i /\ nth_error rs i = Some r /\ nth_error rs j = Some d /\ same_name (r_id r) (r_id d).
Definition no_repeat (rs : list rule) : Prop := forall i j r d, ~ repeats rs i j r d.
(** The first rule that does so. *)
Definition first_repeat (rs : list rule) (r d : rule) : Prop :=
  exists i j, repeats rs i j r d /\ no_repeat (firstn i rs) /\
    Forall (fun x => canonical (r_id x)) (firstn (S i) rs).

Definition defined (rs : list rule) (id : str) : Prop :=
  exists r, In r rs /\ same_name id (r_id r).

(** References of a rule: in a factor or an exception directly in its definition. *)
Definition refers (r : rule) (l : location) (id : str) : Prop :=
  exists s t, In s (r_defs r) /\ In t s /\
    (f_prim (t_factor t) = PMeta l id \/
     exists e, t_exc t = Some e /\ f_prim e = PMeta l id).
(** References at any depth. *)
Inductive inside : primary -> primary -> Prop :=
| inside_here : forall p, inside p p
| inside_deeper : forall p q d l s t,
    (q = POptional l d \/ q = PRepeated l d \/ q = PGrouped l d) ->
    In s d -> In t s ->
    (inside p (f_prim (t_factor t)) \/ exists e, t_exc t = Some e /\ inside p (f_prim e)) ->
    inside p q.
Definition refers_deep (r : rule) (l : location) (id : str) : Prop :=
  inside (PMeta l id) (PGrouped (r_loc r) (r_defs r)).
