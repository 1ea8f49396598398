(** A part of a text is exchanged for another. *)
From Coq Require Import String List NArith Arith Bool.
From Verif Require Import Base Ast Graph SpecText SpecSyntax SpecParse SpecEvents SpecExact SpecPart.
Import ListNotations.
Open Scope nat_scope.

(** [around a z]: between the events [a] and [z] there is room for nested events; every Begin and
    End of [a] and [z] belongs to one of [a] or [z]. *)
Inductive around : list event -> list event -> Prop :=
| ar_here : forall r, nested r -> around [] r
| ar_token : forall d l t a z, around a z -> around (EvToken d l t :: a) z
| ar_inside : forall d l b a z l2 r, around a z -> nested r -> around (EvBegin d l b :: a) (z ++ EvEnd d l2 b :: r)
| ar_behind : forall d l b p l2 a z, nested p -> around a z -> around (EvBegin d l b :: p ++ EvEnd d l2 b :: a) z.

(** What an event says, but for locations. *)
Inductive saying := SayToken (w : str) | SayBegin (b : str) | SayEnd (b : str).
Definition said (e : event) : saying :=
  match e with EvToken _ _ w => SayToken w | EvBegin _ _ b => SayBegin b | EvEnd _ _ b => SayEnd b end.
(** What a scanner tells are tokens, and depends on the word it takes only, but for locations. *)
Definition says_words (cfg : config) : Prop :=
  (forall l c s s' e, scanned (cfg l c) l s (SMatch s' e) -> Forall token e) /\
  (forall l c s s' e t t' e' w, scanned (cfg l c) l s (SMatch s' e) -> scanned (cfg l c) l t (SMatch t' e') ->
     goes s w s' -> goes t w t' -> map said e = map said e').
(** Nothing is taken away from what refers to rules. *)
Definition free_references (rules : list rule) : Prop := forall f x l id,
  construct rules (NTerm (Term f (Some x))) -> ~ uses rules (NFactor f) (NPrim (PMeta l id)).
(** ** A check *)
Fixpoint no_meta (p : primary) : bool :=
  match p with
  | PMeta _ _ => false
  | POptional _ d | PRepeated _ d | PGrouped _ d =>
      forallb (forallb (fun t => match t with Term (Factor _ q) x => no_meta q && match x with Some (Factor _ y) => no_meta y | None => true end end)) d
  | _ => true
  end.
Definition no_meta_term (t : term) : bool :=
  match t with Term (Factor _ q) x => no_meta q && match x with Some (Factor _ y) => no_meta y | None => true end end.
Fixpoint free_prim (p : primary) : bool :=
  match p with
  | POptional _ d | PRepeated _ d | PGrouped _ d =>
      forallb (forallb (fun t => match t with Term (Factor _ q) x => free_prim q && match x with Some (Factor _ y) => no_meta q && free_prim y | None => true end end)) d
  | _ => true
  end.
Definition free_term (t : term) : bool :=
  match t with Term (Factor _ q) x => free_prim q && match x with Some (Factor _ y) => no_meta q && free_prim y | None => true end end.
Definition references_free (rs : list rule) : bool := forallb (fun r => forallb (forallb free_term) (r_defs r)) rs.
