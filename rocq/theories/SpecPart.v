(** Parts of the events of a parse. *)
From Coq Require Import String List NArith Arith Bool.
From Verif Require Import Base Ast Graph SpecText SpecSyntax SpecParse SpecEvents.
Import ListNotations.
Open Scope nat_scope.

(** [encloses d l b inner l2 es]: among the events [es] there is a Begin for [b] at [l], and [inner]
    is what comes before the End that belongs to it, which is at [l2]. *)
Inductive encloses (d l : location) (b : str) (inner : list event) (l2 : location) : list event -> Prop :=
| en_here : forall r, nested inner -> nested r -> encloses d l b inner l2 (EvBegin d l b :: inner ++ EvEnd d l2 b :: r)
| en_token : forall d1 l1 t r, encloses d l b inner l2 r -> encloses d l b inner l2 (EvToken d1 l1 t :: r)
| en_inside : forall d1 l1 b1 a l3 r, encloses d l b inner l2 a -> nested a -> nested r ->
    encloses d l b inner l2 (EvBegin d1 l1 b1 :: a ++ EvEnd d1 l3 b1 :: r)
| en_behind : forall d1 l1 b1 a l3 r, encloses d l b inner l2 r -> nested a -> nested r ->
    encloses d l b inner l2 (EvBegin d1 l1 b1 :: a ++ EvEnd d1 l3 b1 :: r).

(** What a scanner tells are tokens, and depends on the word it takes and where that stands only
    (and not on what follows the word). *)
Definition token (e : event) : Prop := match e with EvToken _ _ _ => True | _ => False end.
Definition tells_words (cfg : config) : Prop :=
  (forall l c s s' e, scanned (cfg l c) l s (SMatch s' e) -> Forall token e) /\
  (forall l c s s' e t t' e' w, scanned (cfg l c) l s (SMatch s' e) -> scanned (cfg l c) l t (SMatch t' e') ->
     goes s w s' -> goes t w t' -> p_at s = p_at t -> e = e').

(** Texts one after the other, from the location [l] on, and for each the events that [told] finds
    for it where it stands. *)
Inductive in_turn (told : location -> str -> list event -> Prop) : location -> list str -> list (list event) -> Prop :=
| it_end : forall l, in_turn told l [] []
| it_more : forall l w l2 ws es ess, told l w es -> reaches l w l2 -> in_turn told l2 ws ess -> in_turn told l (w :: ws) (es :: ess).
