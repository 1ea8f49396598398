(** The same text at another place. *)
From Coq Require Import String List NArith Arith Bool.
From Verif Require Import Base Ast Graph SpecText SpecParse.
Import ListNotations.
Open Scope nat_scope.

Section Move.
(** The text begins at [a] in one source and at [b] in the other. *)
Variables a b : location.
(** [l] in the one source is as far into the text as [l'] in the other: on the line on which
    the text begins, or a number of lines below in the same column. *)
Definition shifted (l l' : location) : Prop :=
  l_name l = l_name a /\ l_name l' = l_name b /\
  ((exists n, l_lines l = l_lines a /\ l_lines l' = l_lines b /\
              l_columns l = (l_columns a + n)%N /\ l_columns l' = (l_columns b + n)%N) \/
   (exists k, (0 < k)%N /\ l_lines l = (l_lines a + k)%N /\ l_lines l' = (l_lines b + k)%N /\ l_columns l = l_columns l')).
Inductive shifted_event : event -> event -> Prop :=
| sv_token : forall d l l' w, shifted l l' -> shifted_event (EvToken d l w) (EvToken d l' w)
| sv_begin : forall d l l' w, shifted l l' -> shifted_event (EvBegin d l w) (EvBegin d l' w)
| sv_end : forall d l l' w, shifted l l' -> shifted_event (EvEnd d l w) (EvEnd d l' w).
Definition shifted_events : list event -> list event -> Prop := Forall2 shifted_event.
Definition shifted_error (e e' : error) : Prop := e_msg e = e_msg e' /\ shifted (e_loc e) (e_loc e').
Definition shifted_answer (x y : res (list event)) : Prop :=
  match x, y with
  | Ok evs, Ok evs' => shifted_events evs evs'
  | Err e, Err e' => shifted_error e e'
  | Panic _, Panic _ => True
  | _, _ => False
  end.

(** A scanner written by a user must not do anything with locations but hand them on. *)
Definition shifted_reaction (r r' : reaction) : Prop :=
  match r, r' with
  | RMatch evs, RMatch evs' => shifted_events evs evs'
  | RUnmatch, RUnmatch => True
  | RForward id, RForward id' => id = id'
  | _, _ => False
  end.
Inductive shifted_prog : sprog -> sprog -> Prop :=
| sp_move_ret : forall r r', shifted_reaction r r' -> shifted_prog (SpRet r) (SpRet r')
| sp_move_fail : forall e e', shifted_error e e' -> shifted_prog (SpFail e) (SpFail e')
| sp_move_read : forall k k', (forall c, shifted_prog (k c) (k' c)) -> shifted_prog (SpRead k) (SpRead k')
| sp_move_loc : forall k k', (forall l l', shifted l l' -> shifted_prog (k l) (k' l')) -> shifted_prog (SpLoc k) (SpLoc k')
| sp_move_eof : forall k k', (forall x, shifted_prog (k x) (k' x)) -> shifted_prog (SpEof k) (SpEof k')
| sp_move_prefix : forall w k k', (forall x, shifted_prog (k x) (k' x)) -> shifted_prog (SpPrefix w k) (SpPrefix w k')
| sp_move_peek : forall n k k', (forall x, shifted_prog (k x) (k' x)) -> shifted_prog (SpPeek n k) (SpPeek n k')
| sp_move_skip : forall n k k', (forall x, shifted_prog (k x) (k' x)) -> shifted_prog (SpSkip n k) (SpSkip n k')
| sp_move_mark : forall k k', shifted_prog k k' -> shifted_prog (SpMark k) (SpMark k')
| sp_move_reset : forall i k k', (forall x, shifted_prog (k x) (k' x)) -> shifted_prog (SpReset i k) (SpReset i k')
| sp_move_unmark : forall i k k', shifted_prog k k' -> shifted_prog (SpUnmark i k) (SpUnmark i k').
End Move.
(** Wherever the texts begin. *)
Definition hands_on (cfg : config) : Prop := forall l c,
  match cfg l c with ScUser _ prog => forall a b, shifted_prog a b (prog l) (prog l) | _ => True end.
