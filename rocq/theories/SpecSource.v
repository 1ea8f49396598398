(** What is asked of a [CharReader] of the user's under a [MarkableReader]. *)
From Coq Require Import String List NArith Arith Bool.
From Verif Require Import Base.
Import ListNotations.
Open Scope nat_scope.

(** [at_ v p]: in the state [v] the first [p] characters of the text have been given.  A read
    gives some of the next characters, how many is up to the reader; at the end it gives
    none, or fails if the text ends with a failure. *)
Definition gives (V : Type) (text : str) (ending : option error) (at_ : V -> nat -> Prop) (give : nat -> V -> res str * V) : Prop :=
  forall v p n, at_ v p -> 0 < n ->
    (exists w v' rest, give n v = (Ok w, v') /\ skipn p text = w ++ rest /\ length w <= n /\ (w = [] -> rest = [] /\ ending = None) /\ at_ v' (p + length w)) \/
    (exists e v', give n v = (Err e, v') /\ ending = Some e /\ skipn p text = [] /\ at_ v' p).
