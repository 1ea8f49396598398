(** Specification of what happens to the marks of a caller. *)
From Coq Require Import List NArith Arith.
From Verif Require Import Base Io Graph Machine SpecParse SpecMachine.
Open Scope nat_scope.

(** Every mark that [rd] could go back to or release, [rd'] can go back to or release:
    going back leads to the same place, counts the characters from there to where
    [rd'] stands, and releasing leaves [rd'] where it stands. *)
Definition keeps_marks (rd rd' : mreader) : Prop := forall k n rd1, m_reset k rd = (Ok n, rd1) ->
  (exists n' rd2, m_reset k rd' = (Ok n', rd2) /\ stand rd2 = stand rd1 /\ length (unread rd') + n' = length (unread rd1)) /\
  (exists rd2, m_unmark k rd' = (Ok tt, rd2) /\ stand rd2 = stand rd').

(** What the parsing machine is told by a scanner whose answer is [r]. *)
Definition answers (x : res reaction * mreader) (r : sres) : Prop :=
  match r with
  | SMatch s' evs => fst x = Ok (RMatch evs) /\ stand (snd x) = s'
  | SForward id s' => fst x = Ok (RForward id) /\ stand (snd x) = s'
  | SUnmatch => fst x = Ok RUnmatch
  | SFail e => fst x = Err e
  end.
