(** Scanners that answer alike. *)
From Coq Require Import String List NArith Arith Bool.
From Verif Require Import Base Ast Io Graph Machine SpecText SpecSyntax SpecParse SpecMachine SpecError.
Import ListNotations.
Open Scope nat_scope.

(** At every place the two scanners of a special sequence give the same answer: they match
    up to the same place with the same events, or neither matches, or both forward or fail
    alike. *)
Definition answer_alike (def : location) (a b : scanner) : Prop := forall s r, scanned a def s r <-> scanned b def s r.
(** So do the scanners that two configurations give to the special sequences of the rules. *)
Definition configs_alike (rs : list rule) (c1 c2 : config) : Prop :=
  forall l c, occurs rs (NPrim (PSpecial l c)) -> answer_alike l (c1 l c) (c2 l c).
(** And they have the same name in errors. *)
Definition symbols_alike (rs : list rule) (c1 c2 : config) : Prop :=
  forall l c, occurs rs (NPrim (PSpecial l c)) -> scanner_symbol (c1 l c) = scanner_symbol (c2 l c).
(** The same answer of a parse (how it panics left aside); the same but for the words of errors. *)
Definition same_answer (a b : res (list event)) : Prop :=
  match a, b with Ok x, Ok y => x = y | Err e, Err e' => e = e' | Panic _, Panic _ => True | _, _ => False end.
Definition same_but_words (a b : res (list event)) : Prop :=
  match a, b with Ok x, Ok y => x = y | Err e, Err e' => e_loc e = e_loc e' | Panic _, Panic _ => True | _, _ => False end.

(** A regular expression that finds, at the head of a text, between [min] and [max]
    characters of a class, as many as there are: [[...]{min,max}] anchored at the start. *)
Fixpoint run_of (p : N -> bool) (max : nat) (t : str) : nat :=
  match max, t with S m, c :: r => if p c then S (run_of p m r) else 0 | _, _ => 0 end.
Definition finds_run (p : N -> bool) (min max : nat) (find : str -> option (nat * nat)) : Prop :=
  forall t, find t = if Nat.leb min (run_of p max t) then Some (0, run_of p max t) else None.
(** A scanner of one's own that takes one character of a class. *)
Definition one_char (p : N -> bool) : location -> sprog := fun def =>
  SpLoc (fun l => SpRead (fun c =>
    match c with Some d => if p d then SpRet (RMatch [EvToken def l [d]]) else SpRet RUnmatch | None => SpRet RUnmatch end)).

(** The calls of two scanners give the same: the same reaction, with the reader at the same place
    where it goes on from there, or the same error. *)
Definition same_scan (x y : res reaction * mreader) : Prop :=
  fst x = fst y /\
  match fst x with Ok (RMatch _) | Ok (RForward _) => stand (snd x) = stand (snd y) | _ => True end.
