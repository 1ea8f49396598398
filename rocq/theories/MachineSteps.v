(** How many instructions the machine of Machine.v executes: the number of turns of
    the loop of [parse_to_subroutine_end] (src/parser/machine.rs:44-137), those of
    the calls it makes of itself included.  These functions follow [run] line by
    line and change nothing in it: each asks [run] for the result of what it is
    about to count, and goes on from there. *)
From Coq Require Import String List NArith Arith Bool.
From Verif Require Import Base Ident Tokenizer Ast Lex Syntax Io Graph Machine.
Import ListNotations.
Open Scope nat_scope.

(** What is counted after [m], if [m] ends normally. *)
Definition upon {A} (m : M A) (k : A -> mreader -> nat) : mreader -> nat := fun r =>
  match m r with (Ok a, r') => k a r' | _ => 0 end.
Notation "'upon!' x := m 'in' k" := (upon m (fun x => k))
  (at level 200, x pattern, m at level 100, k at level 200).
Definition nothing : mreader -> nat := fun _ => 0.
Definition both (a b : mreader -> nat) : mreader -> nat := fun r => a r + b r.

Section Steps.
Variable debug : bool.
Variable g : graph.

(** machine.rs:56-79  within [Step::Repetition]. *)
Fixpoint rep_steps (sub : list event -> M (prospect * list event)) (cnt : list event -> mreader -> nat)
    (fuel : nat) (min max i : N) (temp : list event) : mreader -> nat :=
  match fuel with
  | O => nothing
  | S f =>
      if N.ltb i max then
        upon! loc := m_location in
        upon! mark := m_mark debug in
        both (cnt temp)
          (upon! (p, temp) := sub temp in
           match p with
           | NotThisWay _ => nothing
           | Proceed =>
               upon! loc' := m_location in
               if (N.eqb max u32_max && loc_eqb loc' loc)%bool then nothing
               else rep_steps sub cnt f min max (i + 1)%N temp
           end)
      else nothing
  end.

(** machine.rs:82-95  within [Step::Or]. *)
Fixpoint or_steps (sub : nat -> M (prospect * list event)) (cnt : nat -> mreader -> nat)
    (subs : list nat) : mreader -> nat :=
  match subs with
  | [] => nothing
  | s :: rest =>
      upon! mark := m_mark debug in
      both (cnt s)
        (upon! (p, _) := sub s in
         match p with
         | Proceed => nothing
         | NotThisWay _ => upon! _ := m_reset mark in or_steps sub cnt rest
         end)
  end.

(** machine.rs:290-335  within [TermWithExceptionScanner::scan]. *)
Definition except_steps (sub : subrun) (cnt : nat -> list event -> mreader -> nat)
    (fuel factor exc : nat) : mreader -> nat :=
  upon! begin := m_location in
  upon! mark := m_mark debug in
  both (cnt factor [])
    (upon! (p, _) := sub factor [] in
     match p with
     | NotThisWay _ => nothing
     | Proceed =>
         upon! end_ := m_location in
         upon! _ := m_reset mark in
         upon! _ := m_mark debug in
         upon! buffer := capture_loop debug fuel end_ in
         upon! l := m_location in
         if (debug && negb (loc_eqb end_ l))%bool then nothing
         else fun _ => cnt exc [] (mr_of_text begin buffer)
     end).

(** machine.rs:219-255  within [SpecialSequenceScanner::scan]. *)
Definition special_steps (cnt : nat -> list event -> mreader -> nat) (fuel : nat) (ins : instr)
    (sc : scanner) (events : list event) : mreader -> nat :=
  upon! mark := m_mark debug in
  upon! rc := special_scan debug fuel sc (i_def ins) in
  match rc with
  | RForward id =>
      match g_label g id with
      | Some next => upon! _ := m_unmark mark in cnt next events
      | None => nothing
      end
  | _ => nothing
  end.

(** machine.rs:44-137  the instructions executed by [run fuel next events]. *)
Fixpoint ticks (fuel : nat) (next : option nat) (events : list event) : mreader -> nat :=
  match fuel with
  | O => nothing
  | S f =>
      match next with
      | None => nothing
      | Some addr =>
          match nth_error (g_instrs g) addr with
          | None => nothing
          | Some ins =>
              let sub : subrun := fun a evs => run debug g f (Some a) evs in
              let cnt := fun a evs => ticks f (Some a) evs in
              let continue (pe : prospect * list event) :=
                let '(p, evs) := pe in
                match p with
                | NotThisWay _ => nothing
                | Proceed => ticks f (i_next ins) evs
                end in
              both (fun _ => 1)
              match i_step ins with
              | StRepetition min max s =>
                  both (rep_steps (sub s) (cnt s) f min max 0%N [])
                    (upon! o := rep_loop debug (sub s) f min max 0%N [] in
                     match o with
                     | inl _ => nothing
                     | inr temp => ticks f (i_next ins) (events ++ temp)
                     end)
              | StOr subs =>
                  both (or_steps (fun s => sub s []) (fun s => cnt s []) subs)
                    (upon! o := or_loop debug (fun s => sub s []) subs in
                     match o with
                     | inl _ => nothing
                     | inr temp => ticks f (i_next ins) (events ++ temp)
                     end)
              | StAlias id =>
                  match g_label g id with
                  | None => nothing
                  | Some address =>
                      match g_canonical g id with
                      | None => nothing
                      | Some name =>
                          upon! l := m_location in
                          both (cnt address [EvBegin (i_def ins) l name])
                            (upon! (p, temp) := sub address [EvBegin (i_def ins) l name] in
                             match p with
                             | NotThisWay _ => nothing
                             | Proceed =>
                                 upon! l := m_location in
                                 ticks f (i_next ins) (events ++ temp ++ [EvEnd (i_def ins) l name])
                             end)
                      end
                  end
              | StTerminal s =>
                  upon! pe := terminal_step debug g addr ins s events in continue pe
              | StSpecial sc =>
                  both (special_steps cnt f ins sc events)
                    (upon! pe := special_step debug g sub f addr ins sc events in continue pe)
              | StEmpty => continue (Proceed, events)
              | StExcept factor exc =>
                  both (except_steps sub cnt f factor exc)
                    (upon! pe := except_scan debug g sub f addr factor exc events in continue pe)
              end
          end
      end
  end.
End Steps.

(** src/parser/mod.rs:75-77  the instructions executed by one [Parser::parse]. *)
Definition parser_steps (debug : bool) (g : graph) (fuel : nat) (m : machine) : mreader -> nat :=
  ticks debug g fuel (Some (mc_entry m)) [].
