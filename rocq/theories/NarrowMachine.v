(** Model of the parser (Machine.v) over the reader with integers of their width in the
    code (Narrow.v); the counter of repetitions is a [u32].  Otherwise the functions are
    those of Machine.v. *)
From Coq Require Import String List NArith Arith Bool.
From Verif Require Import Base Ident Tokenizer Ast Lex Syntax Io Graph Machine Narrow.
Import ListNotations.
Open Scope N_scope.

Definition fail64 {A} (e : error) : MO A := fun r => Some (Err e, r).
Definition crash64 {A} (p : panic) : MO A := fun r => Some (Panic p, r).

Section Machine.
Variable debug : bool.
Variable g : graph.

(** machine.rs:159-171  [stream_prefix_to_string]. *)
Definition stream_prefix64 : MO actual :=
  let!^ eof := m_is_eof64 debug in
  if eof then ret64 AEof
  else
    let!^ p := m_peek64 debug 9 in
    ret64 (if Nat.ltb (length p) 9 then AText p false else AText (firstn 8 p) true).

(** machine.rs:139-157  [err_expected_but_stream_not] (the error value is data). *)
Definition err_expected64 (current : option nat) : MO error :=
  let!^ loc := m_location64 in
  let expected :=
    match current with
    | Some i => match nth_error (g_instrs g) i with
                | Some n => i_symbol n
                | None => of_string "EOF"
                end
    | None => of_string "EOF"
    end in
  fun r =>
    let^ x := stream_prefix64 r in
    Some (match x with
          | (Ok a, r') => (Ok (Error_ loc (MExpected expected a)), r')
          | (Err e, r') => (Ok e, r')
          | (Panic p, r') => (Panic p, r')
          | (OutOfFuel, r') => (OutOfFuel, r')
          end).

(** A user scanner program calling the reader; [own] are its outstanding marks, the
    newest first. *)
Fixpoint run_sprog64 (p : sprog) (own : list N) : MO reaction :=
  match p with
  | SpRet r => ret64 r
  | SpFail e => fail64 e
  | SpRead k => let!^ c := m_read64 debug in run_sprog64 (k c) own
  | SpLoc k => let!^ l := m_location64 in run_sprog64 (k l) own
  | SpEof k => let!^ b := m_is_eof64 debug in run_sprog64 (k b) own
  | SpPrefix w k => let!^ b := m_prefix_matches64 debug w in run_sprog64 (k b) own
  | SpPeek n k => let!^ w := m_peek64 debug n in run_sprog64 (k w) own
  | SpSkip n k => let!^ m := m_skip64 debug n in run_sprog64 (k m) own
  | SpMark k => let!^ m := m_mark64 debug in run_sprog64 k (m :: own)
  | SpReset i k =>
      match skipn i own with
      | m :: older => let!^ n := m_reset64 m in run_sprog64 (k n) older
      | [] => run_sprog64 (k 0%nat) own
      end
  | SpUnmark i k =>
      match skipn i own with
      | m :: older => let!^ _ := m_unmark64 m in run_sprog64 k older
      | [] => run_sprog64 k own
      end
  end.

(** src/parser/mod.rs:179-191  the loop of [CharsScanner::scan]: the characters
    pushed from here on; [n] is the length of [buffer]. *)
Fixpoint chars_loop64 (fuel : nat) (pred : char -> bool) (max : option N) (n : N) : MO str :=
  match fuel with
  | O => no_fuel64
  | S f =>
      if match max with Some m => n <? m | None => true end then
        let!^ m2 := m_mark64 debug in
        let!^ ch := m_read64 debug in
        match ch with
        | Some c =>
            if negb (pred c) then
              let!^ _ := m_reset64 m2 in ret64 []
            else
              let!^ _ := m_unmark64 m2 in
              let!^ rest := chars_loop64 f pred max (n + 1) in
              ret64 (c :: rest)
        | None => ret64 []
        end
      else ret64 []
  end.

(** src/parser/mod.rs:175-202  [CharsScanner::scan]. *)
Definition chars_scan64 (fuel : nat) (pred : char -> bool) (min max : option N)
    (def : location) : MO reaction :=
  let!^ mark := m_mark64 debug in
  let!^ loc := m_location64 in
  let!^ buffer := chars_loop64 fuel pred max 0 in
  if match min with Some m => N.of_nat (length buffer) <? m | None => false end then
    let!^ _ := m_reset64 mark in
    ret64 RUnmatch
  else ret64 (RMatch [EvToken def loc buffer]).

(** src/parser/mod.rs:226-250  [RegExScanner::scan]. *)
Definition regex_scan64 (find : str -> option (nat * nat)) (def : location) : MO reaction :=
  let!^ loc := m_location64 in
  let!^ token := m_peek64 debug (S regex_max) in
  match find token with
  | Some (O, len) =>
      let token := firstn len token in
      if Nat.ltb regex_max (length token) then
        let!^ l := m_location64 in fail64 (Error_ l MRegexTooLong)
      else
        let!^ _ := m_skip64 debug (length token) in
        ret64 (RMatch [EvToken def loc token])
  | _ => ret64 RUnmatch
  end.

(** [scanner.scan(&instr.definition, r)] *)
Definition special_scan64 (fuel : nat) (sc : scanner) (def : location) : MO reaction :=
  match sc with
  | ScDefault _ => ret64 (RMatch [])
  | ScChars pred min max => chars_scan64 fuel pred min max def
  | ScRegex _ find => regex_scan64 find def
  | ScUser _ prog => run_sprog64 (prog def) []
  end.

(** A recursive call of [parse_to_subroutine_end]. *)
Definition subrun64 := nat -> list event -> MO (prospect * list event).

(** machine.rs:57-77  the loop of [Step::Repetition]; the counter of 58 and 76 is a [u32]. *)
Definition inc_u32 (i : N) : MO N := fun r => if i + 1 <=? u32_max then Some (Ok (i + 1), r) else None.
Fixpoint rep_loop64 (sub : list event -> MO (prospect * list event)) (fuel : nat)
    (min max i : N) (temp : list event) : MO (error + list event) :=
  match fuel with
  | O => no_fuel64
  | S f =>
      if i <? max then
        let!^ loc := m_location64 in
        let!^ mark := m_mark64 debug in
        let!^ (p, temp) := sub temp in
        match p with
        | NotThisWay e =>
            if i <? min then ret64 (inl e)
            else let!^ _ := m_reset64 mark in ret64 (inr temp)
        | Proceed =>
            let!^ loc' := m_location64 in
            if (max =? u32_max) && loc_eqb loc' loc
            then fail64 (Error_ loc MLivelock)
            else let!^ i := inc_u32 i in rep_loop64 sub f min max i temp
        end
      else ret64 (inr temp)
  end.

(** machine.rs:82-95  the loop of [Step::Or]: the events of the first success, or
    the errors of all definitions, in order. *)
Fixpoint or_loop64 (sub : nat -> MO (prospect * list event)) (subs : list nat)
  : MO (list error + list event) :=
  match subs with
  | [] => ret64 (inl [])
  | s :: rest =>
      let!^ mark := m_mark64 debug in
      let!^ (p, temp) := sub s in
      match p with
      | Proceed => ret64 (inr temp)
      | NotThisWay e =>
          let!^ _ := m_reset64 mark in
          let!^ o := or_loop64 sub rest in
          ret64 (match o with inl es => inl (e :: es) | inr t => inr t end)
      end
  end.

(** machine.rs:308-312  the capture loop of [TermWithExceptionScanner::scan]. *)
Fixpoint capture_loop64 (fuel : nat) (end_ : location) : MO str :=
  match fuel with
  | O => no_fuel64
  | S f =>
      let!^ l := m_location64 in
      if (l_lines l <? l_lines end_) || (l_columns l <? l_columns end_) then
        let!^ ch := m_read64 debug in
        let!^ rest := capture_loop64 f end_ in
        ret64 (match ch with Some c => c :: rest | None => rest end)
      else ret64 []
  end.

(** machine.rs:290-335  [TermWithExceptionScanner::scan]. *)
Definition except_scan64 (sub : subrun64) (fuel : nat) (addr factor exc : nat)
    (events : list event) : MO (prospect * list event) :=
  let!^ begin := m_location64 in
  let!^ mark := m_mark64 debug in
  let!^ (p, temp) := sub factor [] in
  match p with
  | NotThisWay e =>
      let!^ _ := m_reset64 mark in ret64 (NotThisWay e, events)
  | Proceed =>
      let!^ end_ := m_location64 in
      let!^ _ := m_reset64 mark in
      let!^ mark := m_mark64 debug in
      let!^ buffer := capture_loop64 fuel end_ in
      let!^ l := m_location64 in
      if debug && negb (loc_eqb end_ l) then crash64 PDebugAssert
      else
        fun r =>
          let^ test :=
            (let!^ (p, _) := sub exc [] in
             match p with Proceed => m_is_eof64 debug | NotThisWay _ => ret64 false end)
              (mr_of_text begin buffer) in
          match fst test with
          | Ok true =>
              (let!^ _ := m_reset64 mark in
               let!^ e := err_expected64 (Some addr) in
               ret64 (NotThisWay e, events)) r
          | Ok false => ret64 (Proceed, events ++ temp) r
          | Err e => fail64 e r
          | Panic x => crash64 x r
          | OutOfFuel => no_fuel64 r
          end
  end.

(** machine.rs:219-255  [SpecialSequenceScanner::scan]. *)
Definition special_step64 (sub : subrun64) (fuel : nat) (addr : nat) (ins : instr)
    (sc : scanner) (events : list event) : MO (prospect * list event) :=
  let!^ mark := m_mark64 debug in
  let!^ rc := special_scan64 fuel sc (i_def ins) in
  match rc with
  | RMatch evts =>
      let!^ _ := m_unmark64 mark in ret64 (Proceed, events ++ evts)
  | RForward id =>
      match g_label g id with
      | Some next =>
          let!^ _ := m_unmark64 mark in
          let!^ (_, events) := sub next events in
          ret64 (Proceed, events)
      | None =>
          let!^ _ := m_reset64 mark in
          let!^ l := m_location64 in
          fail64 (Error_ l (MNoSuchForward id (i_symbol ins) (i_def ins)))
      end
  | RUnmatch =>
      let!^ _ := m_reset64 mark in
      let!^ e := err_expected64 (Some addr) in
      ret64 (NotThisWay e, events)
  end.

(** machine.rs:185-205  [TerminalStringScanner::scan]. *)
Definition terminal_step64 (addr : nat) (ins : instr) (s : str) (events : list event)
  : MO (prospect * list event) :=
  let!^ b := m_prefix_matches64 debug s in
  if b then
    let!^ loc := m_location64 in
    let!^ _ := m_skip64 debug (length s) in
    ret64 (Proceed, events ++ [EvToken (i_def ins) loc s])
  else
    let!^ e := err_expected64 (Some addr) in
    ret64 (NotThisWay e, events).

(** machine.rs:44-137  [parse_to_subroutine_end]; [run fuel next events] is the
    loop with the given [next]. *)
Fixpoint run64 (fuel : nat) (next : option nat) (events : list event)
  : MO (prospect * list event) :=
  match fuel with
  | O => no_fuel64
  | S f =>
      match next with
      | None => ret64 (Proceed, events)
      | Some addr =>
          match nth_error (g_instrs g) addr with
          | None => crash64 PUnwrap
          | Some ins =>
              let sub : subrun64 := fun a evs => run64 f (Some a) evs in
              let continue (pe : prospect * list event) :=
                let '(p, evs) := pe in
                match p with
                | NotThisWay e => ret64 (NotThisWay e, evs)
                | Proceed => run64 f (i_next ins) evs
                end in
              match i_step ins with
              | StRepetition min max s =>
                  let!^ o := rep_loop64 (sub s) f min max 0 [] in
                  match o with
                  | inl e => ret64 (NotThisWay e, events)
                  | inr temp => run64 f (i_next ins) (events ++ temp)
                  end
              | StOr subs =>
                  let!^ o := or_loop64 (fun s => sub s []) subs in
                  match o with
                  | inr temp => run64 f (i_next ins) (events ++ temp)
                  | inl es =>
                      match pick_error (rev es) with
                      | None => crash64 PUnwrap
                      | Some err =>
                          let!^ l := m_location64 in
                          if loc_eqb (e_loc err) l then
                            let!^ e := err_expected64 (Some addr) in
                            ret64 (NotThisWay e, events)
                          else ret64 (NotThisWay err, events)
                      end
                  end
              | StAlias id =>
                  match g_label g id with
                  | None => crash64 PUnwrap
                  | Some address =>
                      match g_canonical g id with
                      | None => crash64 PUnwrap
                      | Some name =>
                          let!^ l := m_location64 in
                          let!^ (p, temp) := sub address [EvBegin (i_def ins) l name] in
                          match p with
                          | NotThisWay e => ret64 (NotThisWay e, events)
                          | Proceed =>
                              let!^ l := m_location64 in
                              run64 f (i_next ins)
                                (events ++ temp ++ [EvEnd (i_def ins) l name])
                          end
                      end
                  end
              | StTerminal s =>
                  let!^ pe := terminal_step64 addr ins s events in continue pe
              | StSpecial sc =>
                  let!^ pe := special_step64 sub f addr ins sc events in continue pe
              | StEmpty => continue (Proceed, events)
              | StExcept factor exc =>
                  let!^ pe := except_scan64 sub f addr factor exc events in continue pe
              end
          end
      end
  end.

(** machine.rs:32-42  [LexMachine::parse] from the entry address. *)
Definition machine_parse64 (fuel : nat) (entry : nat) : MO (list event) :=
  let!^ (p, events) := run64 fuel (Some entry) [] in
  match p with
  | NotThisWay e => fail64 e
  | Proceed =>
      let!^ eof := m_is_eof64 debug in
      if eof then
        if debug && negb (removed_labels_agree (tl events)) then crash64 PDebugAssert
        else ret64 (remove_empty_pairs events)
      else
        let!^ e := err_expected64 None in fail64 e
  end.

End Machine.

(** src/parser/mod.rs:75-77  [Parser::parse]. *)
Definition parser_parse64 (debug : bool) (g : graph) (fuel : nat) (m : machine)
  : MO (list event) := machine_parse64 debug g fuel (mc_entry m).
