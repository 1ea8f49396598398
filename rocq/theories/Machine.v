(** Model of src/parser/machine.rs and of the scanners of src/parser/mod.rs. *)
From Coq Require Import String List NArith Arith Bool.
From Verif Require Import Base Ident Tokenizer Ast Lex Syntax Io Graph.
Import ListNotations.
Open Scope N_scope.

(** src/parser/graph.rs:33-37  [enum Prospect]. *)
Inductive prospect := Proceed | NotThisWay (e : error).

Section Machine.
Variable debug : bool.
Variable g : graph.

(** machine.rs:159-171  [stream_prefix_to_string]. *)
Definition stream_prefix : M actual :=
  let! eof := m_is_eof debug in
  if eof then ret AEof
  else
    let! p := m_peek debug 9 in
    ret (if Nat.ltb (length p) 9 then AText p false else AText (firstn 8 p) true).

(** machine.rs:139-157  [err_expected_but_stream_not] (the error value is data). *)
Definition err_expected (current : option nat) : M error :=
  let! loc := m_location in
  let expected :=
    match current with
    | Some i => match nth_error (g_instrs g) i with
                | Some n => i_symbol n
                | None => of_string "EOF"
                end
    | None => of_string "EOF"
    end in
  fun r =>
    match stream_prefix r with
    | (Ok a, r') => (Ok (Error_ loc (MExpected expected a)), r')
    | (Err e, r') => (Ok e, r')
    | (Panic p, r') => (Panic p, r')
    | (OutOfFuel, r') => (OutOfFuel, r')
    end.

(** A user scanner program calling the reader; [own] are its outstanding marks, the
    newest first. *)
Fixpoint run_sprog (p : sprog) (own : list N) : M reaction :=
  match p with
  | SpRet r => ret r
  | SpFail e => fail e
  | SpRead k => let! c := m_read debug in run_sprog (k c) own
  | SpLoc k => let! l := m_location in run_sprog (k l) own
  | SpEof k => let! b := m_is_eof debug in run_sprog (k b) own
  | SpPrefix w k => let! b := m_prefix_matches debug w in run_sprog (k b) own
  | SpPeek n k => let! w := m_peek debug n in run_sprog (k w) own
  | SpSkip n k => let! m := m_skip debug n in run_sprog (k m) own
  | SpMark k => let! m := m_mark debug in run_sprog k (m :: own)
  | SpReset i k =>
      match skipn i own with
      | m :: older => let! n := m_reset m in run_sprog (k n) older
      | [] => run_sprog (k 0%nat) own
      end
  | SpUnmark i k =>
      match skipn i own with
      | m :: older => let! _ := m_unmark m in run_sprog k older
      | [] => run_sprog k own
      end
  end.

(** src/parser/mod.rs:179-191  the loop of [CharsScanner::scan]: the characters
    pushed from here on; [n] is the length of [buffer]. *)
Fixpoint chars_loop (fuel : nat) (pred : char -> bool) (max : option N) (n : N) : M str :=
  match fuel with
  | O => no_fuel
  | S f =>
      if match max with Some m => n <? m | None => true end then
        let! m2 := m_mark debug in
        let! ch := m_read debug in
        match ch with
        | Some c =>
            if negb (pred c) then
              let! _ := m_reset m2 in ret []
            else
              let! _ := m_unmark m2 in
              let! rest := chars_loop f pred max (n + 1) in
              ret (c :: rest)
        | None => ret []
        end
      else ret []
  end.

(** src/parser/mod.rs:175-202  [CharsScanner::scan]. *)
Definition chars_scan (fuel : nat) (pred : char -> bool) (min max : option N)
    (def : location) : M reaction :=
  let! mark := m_mark debug in
  let! loc := m_location in
  let! buffer := chars_loop fuel pred max 0 in
  if match min with Some m => N.of_nat (length buffer) <? m | None => false end then
    let! _ := m_reset mark in
    ret RUnmatch
  else ret (RMatch [EvToken def loc buffer]).

(** src/parser/mod.rs:226-250  [RegExScanner::scan]. *)
Definition regex_max : nat := 256.
Definition regex_scan (find : str -> option (nat * nat)) (def : location) : M reaction :=
  let! loc := m_location in
  let! token := m_peek debug (S regex_max) in
  match find token with
  | Some (O, len) =>
      let token := firstn len token in
      if Nat.ltb regex_max (length token) then
        let! l := m_location in fail (Error_ l MRegexTooLong)
      else
        let! _ := m_skip debug (length token) in
        ret (RMatch [EvToken def loc token])
  | _ => ret RUnmatch
  end.

(** [scanner.scan(&instr.definition, r)] *)
Definition special_scan (fuel : nat) (sc : scanner) (def : location) : M reaction :=
  match sc with
  | ScDefault _ => ret (RMatch [])
  | ScChars pred min max => chars_scan fuel pred min max def
  | ScRegex _ find => regex_scan find def
  | ScUser _ prog => run_sprog (prog def) []
  end.

(** A recursive call of [parse_to_subroutine_end]. *)
Definition subrun := nat -> list event -> M (prospect * list event).

(** machine.rs:57-77  the loop of [Step::Repetition]: an early return, or the
    events collected. *)
Fixpoint rep_loop (sub : list event -> M (prospect * list event)) (fuel : nat)
    (min max i : N) (temp : list event) : M (error + list event) :=
  match fuel with
  | O => no_fuel
  | S f =>
      if i <? max then
        let! loc := m_location in
        let! mark := m_mark debug in
        let! (p, temp) := sub temp in
        match p with
        | NotThisWay e =>
            if i <? min then ret (inl e)
            else let! _ := m_reset mark in ret (inr temp)
        | Proceed =>
            let! loc' := m_location in
            if (max =? u32_max) && loc_eqb loc' loc
            then fail (Error_ loc MLivelock)
            else rep_loop sub f min max (i + 1) temp
        end
      else ret (inr temp)
  end.

(** machine.rs:82-95  the loop of [Step::Or]: the events of the first success, or
    the errors of all definitions, in order. *)
Fixpoint or_loop (sub : nat -> M (prospect * list event)) (subs : list nat)
  : M (list error + list event) :=
  match subs with
  | [] => ret (inl [])
  | s :: rest =>
      let! mark := m_mark debug in
      let! (p, temp) := sub s in
      match p with
      | Proceed => ret (inr temp)
      | NotThisWay e =>
          let! _ := m_reset mark in
          let! o := or_loop sub rest in
          ret (match o with inl es => inl (e :: es) | inr t => inr t end)
      end
  end.

(** machine.rs:99-105  the choice of the error; [es] is in reverse order. *)
Definition pick_error (es : list error) : option error :=
  match es with
  | [] => None
  | e :: rest =>
      Some (fold_left (fun err other => if loc_ltb (e_loc err) (e_loc other) then other else err)
                      rest e)
  end.

(** machine.rs:308-312  the capture loop of [TermWithExceptionScanner::scan]. *)
Fixpoint capture_loop (fuel : nat) (end_ : location) : M str :=
  match fuel with
  | O => no_fuel
  | S f =>
      let! l := m_location in
      if (l_lines l <? l_lines end_) || (l_columns l <? l_columns end_) then
        let! ch := m_read debug in
        let! rest := capture_loop f end_ in
        ret (match ch with Some c => c :: rest | None => rest end)
      else ret []
  end.

(** machine.rs:290-335  [TermWithExceptionScanner::scan]. *)
Definition except_scan (sub : subrun) (fuel : nat) (addr factor exc : nat)
    (events : list event) : M (prospect * list event) :=
  let! begin := m_location in
  let! mark := m_mark debug in
  let! (p, temp) := sub factor [] in
  match p with
  | NotThisWay e =>
      let! _ := m_reset mark in ret (NotThisWay e, events)
  | Proceed =>
      let! end_ := m_location in
      let! _ := m_reset mark in
      let! mark := m_mark debug in
      let! buffer := capture_loop fuel end_ in
      let! l := m_location in
      if debug && negb (loc_eqb end_ l) then crash PDebugAssert
      else
        let test :=
          (let! (p, _) := sub exc [] in
           match p with Proceed => m_is_eof debug | NotThisWay _ => ret false end)
            (mr_of_text begin buffer) in
        match fst test with
        | Ok true =>
            let! _ := m_reset mark in
            let! e := err_expected (Some addr) in
            ret (NotThisWay e, events)
        | Ok false => ret (Proceed, events ++ temp)
        | Err e => fail e
        | Panic x => crash x
        | OutOfFuel => no_fuel
        end
  end.

(** machine.rs:219-255  [SpecialSequenceScanner::scan]. *)
Definition special_step (sub : subrun) (fuel : nat) (addr : nat) (ins : instr)
    (sc : scanner) (events : list event) : M (prospect * list event) :=
  let! mark := m_mark debug in
  let! rc := special_scan fuel sc (i_def ins) in
  match rc with
  | RMatch evts =>
      let! _ := m_unmark mark in ret (Proceed, events ++ evts)
  | RForward id =>
      match g_label g id with
      | Some next =>
          let! _ := m_unmark mark in
          let! (_, events) := sub next events in
          ret (Proceed, events)
      | None =>
          let! _ := m_reset mark in
          let! l := m_location in
          fail (Error_ l (MNoSuchForward id (i_symbol ins) (i_def ins)))
      end
  | RUnmatch =>
      let! _ := m_reset mark in
      let! e := err_expected (Some addr) in
      ret (NotThisWay e, events)
  end.

(** machine.rs:185-205  [TerminalStringScanner::scan]. *)
Definition terminal_step (addr : nat) (ins : instr) (s : str) (events : list event)
  : M (prospect * list event) :=
  let! b := m_prefix_matches debug s in
  if b then
    let! loc := m_location in
    let! _ := m_skip debug (length s) in
    ret (Proceed, events ++ [EvToken (i_def ins) loc s])
  else
    let! e := err_expected (Some addr) in
    ret (NotThisWay e, events).

(** machine.rs:44-137  [parse_to_subroutine_end]; [run fuel next events] is the
    loop with the given [next]. *)
Fixpoint run (fuel : nat) (next : option nat) (events : list event)
  : M (prospect * list event) :=
  match fuel with
  | O => no_fuel
  | S f =>
      match next with
      | None => ret (Proceed, events)
      | Some addr =>
          match nth_error (g_instrs g) addr with
          | None => crash PUnwrap
          | Some ins =>
              let sub : subrun := fun a evs => run f (Some a) evs in
              let continue (pe : prospect * list event) :=
                let '(p, evs) := pe in
                match p with
                | NotThisWay e => ret (NotThisWay e, evs)
                | Proceed => run f (i_next ins) evs
                end in
              match i_step ins with
              | StRepetition min max s =>
                  let! o := rep_loop (sub s) f min max 0 [] in
                  match o with
                  | inl e => ret (NotThisWay e, events)
                  | inr temp => run f (i_next ins) (events ++ temp)
                  end
              | StOr subs =>
                  let! o := or_loop (fun s => sub s []) subs in
                  match o with
                  | inr temp => run f (i_next ins) (events ++ temp)
                  | inl es =>
                      match pick_error (rev es) with
                      | None => crash PUnwrap
                      | Some err =>
                          let! l := m_location in
                          if loc_eqb (e_loc err) l then
                            let! e := err_expected (Some addr) in
                            ret (NotThisWay e, events)
                          else ret (NotThisWay err, events)
                      end
                  end
              | StAlias id =>
                  match g_label g id with
                  | None => crash PUnwrap
                  | Some address =>
                      match g_canonical g id with
                      | None => crash PUnwrap
                      | Some name =>
                          let! l := m_location in
                          let! (p, temp) := sub address [EvBegin (i_def ins) l name] in
                          match p with
                          | NotThisWay e => ret (NotThisWay e, events)
                          | Proceed =>
                              let! l := m_location in
                              run f (i_next ins)
                                (events ++ temp ++ [EvEnd (i_def ins) l name])
                          end
                      end
                  end
              | StTerminal s =>
                  let! pe := terminal_step addr ins s events in continue pe
              | StSpecial sc =>
                  let! pe := special_step sub f addr ins sc events in continue pe
              | StEmpty => continue (Proceed, events)
              | StExcept factor exc =>
                  let! pe := except_scan sub f addr factor exc events in continue pe
              end
          end
      end
  end.

(** machine.rs:342-353  [remove_empty_begin_end_pair], from index 1 on. *)
Fixpoint remove_pairs (es : list event) : list event :=
  match es with
  | EvBegin d l b :: r =>
      match r with
      | EvEnd _ _ _ :: r2 => remove_pairs r2
      | _ => EvBegin d l b :: remove_pairs r
      end
  | e :: r => e :: remove_pairs r
  | [] => []
  end.
Definition remove_empty_pairs (es : list event) : list event :=
  match es with
  | [] => []
  | e :: r => e :: remove_pairs r
  end.

(** machine.rs:347  the debug assertion of the loop: removed labels agree. *)
Fixpoint removed_labels_agree (es : list event) : bool :=
  match es with
  | EvBegin _ _ b :: r =>
      match r with
      | EvEnd _ _ e :: r2 => str_eqb b e && removed_labels_agree r2
      | _ => removed_labels_agree r
      end
  | _ :: r => removed_labels_agree r
  | [] => true
  end.

(** machine.rs:32-42  [LexMachine::parse] from the entry address. *)
Definition machine_parse (fuel : nat) (entry : nat) : M (list event) :=
  let! (p, events) := run fuel (Some entry) [] in
  match p with
  | NotThisWay e => fail e
  | Proceed =>
      let! eof := m_is_eof debug in
      if eof then
        if debug && negb (removed_labels_agree (tl events)) then crash PDebugAssert
        else ret (remove_empty_pairs events)
      else
        let! e := err_expected None in fail e
  end.

End Machine.

(** machine.rs:11-15  [struct LexMachine] (the graph is passed separately). *)
Record machine := Mach { mc_id : str; mc_entry : nat }.

(** machine.rs:18-26  [LexMachine::new], src/parser/mod.rs:67-69 [Parser::new]. *)
Definition machine_new (g : graph) (id : str) : res (option machine) :=
  match g_label g (36 :: id) with
  | None => Ok None
  | Some entry =>
      match g_canonical g id with
      | Some name => Ok (Some (Mach name entry))
      | None => Panic PUnwrap
      end
  end.

(** src/parser/mod.rs:75-77  [Parser::parse]. *)
Definition parser_parse (debug : bool) (g : graph) (fuel : nat) (m : machine)
  : M (list event) := machine_parse debug g fuel (mc_entry m).
