(** Readers written by users: src/io/mod.rs lines 92-199, the trait [MarkableCharReader], is
    public and [Parser::parse] takes any [&mut dyn MarkableCharReader].  A reader of one's own
    is a type of states and the methods of the two traits on it.  The functions below follow
    src/parser/machine.rs and the scanners of src/parser/mod.rs once more, with the methods in
    the place of those of [MarkableReader] (Machine.v). *)
From Coq Require Import String List NArith Arith Bool.
From Verif Require Import Base Ident Tokenizer Ast Lex Syntax Io Graph Machine.
Import ListNotations.
Open Scope N_scope.

Section Own.
Variable U : Type.
(** A method that takes [&mut self]: an answer and the state afterwards. *)
Definition act (A : Type) := U -> res A * U.
Definition uret {A} (a : A) : act A := fun r => (Ok a, r).
Definition ufail {A} (e : error) : act A := fun r => (Err e, r).
Definition ucrash {A} (p : panic) : act A := fun r => (Panic p, r).
Definition uno_fuel {A} : act A := fun r => (OutOfFuel, r).
Definition ubind {A B} (m : act A) (f : A -> act B) : act B := fun r =>
  match m r with
  | (Ok a, r') => f a r'
  | (Err e, r') => (Err e, r')
  | (Panic p, r') => (Panic p, r')
  | (OutOfFuel, r') => (OutOfFuel, r')
  end.
Notation "'letu' x := m 'in' k" := (ubind m (fun x => k))
  (at level 200, x pattern, m at level 100, k at level 200).

(** src/io/mod.rs:37, 95, 183-198  the methods every reader has to define. *)
Record required := Required {
  q_read_chars : nat -> act str;
  q_location : U -> location;
  q_mark : act N;
  q_reset : N -> act nat;
  q_unmark : N -> act unit }.

(** src/io/mod.rs:14-199  the methods a parse calls: those above but [read_chars], and those
    that have a default, which may be replaced. *)
Record methods := Methods {
  u_location : U -> location;
  u_mark : act N;
  u_reset : N -> act nat;
  u_unmark : N -> act unit;
  u_read : act (option char);
  u_is_eof : act bool;
  u_prefix : str -> act bool;
  u_peek : nat -> act str;
  u_skip : nat -> act nat }.

Section Defaults.
Variable q : required.
(** src/io/mod.rs:21-29  [CharReader::read]. *)
Definition default_read : act (option char) :=
  letu out := q_read_chars q 1 in
  uret (hd_error out).
(** src/io/mod.rs:97-102  [is_eof]. *)
Definition default_is_eof : act bool :=
  letu mark := q_mark q in
  letu ch := default_read in
  letu _ := q_reset q mark in
  uret (match ch with None => true | Some _ => false end).
(** src/io/mod.rs:115-126  [prefix_matches] and its loop. *)
Fixpoint default_prefix_loop (prefix : str) : act bool :=
  match prefix with
  | [] => uret true
  | p :: rest =>
      letu ch := default_read in
      match ch with
      | Some c => if N.eqb c p then default_prefix_loop rest else uret false
      | None => uret false
      end
  end.
Definition default_prefix (prefix : str) : act bool :=
  letu mark := q_mark q in
  letu b := default_prefix_loop prefix in
  letu _ := q_reset q mark in
  uret b.
(** src/io/mod.rs:141-152  [peek] and its loop. *)
Fixpoint default_peek_loop (n : nat) : act str :=
  match n with
  | O => uret []
  | S n' =>
      letu ch := default_read in
      match ch with
      | Some c => letu rest := default_peek_loop n' in uret (c :: rest)
      | None => uret []
      end
  end.
Definition default_peek (n : nat) : act str :=
  letu mark := q_mark q in
  letu s := default_peek_loop n in
  letu _ := q_reset q mark in
  uret s.
(** src/io/mod.rs:163-175  [skip] and its loop, as in Io.v.  (That [read_chars] claims more
    characters than it was given room for is not represented.) *)
Fixpoint default_skip_loop (fuel remaining : nat) : act nat :=
  match fuel with
  | O => uno_fuel
  | S f =>
      match remaining with
      | O => uret 0%nat
      | _ =>
          letu out := q_read_chars q (Nat.min remaining io_buffer) in
          match out with
          | [] => uret remaining
          | _ => default_skip_loop f (remaining - length out)
          end
      end
  end.
Definition default_skip (n : nat) : act nat :=
  letu remaining := default_skip_loop (S n) n in
  uret (n - remaining)%nat.
(** A reader that replaces no default. *)
Definition with_defaults : methods :=
  Methods (q_location q) (q_mark q) (q_reset q) (q_unmark q) default_read default_is_eof default_prefix default_peek default_skip.
End Defaults.

Section Machine.
Variable debug : bool.
Variable g : graph.
Variable ops : methods.

Definition own_location : act location := fun u => (Ok (u_location ops u), u).

(** machine.rs:159-171  [stream_prefix_to_string]. *)
Definition own_stream_prefix : act actual :=
  letu eof := u_is_eof ops in
  if eof then uret AEof
  else
    letu p := u_peek ops 9 in
    uret (if Nat.ltb (length p) 9 then AText p false else AText (firstn 8 p) true).

(** machine.rs:139-157  [err_expected_but_stream_not] (the error value is data). *)
Definition own_err_expected (current : option nat) : act error :=
  letu loc := own_location in
  let expected :=
    match current with
    | Some i => match nth_error (g_instrs g) i with
                | Some n => i_symbol n
                | None => of_string "EOF"
                end
    | None => of_string "EOF"
    end in
  fun r =>
    match own_stream_prefix r with
    | (Ok a, r') => (Ok (Error_ loc (MExpected expected a)), r')
    | (Err e, r') => (Ok e, r')
    | (Panic p, r') => (Panic p, r')
    | (OutOfFuel, r') => (OutOfFuel, r')
    end.

(** A user scanner program calling the reader; [own] are its outstanding marks, the
    newest first. *)
Fixpoint own_run_sprog (p : sprog) (own : list N) : act reaction :=
  match p with
  | SpRet r => uret r
  | SpFail e => ufail e
  | SpRead k => letu c := u_read ops in own_run_sprog (k c) own
  | SpLoc k => letu l := own_location in own_run_sprog (k l) own
  | SpEof k => letu b := u_is_eof ops in own_run_sprog (k b) own
  | SpPrefix w k => letu b := u_prefix ops w in own_run_sprog (k b) own
  | SpPeek n k => letu w := u_peek ops n in own_run_sprog (k w) own
  | SpSkip n k => letu m := u_skip ops n in own_run_sprog (k m) own
  | SpMark k => letu m := u_mark ops in own_run_sprog k (m :: own)
  | SpReset i k =>
      match skipn i own with
      | m :: older => letu n := u_reset ops m in own_run_sprog (k n) older
      | [] => own_run_sprog (k 0%nat) own
      end
  | SpUnmark i k =>
      match skipn i own with
      | m :: older => letu _ := u_unmark ops m in own_run_sprog k older
      | [] => own_run_sprog k own
      end
  end.

(** src/parser/mod.rs:179-191  the loop of [CharsScanner::scan]: the characters
    pushed from here on; [n] is the length of [buffer]. *)
Fixpoint own_chars_loop (fuel : nat) (pred : char -> bool) (max : option N) (n : N) : act str :=
  match fuel with
  | O => uno_fuel
  | S f =>
      if match max with Some m => n <? m | None => true end then
        letu m2 := u_mark ops in
        letu ch := u_read ops in
        match ch with
        | Some c =>
            if negb (pred c) then
              letu _ := u_reset ops m2 in uret []
            else
              letu _ := u_unmark ops m2 in
              letu rest := own_chars_loop f pred max (n + 1) in
              uret (c :: rest)
        | None => uret []
        end
      else uret []
  end.

(** src/parser/mod.rs:175-202  [CharsScanner::scan]. *)
Definition own_chars_scan (fuel : nat) (pred : char -> bool) (min max : option N)
    (def : location) : act reaction :=
  letu mark := u_mark ops in
  letu loc := own_location in
  letu buffer := own_chars_loop fuel pred max 0 in
  if match min with Some m => N.of_nat (length buffer) <? m | None => false end then
    letu _ := u_reset ops mark in
    uret RUnmatch
  else uret (RMatch [EvToken def loc buffer]).

(** src/parser/mod.rs:226-250  [RegExScanner::scan]. *)
Definition own_regex_scan (find : str -> option (nat * nat)) (def : location) : act reaction :=
  letu loc := own_location in
  letu token := u_peek ops (S regex_max) in
  match find token with
  | Some (O, len) =>
      let token := firstn len token in
      if Nat.ltb regex_max (length token) then
        letu l := own_location in ufail (Error_ l MRegexTooLong)
      else
        letu _ := u_skip ops (length token) in
        uret (RMatch [EvToken def loc token])
  | _ => uret RUnmatch
  end.

(** [scanner.scan(&instr.definition, r)] *)
Definition own_special_scan (fuel : nat) (sc : scanner) (def : location) : act reaction :=
  match sc with
  | ScDefault _ => uret (RMatch [])
  | ScChars pred min max => own_chars_scan fuel pred min max def
  | ScRegex _ find => own_regex_scan find def
  | ScUser _ prog => own_run_sprog (prog def) []
  end.

(** A recursive call of [parse_to_subroutine_end]. *)
Definition own_subrun := nat -> list event -> act (prospect * list event).

(** machine.rs:57-77  the loop of [Step::Repetition]: an early return, or the
    events collected. *)
Fixpoint own_rep_loop (sub : list event -> act (prospect * list event)) (fuel : nat)
    (min max i : N) (temp : list event) : act (error + list event) :=
  match fuel with
  | O => uno_fuel
  | S f =>
      if i <? max then
        letu loc := own_location in
        letu mark := u_mark ops in
        letu (p, temp) := sub temp in
        match p with
        | NotThisWay e =>
            if i <? min then uret (inl e)
            else letu _ := u_reset ops mark in uret (inr temp)
        | Proceed =>
            letu loc' := own_location in
            if (max =? u32_max) && loc_eqb loc' loc
            then ufail (Error_ loc MLivelock)
            else own_rep_loop sub f min max (i + 1) temp
        end
      else uret (inr temp)
  end.

(** machine.rs:82-95  the loop of [Step::Or]: the events of the first success, or
    the errors of all definitions, in order. *)
Fixpoint own_or_loop (sub : nat -> act (prospect * list event)) (subs : list nat)
  : act (list error + list event) :=
  match subs with
  | [] => uret (inl [])
  | s :: rest =>
      letu mark := u_mark ops in
      letu (p, temp) := sub s in
      match p with
      | Proceed => uret (inr temp)
      | NotThisWay e =>
          letu _ := u_reset ops mark in
          letu o := own_or_loop sub rest in
          uret (match o with inl es => inl (e :: es) | inr t => inr t end)
      end
  end.

(** machine.rs:308-312  the capture loop of [TermWithExceptionScanner::scan]. *)
Fixpoint own_capture_loop (fuel : nat) (end_ : location) : act str :=
  match fuel with
  | O => uno_fuel
  | S f =>
      letu l := own_location in
      if (l_lines l <? l_lines end_) || (l_columns l <? l_columns end_) then
        letu ch := u_read ops in
        letu rest := own_capture_loop f end_ in
        uret (match ch with Some c => c :: rest | None => rest end)
      else uret []
  end.

(** machine.rs:290-335  [TermWithExceptionScanner::scan].  The exception is tried on a reader
    of the library (line 316), whatever reader the parse is given: [library] is the recursive
    call with such a reader. *)
Definition own_except_scan (sub : own_subrun) (library : subrun) (fuel : nat) (addr factor exc : nat)
    (events : list event) : act (prospect * list event) :=
  letu begin := own_location in
  letu mark := u_mark ops in
  letu (p, temp) := sub factor [] in
  match p with
  | NotThisWay e =>
      letu _ := u_reset ops mark in uret (NotThisWay e, events)
  | Proceed =>
      letu end_ := own_location in
      letu _ := u_reset ops mark in
      letu mark := u_mark ops in
      letu buffer := own_capture_loop fuel end_ in
      letu l := own_location in
      if debug && negb (loc_eqb end_ l) then ucrash PDebugAssert
      else
        let test :=
          (let! (p, _) := library exc [] in
           match p with Proceed => m_is_eof debug | NotThisWay _ => ret false end)
            (mr_of_text begin buffer) in
        match fst test with
        | Ok true =>
            letu _ := u_reset ops mark in
            letu e := own_err_expected (Some addr) in
            uret (NotThisWay e, events)
        | Ok false => uret (Proceed, events ++ temp)
        | Err e => ufail e
        | Panic x => ucrash x
        | OutOfFuel => uno_fuel
        end
  end.

(** machine.rs:219-255  [SpecialSequenceScanner::scan]. *)
Definition own_special_step (sub : own_subrun) (fuel : nat) (addr : nat) (ins : instr)
    (sc : scanner) (events : list event) : act (prospect * list event) :=
  letu mark := u_mark ops in
  letu rc := own_special_scan fuel sc (i_def ins) in
  match rc with
  | RMatch evts =>
      letu _ := u_unmark ops mark in uret (Proceed, events ++ evts)
  | RForward id =>
      match g_label g id with
      | Some next =>
          letu _ := u_unmark ops mark in
          letu (_, events) := sub next events in
          uret (Proceed, events)
      | None =>
          letu _ := u_reset ops mark in
          letu l := own_location in
          ufail (Error_ l (MNoSuchForward id (i_symbol ins) (i_def ins)))
      end
  | RUnmatch =>
      letu _ := u_reset ops mark in
      letu e := own_err_expected (Some addr) in
      uret (NotThisWay e, events)
  end.

(** machine.rs:185-205  [TerminalStringScanner::scan]. *)
Definition own_terminal_step (addr : nat) (ins : instr) (s : str) (events : list event)
  : act (prospect * list event) :=
  letu b := u_prefix ops s in
  if b then
    letu loc := own_location in
    letu _ := u_skip ops (length s) in
    uret (Proceed, events ++ [EvToken (i_def ins) loc s])
  else
    letu e := own_err_expected (Some addr) in
    uret (NotThisWay e, events).

(** machine.rs:44-137  [parse_to_subroutine_end]; [run fuel next events] is the
    loop with the given [next]. *)
Fixpoint own_run (fuel : nat) (next : option nat) (events : list event)
  : act (prospect * list event) :=
  match fuel with
  | O => uno_fuel
  | S f =>
      match next with
      | None => uret (Proceed, events)
      | Some addr =>
          match nth_error (g_instrs g) addr with
          | None => ucrash PUnwrap
          | Some ins =>
              let sub : own_subrun := fun a evs => own_run f (Some a) evs in
              let continue (pe : prospect * list event) :=
                let '(p, evs) := pe in
                match p with
                | NotThisWay e => uret (NotThisWay e, evs)
                | Proceed => own_run f (i_next ins) evs
                end in
              match i_step ins with
              | StRepetition min max s =>
                  letu o := own_rep_loop (sub s) f min max 0 [] in
                  match o with
                  | inl e => uret (NotThisWay e, events)
                  | inr temp => own_run f (i_next ins) (events ++ temp)
                  end
              | StOr subs =>
                  letu o := own_or_loop (fun s => sub s []) subs in
                  match o with
                  | inr temp => own_run f (i_next ins) (events ++ temp)
                  | inl es =>
                      match pick_error (rev es) with
                      | None => ucrash PUnwrap
                      | Some err =>
                          letu l := own_location in
                          if loc_eqb (e_loc err) l then
                            letu e := own_err_expected (Some addr) in
                            uret (NotThisWay e, events)
                          else uret (NotThisWay err, events)
                      end
                  end
              | StAlias id =>
                  match g_label g id with
                  | None => ucrash PUnwrap
                  | Some address =>
                      match g_canonical g id with
                      | None => ucrash PUnwrap
                      | Some name =>
                          letu l := own_location in
                          letu (p, temp) := sub address [EvBegin (i_def ins) l name] in
                          match p with
                          | NotThisWay e => uret (NotThisWay e, events)
                          | Proceed =>
                              letu l := own_location in
                              own_run f (i_next ins)
                                (events ++ temp ++ [EvEnd (i_def ins) l name])
                          end
                      end
                  end
              | StTerminal s =>
                  letu pe := own_terminal_step addr ins s events in continue pe
              | StSpecial sc =>
                  letu pe := own_special_step sub f addr ins sc events in continue pe
              | StEmpty => continue (Proceed, events)
              | StExcept factor exc =>
                  letu pe := own_except_scan sub (fun a evs => run debug g f (Some a) evs) f addr factor exc events in continue pe
              end
          end
      end
  end.

(** machine.rs:32-42  [LexMachine::parse] from the entry address. *)
Definition own_machine_parse (fuel : nat) (entry : nat) : act (list event) :=
  letu (p, events) := own_run fuel (Some entry) [] in
  match p with
  | NotThisWay e => ufail e
  | Proceed =>
      letu eof := u_is_eof ops in
      if eof then
        if debug && negb (removed_labels_agree (tl events)) then ucrash PDebugAssert
        else uret (remove_empty_pairs events)
      else
        letu e := own_err_expected None in ufail e
  end.


End Machine.
End Own.

(** src/parser/mod.rs:75-77  [Parser::parse] with a reader of one's own. *)
Definition own_parse {U : Type} (ops : methods U) (debug : bool) (g : graph) (fuel : nat) (m : machine) : U -> res (list event) * U :=
  own_machine_parse U debug g ops fuel (mc_entry m).

(** [MarkableReader] (src/io/mod.rs:355-369) as a reader of one's own. *)
Definition library_methods (debug : bool) : methods mreader :=
  Methods _ (fun r => ub_loc (mr_ub r)) (m_mark debug) m_reset m_unmark (m_read debug) (m_is_eof debug) (m_prefix_matches debug) (m_peek debug) (m_skip debug).
Definition library_required (debug : bool) : required mreader :=
  Required _ (m_read_chars debug) (fun r => ub_loc (mr_ub r)) (m_mark debug) m_reset m_unmark.
