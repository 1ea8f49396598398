(** The parsing machine on a text and a location, without reader, buffer and marks.
    A proof device (not a model of code): [pure_run] and the rest mirror Machine.v
    with marks replaced by the state they return to; PureFacts.v proves that the
    machine over any reader gives these results. *)
From Coq Require Import String List NArith Arith Bool.
From Verif Require Import Base Ident Tokenizer Ast Lex Syntax Io Graph Machine SpecParse.
Import ListNotations.
Open Scope nat_scope.

Definition P (A : Type) := pst -> res A * pst.
Definition pret {A} (a : A) : P A := fun s => (Ok a, s).
Definition pfail {A} (e : error) : P A := fun s => (Err e, s).
Definition pcrash {A} (x : panic) : P A := fun s => (Panic x, s).
Definition pno_fuel {A} : P A := fun s => (OutOfFuel, s).
Definition pbind {A B} (m : P A) (f : A -> P B) : P B := fun s =>
  match m s with
  | (Ok a, s') => f a s'
  | (Err e, s') => (Err e, s')
  | (Panic p, s') => (Panic p, s')
  | (OutOfFuel, s') => (OutOfFuel, s')
  end.
Notation "'letp' x := m 'in' k" := (pbind m (fun x => k))
  (at level 200, x pattern, m at level 100, k at level 200).
Definition pget : P pst := fun s => (Ok s, s).
Definition pput (s : pst) : P unit := fun _ => (Ok tt, s).
Definition ploc : P location := fun s => (Ok (p_at s), s).

(** Moving over a prefix of the text. *)
Definition move (n : nat) (s : pst) : pst :=
  Pst (skipn n (p_rest s)) (loc_push_str (p_at s) (firstn n (p_rest s))).

Section Ending.
(** How the text ends, as in [source]. *)
Variable ending : option error.

Definition wrapped (l : location) (e : error) : error := Error_ l (MWrapped (e_loc e) (e_msg e)).
Definition pread : P (option char) := fun s =>
  match p_rest s with
  | c :: _ => (Ok (Some c), move 1 s)
  | [] => match ending with None => (Ok None, s) | Some e => (Err (wrapped (p_at s) e), s) end
  end.
Definition peof : P bool := fun s =>
  match pread s with
  | (Ok o, _) => (Ok (match o with None => true | Some _ => false end), s)
  | (Err e, s') => (Err e, s')
  | (Panic p, s') => (Panic p, s')
  | (OutOfFuel, s') => (OutOfFuel, s')
  end.
Fixpoint pprefix_loop (s : str) : P bool :=
  match s with
  | [] => pret true
  | a :: s' =>
      letp o := pread in
      match o with
      | Some c => if N.eqb c a then pprefix_loop s' else pret false
      | None => pret false
      end
  end.
(** Runs [m] and comes back unless it fails. *)
Definition back {A} (m : P A) : P A := fun s =>
  match m s with (Ok a, _) => (Ok a, s) | x => x end.
Definition pprefix (s : str) : P bool := back (pprefix_loop s).
Fixpoint ppeek_loop (n : nat) : P str :=
  match n with
  | O => pret []
  | S n' =>
      letp o := pread in
      match o with
      | Some c => letp r := ppeek_loop n' in pret (c :: r)
      | None => pret []
      end
  end.
Definition ppeek (n : nat) : P str := back (ppeek_loop n).
(** For at most as many characters as there are. *)
Definition pskip (n : nat) : P unit := fun s => (Ok tt, move n s).

Definition pstream_prefix : P actual :=
  letp eof := peof in
  if eof then pret AEof
  else letp p := ppeek 9 in
       pret (if Nat.ltb (length p) 9 then AText p false else AText (firstn 8 p) true).
Section Graph.
Variable g : graph.
Definition perr_expected (current : option nat) : P error :=
  letp loc := ploc in
  let expected :=
    match current with
    | Some i => match nth_error (g_instrs g) i with
                | Some n => i_symbol n
                | None => of_string "EOF"
                end
    | None => of_string "EOF"
    end in
  fun r =>
    match pstream_prefix r with
    | (Ok a, r') => (Ok (Error_ loc (MExpected expected a)), r')
    | (Err e, r') => (Ok e, r')
    | (Panic p, r') => (Panic p, r')
    | (OutOfFuel, r') => (OutOfFuel, r')
    end.
End Graph.
(** For any number of characters. *)
Definition pskip_any (n : nat) : P nat := letp w := ppeek_loop n in pret (length w).
Fixpoint prun_sprog (p : sprog) (own : list pst) : P reaction :=
  match p with
  | SpRet r => pret r
  | SpFail e => pfail e
  | SpRead k => letp c := pread in prun_sprog (k c) own
  | SpLoc k => letp l := ploc in prun_sprog (k l) own
  | SpEof k => letp b := peof in prun_sprog (k b) own
  | SpPrefix w k => letp b := pprefix w in prun_sprog (k b) own
  | SpPeek n k => letp w := ppeek n in prun_sprog (k w) own
  | SpSkip n k => letp m := pskip_any n in prun_sprog (k m) own
  | SpMark k => letp s := pget in prun_sprog k (s :: own)
  | SpReset i k =>
      match skipn i own with
      | s :: older =>
          letp t := pget in
          letp _ := pput s in
          prun_sprog (k (length (p_rest s) - length (p_rest t))) older
      | [] => prun_sprog (k 0) own
      end
  | SpUnmark i k =>
      match skipn i own with
      | _ :: older => prun_sprog k older
      | [] => prun_sprog k own
      end
  end.
Fixpoint pchars_loop (fuel : nat) (pred : char -> bool) (max : option N) (n : N) : P str :=
  match fuel with
  | O => pno_fuel
  | S f =>
      if match max with Some m => N.ltb n m | None => true end then
        letp s := pget in
        letp ch := pread in
        match ch with
        | Some c =>
            if negb (pred c) then letp _ := pput s in pret []
            else letp rest := pchars_loop f pred max (n + 1)%N in pret (c :: rest)
        | None => pret []
        end
      else pret []
  end.
Definition pchars_scan (fuel : nat) (pred : char -> bool) (min max : option N)
    (def : location) : P reaction :=
  letp s := pget in
  letp loc := ploc in
  letp buffer := pchars_loop fuel pred max 0%N in
  if match min with Some m => N.ltb (N.of_nat (length buffer)) m | None => false end then
    letp _ := pput s in pret RUnmatch
  else pret (RMatch [EvToken def loc buffer]).
Definition pregex_scan (find : str -> option (nat * nat)) (def : location) : P reaction :=
  letp loc := ploc in
  letp token := ppeek (S regex_max) in
  match find token with
  | Some (O, len) =>
      let token := firstn len token in
      if Nat.ltb regex_max (length token) then
        letp l := ploc in pfail (Error_ l MRegexTooLong)
      else letp _ := pskip (length token) in pret (RMatch [EvToken def loc token])
  | _ => pret RUnmatch
  end.
Definition pspecial_scan (fuel : nat) (sc : scanner) (def : location) : P reaction :=
  match sc with
  | ScDefault _ => pret (RMatch [])
  | ScChars pred min max => pchars_scan fuel pred min max def
  | ScRegex _ find => pregex_scan find def
  | ScUser _ prog => prun_sprog (prog def) []
  end.
Fixpoint prep_loop (sub : list event -> P (prospect * list event)) (fuel : nat)
    (min max i : N) (temp : list event) : P (error + list event) :=
  match fuel with
  | O => pno_fuel
  | S f =>
      if N.ltb i max then
        letp s := pget in
        letp (p, temp) := sub temp in
        match p with
        | NotThisWay e =>
            if N.ltb i min then pret (inl e)
            else letp _ := pput s in pret (inr temp)
        | Proceed =>
            letp loc' := ploc in
            if (N.eqb max u32_max && loc_eqb loc' (p_at s))%bool
            then pfail (Error_ (p_at s) MLivelock)
            else prep_loop sub f min max (i + 1)%N temp
        end
      else pret (inr temp)
  end.
Fixpoint por_loop (sub : nat -> P (prospect * list event)) (subs : list nat)
  : P (list error + list event) :=
  match subs with
  | [] => pret (inl [])
  | a :: rest =>
      letp s := pget in
      letp (p, temp) := sub a in
      match p with
      | Proceed => pret (inr temp)
      | NotThisWay e =>
          letp _ := pput s in
          letp o := por_loop sub rest in
          pret (match o with inl es => inl (e :: es) | inr t => inr t end)
      end
  end.
End Ending.

Section Machine.
Variable g : graph.
(** The text the factor matched, between two states. *)
Definition between (s s' : pst) : str :=
  firstn (length (p_rest s) - length (p_rest s')) (p_rest s).
(** [sub] takes the ending too: the exception is tried on the text matched alone. *)
Definition pexcept_scan (sub : option error -> nat -> list event -> P (prospect * list event))
    (ending : option error) (fuel : nat) (addr factor exc : nat)
    (events : list event) : P (prospect * list event) :=
  letp s := pget in
  letp (p, temp) := sub ending factor [] in
  match p with
  | NotThisWay e => letp _ := pput s in pret (NotThisWay e, events)
  | Proceed =>
      letp s' := pget in
      let buffer := between s s' in
      if Nat.ltb (length buffer) fuel then
        let test :=
          (letp (p, _) := sub None exc [] in
           match p with Proceed => peof None | NotThisWay _ => pret false end)
            (Pst buffer (p_at s)) in
        match fst test with
        | Ok true =>
            letp _ := pput s in
            letp e := perr_expected ending g (Some addr) in
            pret (NotThisWay e, events)
        | Ok false => pret (Proceed, events ++ temp)
        | Err e => pfail e
        | Panic x => pcrash x
        | OutOfFuel => pno_fuel
        end
      else fun _ => (OutOfFuel, move fuel s)
  end.
Definition pspecial_step (sub : nat -> list event -> P (prospect * list event))
    (ending : option error) (fuel : nat) (addr : nat) (ins : instr)
    (sc : scanner) (events : list event) : P (prospect * list event) :=
  letp s := pget in
  letp rc := pspecial_scan ending fuel sc (i_def ins) in
  match rc with
  | RMatch evts => pret (Proceed, events ++ evts)
  | RForward id =>
      match g_label g id with
      | Some next =>
          letp (_, events) := sub next events in
          pret (Proceed, events)
      | None =>
          letp _ := pput s in
          letp l := ploc in
          pfail (Error_ l (MNoSuchForward id (i_symbol ins) (i_def ins)))
      end
  | RUnmatch =>
      letp _ := pput s in
      letp e := perr_expected ending g (Some addr) in
      pret (NotThisWay e, events)
  end.
Definition pterminal_step (ending : option error) (addr : nat) (ins : instr) (s : str)
    (events : list event) : P (prospect * list event) :=
  letp b := pprefix ending s in
  if b then
    letp loc := ploc in
    letp _ := pskip (length s) in
    pret (Proceed, events ++ [EvToken (i_def ins) loc s])
  else
    letp e := perr_expected ending g (Some addr) in
    pret (NotThisWay e, events).
Fixpoint prun (fuel : nat) (ending : option error) (next : option nat) (events : list event)
  : P (prospect * list event) :=
  match fuel with
  | O => pno_fuel
  | S f =>
      match next with
      | None => pret (Proceed, events)
      | Some addr =>
          match nth_error (g_instrs g) addr with
          | None => pcrash PUnwrap
          | Some ins =>
              let sub := fun en a evs => prun f en (Some a) evs in
              let continue (pe : prospect * list event) :=
                let '(p, evs) := pe in
                match p with
                | NotThisWay e => pret (NotThisWay e, evs)
                | Proceed => prun f ending (i_next ins) evs
                end in
              match i_step ins with
              | StRepetition min max s =>
                  letp o := prep_loop (sub ending s) f min max 0%N [] in
                  match o with
                  | inl e => pret (NotThisWay e, events)
                  | inr temp => prun f ending (i_next ins) (events ++ temp)
                  end
              | StOr subs =>
                  letp o := por_loop (fun s => sub ending s []) subs in
                  match o with
                  | inr temp => prun f ending (i_next ins) (events ++ temp)
                  | inl es =>
                      match pick_error (rev es) with
                      | None => pcrash PUnwrap
                      | Some err =>
                          letp l := ploc in
                          if loc_eqb (e_loc err) l then
                            letp e := perr_expected ending g (Some addr) in
                            pret (NotThisWay e, events)
                          else pret (NotThisWay err, events)
                      end
                  end
              | StAlias id =>
                  match g_label g id with
                  | None => pcrash PUnwrap
                  | Some address =>
                      match g_canonical g id with
                      | None => pcrash PUnwrap
                      | Some name =>
                          letp l := ploc in
                          letp (p, temp) := sub ending address [EvBegin (i_def ins) l name] in
                          match p with
                          | NotThisWay e => pret (NotThisWay e, events)
                          | Proceed =>
                              letp l := ploc in
                              prun f ending (i_next ins)
                                (events ++ temp ++ [EvEnd (i_def ins) l name])
                          end
                      end
                  end
              | StTerminal s =>
                  letp pe := pterminal_step ending addr ins s events in continue pe
              | StSpecial sc =>
                  letp pe := pspecial_step (sub ending) ending f addr ins sc events in continue pe
              | StEmpty => continue (Proceed, events)
              | StExcept factor exc =>
                  letp pe := pexcept_scan sub ending f addr factor exc events in continue pe
              end
          end
      end
  end.
Definition pmachine_parse (debug : bool) (fuel : nat) (ending : option error) (entry : nat) : P (list event) :=
  letp (p, events) := prun fuel ending (Some entry) [] in
  match p with
  | NotThisWay e => pfail e
  | Proceed =>
      letp eof := peof ending in
      if eof then
        if (debug && negb (removed_labels_agree (tl events)))%bool then pcrash PDebugAssert
        else pret (remove_empty_pairs events)
      else
        letp e := perr_expected ending g None in pfail e
  end.
End Machine.
