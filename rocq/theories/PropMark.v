(** Properties C64, C65: scanners written by the user, and the marks of a caller.

    [programmed own p s r] (SpecParse.v): what the program [p] answers at the place [s]
    of a text; [answers], [keeps_marks] (SpecMark.v). *)
From Coq Require Import String List NArith Arith Bool Lia.
From Verif Require Import Base Ident Tokenizer Ast Lex Syntax Io Graph Machine SpecText SpecSyntax SpecIo TextFacts SyntaxFacts IoFacts SpecParse SpecMachine SpecMark Pure ParseFacts MachineFacts MarkFacts PropSyntax PropParse.
Import ListNotations.
Open Scope nat_scope.

(** C64.  With a mark outstanding, as always during a parse. *)
Theorem C64_user_scanner : forall debug fuel sym prog def rd, reader rd -> ending_of rd = None ->
  ub_stack (mr_ub rd) <> [] ->
  exists r, programmed [] (prog def) (stand rd) r /\
    (forall r', programmed [] (prog def) (stand rd) r' -> r' = r) /\
    answers (special_scan debug fuel (ScUser sym prog) def rd) r.
Proof. exact program_answers. Qed.
Print Assumptions C64_user_scanner.
Theorem C64_scanner_keeps_marks : forall debug fuel sc def rd, reader rd -> ub_stack (mr_ub rd) <> [] ->
  keeps_marks rd (snd (special_scan debug fuel sc def rd)).
Proof. exact scan_keeps_marks. Qed.
Print Assumptions C64_scanner_keeps_marks.
(** A scanner for numbers with an optional fraction: it marks, reads, compares, skips and
    goes back where a dot is not followed by a digit. *)
Definition is_digit (c : N) : bool := (N.leb 48 c && N.leb c 57)%bool.
Fixpoint digits (fuel : nat) (acc : str) (k : str -> sprog) : sprog :=
  match fuel with
  | O => k acc
  | S f =>
      SpMark (SpRead (fun c =>
        match c with
        | Some d => if is_digit d then SpUnmark 0 (digits f (acc ++ [d]) k) else SpReset 0 (fun _ => k acc)
        | None => SpUnmark 0 (k acc)
        end))
  end.
Definition number (def : location) : sprog :=
  SpLoc (fun at_ =>
  let answer w := SpRet (RMatch [EvToken def at_ w]) in
  digits 20 [] (fun whole =>
  match whole with
  | [] => SpRet RUnmatch
  | _ =>
      SpPrefix [46%N] (fun dot =>
      if dot then
        SpMark (SpSkip 1 (fun _ =>
        digits 20 [] (fun part =>
        match part with
        | [] => SpReset 0 (fun _ => answer whole)
        | _ => answer (whole ++ 46%N :: part)
        end)))
      else answer whole)
  end)).
Definition numbers : config := fun _ _ => ScUser (txt "number") number.
Example C64_case :
  parse_case numbers (txt "S=? n ?,'..',? n ?;") (txt "S") true 100 (text_reader (txt "1..20.5")) =
    Some (Ok [bg 1 1 "S"; tk 3 1 "1"; tk 9 2 ".."; tk 14 4 "20.5"; en 1 8 "S"]) /\
  parse_case numbers (txt "S=? n ?;") (txt "S") true 100 (text_reader (txt "x")) =
    Some (Err (Error_ (Loc [] 1 1) (MExpected (txt "number") (Base.AText (txt "x") false)))).
Proof. split; vm_compute; reflexivity. Qed.
Example C64_case2 : let rd := snd (perform true [OMark] (text_reader (txt "1..2"))) in
  reader rd /\ ub_stack (mr_ub rd) <> [] /\
  fst (special_scan true 0 (ScUser (txt "number") number) (loc_new []) rd) = Ok (RMatch [EvToken (loc_new []) (loc_new []) (txt "1")]) /\
  unread (snd (special_scan true 0 (ScUser (txt "number") number) (loc_new []) rd)) = txt "..2".
Proof.
  split; [eapply (rd_op true OMark (text_reader (txt "1..2"))); [apply rd_new|vm_compute; reflexivity]|].
  split; [vm_compute; discriminate|]. split; vm_compute; reflexivity.
Qed.

(** C65.  Whatever the result of the parse. *)
Theorem C65_parse_keeps_marks : forall debug g fuel m rd, reader rd ->
  keeps_marks rd (snd (parser_parse debug g fuel m rd)).
Proof. exact parse_keeps_marks. Qed.
Print Assumptions C65_parse_keeps_marks.
(** A caller marks, reads a character, parses what follows, and goes back. *)
Example C65_case : match prepare numbers (txt "S=? n ?,'..';") (txt "S") with
  | Some (g, m) =>
      let rd := snd (perform true [OMark; ORead 1] (text_reader (txt "x12.3.."))) in
      let rd' := snd (parser_parse true g 100 m rd) in
      reader rd /\ (exists evs, fst (parser_parse true g 100 m rd) = Ok evs) /\ unread rd' = [] /\
      fst (m_reset 0%N rd) = Ok 1 /\ fst (m_reset 0%N rd') = Ok 7 /\ unread (snd (m_reset 0%N rd')) = txt "x12.3.."
  | None => False
  end.
Proof.
  vm_compute prepare. cbv beta iota. split; [|split; [eexists; vm_compute; reflexivity|]].
  - eapply (rd_op true (ORead 1) (snd (perform true [OMark] (text_reader (txt "x12.3.."))))); [|vm_compute; reflexivity].
    eapply (rd_op true OMark (text_reader (txt "x12.3.."))); [apply rd_new|vm_compute; reflexivity].
  - repeat split; vm_compute; reflexivity.
Qed.
