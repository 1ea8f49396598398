(** C81: debug builds and release builds. *)
From Coq Require Import String List NArith Arith Bool Lia.
From Verif Require Import Base Ident Tokenizer Ast Lex LexRelease Syntax Io Graph Machine SpecLex SpecText SpecSyntax SpecIo IoFacts SyntaxFacts SpecParse SpecMachine SpecEvents MachineFacts SpecBuild BuildFacts StuckFacts BuildIo BuildParse PropSyntax PropParse PropEvents.
Import ListNotations.
Open Scope nat_scope.

(** ** The lexer *)
(** Whatever is called, the two builds give the same results up to the call that a debug
    assertion stops in the debug build. *)
Theorem C81_lexer : forall lx hs, release_observations lx hs = observations lx hs \/
  exists before h after, hs = before ++ h :: after /\ release_observations lx before = observations lx before /\
    stopped (hobserve (history lx before) h).
Proof. exact (fun lx hs => lexer_builds hs lx). Qed.
Print Assumptions C81_lexer.

(** A client that calls [reset] after each failed call never meets the assertion. *)
Theorem C81_lexer_careful : forall name m hs,
  careful hs (observations (lx_new name m) hs) \/ careful hs (release_observations (lx_new name m) hs) ->
  Forall (fun o => ~ stopped o) (observations (lx_new name m) hs) /\
  release_observations (lx_new name m) hs = observations (lx_new name m) hs.
Proof. exact (fun name m hs => careful_builds hs (lx_new name m) (or_introl eq_refl)). Qed.
Print Assumptions C81_lexer_careful.

(** So does [parse_str]. *)
Lemma parse_str_builds : forall name s, parse_str_release name s = parse_str name s.
Proof.
  intros name s. unfold parse_str, parse_str_release.
  destruct (ready_step (lx_new name 0) (HPushStr s) [] (or_introl eq_refl)) as (E1 & E2 & _ & K). cbn [release_observe hobserve release_step hstep] in *.
  injection E1 as E1. rewrite (surjective_pairing (lx_push_str_release (lx_new name 0) s)), E1, E2, (surjective_pairing (lx_push_str (lx_new name 0) s)).
  cbn [fst snd]. destruct (snd (lx_push_str (lx_new name 0) s)) as [rs|e|p|]; try reflexivity. cbn [bind]. specialize (K I).
  destruct (ready_step _ HFlush [] (or_introl K)) as (F1 & F2 & _). cbn [release_observe hobserve release_step hstep] in *. injection F1 as F1.
  rewrite (surjective_pairing (lx_flush_release (fst (lx_push_str (lx_new name 0) s)))), F1, (surjective_pairing (lx_flush (fst (lx_push_str (lx_new name 0) s)))). reflexivity.
Qed.
Theorem C81_parse_str : forall name s, parse_str_release name s = parse_str name s.
Proof. exact parse_str_builds. Qed.
Print Assumptions C81_parse_str.

(** After an error about the rules no call brings a rule until [reset].  A debug build stops
    whenever a rule ends. *)
Theorem C81_debug_after_error : forall name m hs h e later,
  gave (hobserve (history (lx_new name m) hs) h) e -> ~ about_characters (e_msg e) -> ~ In HReset later ->
  Forall (fun o => stopped o \/ silent o) (observations (hstep (history (lx_new name m) hs) h) later).
Proof. exact (fun name m hs h e later H1 H2 => debug_repeats later _ (debug_spoils _ h e H1 H2)). Qed.
Print Assumptions C81_debug_after_error.
(** A release build repeats the error, unless it is about a bracket that is not closed. *)
Theorem C81_release_after_error : forall name m hs h e later,
  gave (release_observe (release_history (lx_new name m) hs) h) e -> ~ about_characters (e_msg e) -> ~ about_closing (e_msg e) ->
  ~ In HReset later ->
  Forall (fun o => gave o e \/ silent o) (release_observations (release_step (release_history (lx_new name m) hs) h) later).
Proof. exact (fun name m hs h e later H1 H2 H3 => release_repeats later _ e H3 (release_sours _ h e H1 H2)). Qed.
Print Assumptions C81_release_after_error.
(** With such a bracket a release build can go on and give a rule that runs over a terminator,
    with what is between the terminator and the closing bracket left out. *)
Theorem C81_release_after_closing_refuted : exists s1 s2 e r,
  release_observations (lx_new [] 0) [HPushStr s1; HPushStr s2] = [RList (Err e); RList (Ok [r])] /\
  observations (lx_new [] 0) [HPushStr s1; HPushStr s2] = [RList (Err e); RList (Panic PDebugAssert)].
Proof.
  exists (txt "a=(b;"), (txt "c=d);"). do 2 eexists. split; vm_compute; reflexivity.
Qed.
Print Assumptions C81_release_after_closing_refuted.

Example C81_lexer_case :
  let hs := [HPushStr (txt "a=b"); HPush 59%N; HPushStr (txt "c=];x=y;"); HReset; HPushStr (txt "d=e;"); HFlush] in
  careful hs (observations (lx_new [] 0) hs) /\ exists e r1 r2,
  release_observations (lx_new [] 0) hs = [RList (Ok []); ROpt (Ok (Some r1)); RList (Err e); RNone; RList (Ok [r2]); ROpt (Ok None)].
Proof.
  split; [|do 3 eexists; vm_compute; reflexivity]. vm_compute. repeat split; auto.
Qed.
Example C81_after_case : exists e e',
  let hs := [HPushStr (txt "c=];x=y;"); HPushStr (txt "z"); HPushStr (txt "=1*"); HPush 46%N; HPushStr (txt "?"); HFlush; HPushStr (txt "?;")] in
  release_observations (lx_new [] 0) hs =
    [RList (Err e); RList (Ok []); RList (Ok []); ROpt (Err e); RList (Ok []); ROpt (Err e'); RList (Err e)] /\
  e_msg e = MConcatExpected (txt "end-option-symbol") /\ about_characters (e_msg e') /\
  observations (lx_new [] 0) hs =
    [RList (Err e); RList (Ok []); RList (Ok []); ROpt (Panic PDebugAssert); RList (Ok []); ROpt (Err e'); RList (Panic PDebugAssert)].
Proof.
  do 2 eexists. cbn zeta. split; [vm_compute; reflexivity|]. split; [vm_compute; reflexivity|]. split; [exact ac_spec_open|vm_compute; reflexivity].
Qed.

(** ** The reader *)
(** Whatever operations are performed, with whatever source, the two builds give the same
    answers up to the operation that a debug assertion stops. *)
Theorem C81_reader : forall os r, perform false os r = perform true os r \/
  exists done o rest answers r1 r2, os = done ++ o :: rest /\
    perform true done r = (answers, None, r1) /\ perform false done r = (answers, None, r1) /\
    perform1 true o r1 = (Panic PDebugAssert, r2).
Proof. exact perform_below. Qed.
Print Assumptions C81_reader.
Example C81_reader_case :
  let r := mr_of_text (loc_new []) (txt "abcdef") in
  let os := [OMark; OPeek 3; ORead 2; OReset 0%N; OLocation; OSkip 4; OIsEof] in
  perform false os r = perform true os r /\ length (fst (fst (perform true os r))) = 7.
Proof. vm_compute. split; reflexivity. Qed.

(** ** The parser *)
(** The same for a parse, whatever the graph, the scanners and the reader. *)
Theorem C81_parser : forall g fuel m rd, parser_parse false g fuel m rd = parser_parse true g fuel m rd \/
  fst (parser_parse true g fuel m rd) = Panic PDebugAssert.
Proof. exact parse_below. Qed.
Print Assumptions C81_parser.
(** If it stops in the debug build the text is accepted in the release build. *)
Theorem C81_parser_stopped : forall g fuel m rd, reader rd -> fst (parser_parse true g fuel m rd) = Panic PDebugAssert ->
  exists evs, fst (parser_parse false g fuel m rd) = Ok evs.
Proof. exact parse_stopped. Qed.
Print Assumptions C81_parser_stopped.
(** With scanners whose events nest the builds agree, in the state of the reader too. *)
Theorem C81_parser_same : forall rs cfg g id m fuel rd, parser_for rs cfg g id m -> reader rd -> nesting_scanners cfg ->
  parser_parse true g fuel m rd = parser_parse false g fuel m rd.
Proof. exact parse_builds. Qed.
Print Assumptions C81_parser_same.
Lemma parse_library : forall rs cfg g id m fuel rd, parser_for rs cfg g id m -> reader rd -> library_config cfg ->
  parser_parse true g fuel m rd = parser_parse false g fuel m rd.
Proof. intros rs cfg g id m fuel rd Hp Hr Hl. apply (parse_builds rs cfg g id); auto. apply (library_scanners cfg Hl). Qed.
Theorem C81_parser_library : forall rs cfg g id m fuel rd, parser_for rs cfg g id m -> reader rd -> library_config cfg ->
  parser_parse true g fuel m rd = parser_parse false g fuel m rd.
Proof. exact parse_library. Qed.
Print Assumptions C81_parser_library.

(** Scanners that give a beginning and an end with different names: accepted in a release build
    and stopped in a debug build. *)
Definition crossed : config := fun l _ => ScUser [] (fun d => SpRet (RMatch [EvBegin d l (txt "x"); EvEnd d l (txt "y")])).
Example C81_parser_case :
  parse_case crossed (txt "a=?s?;") (txt "a") true 20 (text_reader []) = Some (Panic PDebugAssert) /\
  (exists evs, parse_case crossed (txt "a=?s?;") (txt "a") false 20 (text_reader []) = Some (Ok evs)) /\
  exists evs, parse_case any_config small_text (txt "S") true 200 (text_reader (txt "xdeedz")) = Some (Ok evs) /\
    parse_case any_config small_text (txt "S") false 200 (text_reader (txt "xdeedz")) = Some (Ok evs).
Proof.
  split; [vm_compute; reflexivity|]. split; [eexists; vm_compute; reflexivity|]. eexists. split; vm_compute; reflexivity.
Qed.
