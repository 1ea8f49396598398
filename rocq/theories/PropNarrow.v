(** Property C80: the integers of the code are wide enough.

    Narrow.v and NarrowMachine.v are the lexer, the reader and the parser with line and
    column numbers and stream positions as [u64], nesting depths as [i32] and the counter
    of repetitions as [u32]; [None] says that an addition overflows.  [Some x] says that
    nothing overflows and that the result is the one of unbounded arithmetic.
    [given_all hs]: the number of characters pushed in the history [hs]. *)
From Coq Require Import String List NArith Arith Bool Lia.
From Verif Require Import Base Ident Tokenizer Ast Lex Syntax Io Graph Machine SpecText SpecLex SpecIo SpecNarrow SpecMachine TextFacts TokRun GramFacts TreeFacts IoFacts Narrow NarrowMachine NarrowFacts NarrowIo NarrowRun PropSyntax PropParse.
Import ListNotations.
Open Scope N_scope.

(** Lexing: any history of calls in which the characters and the calls are fewer than
    2^31 together, with whatever faults in the text. *)
Theorem C80_lexer : forall name max hs, N.of_nat (given_all hs) + N.of_nat (length hs) < 2 ^ 31 ->
  observations64 (lx_new name max) hs = Some (observations (lx_new name max) hs).
Proof.
  intros name max hs H. change (2 ^ 31) with i32_limit in H. apply (history_fits hs 0 0); [apply held_new|lia].
Qed.
Print Assumptions C80_lexer.
Theorem C80_parse_str : forall name s, N.of_nat (length s) + 2 < 2 ^ 31 -> parse_str64 name s = Some (parse_str name s).
Proof. exact parse_str_fits. Qed.
Print Assumptions C80_parse_str.
(** ...and hardly more is possible: a text of 2^31 + 4 characters, a rule with an opening
    bracket after another, overflows the depth. *)
Theorem C80_lexer_sharp : exists s, N.of_nat (length s) = 2 ^ 31 + 4 /\ forall name, parse_str64 name s = None.
Proof.
  exists (open_text (N.to_nat i32_limit)). split.
  - unfold open_text. rewrite !app_length, repeat_length. cbn [length]. rewrite !Nat2N.inj_add, N2Nat.id. reflexivity.
  - intros name. apply open_overflows; rewrite N2Nat.id; [lia|reflexivity].
Qed.
Print Assumptions C80_lexer_sharp.
Example C80_lexer_case :
  observations64 (lx_new (txt "f") 0) [HPushStr (txt "a=(('b'))"); HPush c_semi; HPushStr (txt "(*(**)"); HFlush] =
  Some (observations (lx_new (txt "f") 0) [HPushStr (txt "a=(('b'))"); HPush c_semi; HPushStr (txt "(*(**)"); HFlush]) /\
  parse_str64 [] (txt "a=(('b'));") = Some (parse_str [] (txt "a=(('b'));")) /\ (exists rs, parse_str [] (txt "a=(('b'));") = Ok rs).
Proof. split; [|split; [|eexists]]; vm_compute; reflexivity. Qed.

(** Reading: any history of calls on a reader whose numbers could reach no more than
    2^64 - 1 if the whole text were one line, or all of it line ends. *)
Theorem C80_reader : forall debug l s os,
  l_lines l + N.of_nat (length (concat (s_chunks s))) < 2 ^ 64 -> l_columns l + N.of_nat (length (concat (s_chunks s))) < 2 ^ 64 ->
  perform64 debug os (mr_new l s) = Some (perform debug os (mr_new l s)).
Proof.
  intros debug l s os H1 H2. change (2 ^ 64) with u64_limit in *. fold (size (concat (s_chunks s))) in H1, H2.
  apply (perform_fits debug os (size (concat (s_chunks s))) (u64_limit - 1)); [lia|reflexivity|]. apply thin_new. split; lia.
Qed.
Print Assumptions C80_reader.
Theorem C80_reader_sharp : exists l s os, l_columns l + N.of_nat (length s) = 2 ^ 64 /\ forall debug, perform64 debug os (mr_of_text l s) = None.
Proof. exists (Loc [] 1 (2 ^ 64 - 2)), (txt "ab"), [ORead 2]. split; [reflexivity|]. intros [|]; vm_compute; reflexivity. Qed.
Print Assumptions C80_reader_sharp.
Example C80_reader_case : let os := [OMark; ORead 2; OIsEof; OReset 0; OPeek 3; OLocation; OUnmark 7; OReadAll] in
  perform64 true os (mr_of_text (Loc [] 1 (2 ^ 64 - 4)) (txt "abc")) = Some (perform true os (mr_of_text (Loc [] 1 (2 ^ 64 - 4)) (txt "abc"))).
Proof. vm_compute. reflexivity. Qed.

(** Parsing, from wherever earlier calls have left the reader.  The counts of the rules
    have to be [u32]s, which they are by their type... *)
Theorem C80_parser : forall rs cfg g id m debug fuel l s os, parser_for rs cfg g id m -> u32_rules rs = true ->
  l_lines l + N.of_nat (length (concat (s_chunks s))) < 2 ^ 64 -> l_columns l + N.of_nat (length (concat (s_chunks s))) < 2 ^ 64 ->
  let rd := snd (perform debug os (mr_new l s)) in
  parser_parse64 debug g fuel m rd = Some (parser_parse debug g fuel m rd).
Proof.
  intros rs cfg g id m debug fuel l s os ((sy & Hs & Hc) & _) Hu H1 H2. change (2 ^ 64) with u64_limit in *. fold (size (concat (s_chunks s))) in H1, H2. cbv zeta.
  destruct (perform_fits debug os (size (concat (s_chunks s))) (u64_limit - 1) (mr_new l s)) as (_ & T); [lia|reflexivity|apply thin_new; split; lia|].
  refine (proj1 (agree_machine debug g (compile_narrow cfg rs sy g Hu Hs Hc) fuel (mc_entry m) (size (concat (s_chunks s))) (u64_limit - 1) _ _ _ T)); [lia|reflexivity].
Qed.
Print Assumptions C80_parser.
(** ...and which the lexer sees to. *)
Theorem C80_counts : forall name t rs, parse_str name t = Ok rs -> u32_rules rs = true.
Proof.
  intros name t rs H. apply parse_wf in H. unfold u32_rules. apply forallb_forall. intros r Hr. rewrite Forall_forall in H.
  apply wf_u32. apply (H r Hr).
Qed.
Print Assumptions C80_counts.
Theorem C80_parser_sharp : exists rs cfg g id m l s, parser_for rs cfg g id m /\ u32_rules rs = true /\
  l_columns l + N.of_nat (length s) = 2 ^ 64 /\ forall debug, parser_parse64 debug g 100 m (mr_of_text l s) = None.
Proof.
  destruct (prepare default_config (txt "S='a','b';") (txt "S")) as [(g & m)|] eqn:E; [|vm_compute in E; discriminate].
  exists (rules_of (txt "S='a','b';")), default_config, g, (txt "S"), m, (Loc [] 1 (2 ^ 64 - 2)), (txt "ab").
  split; [apply prepare_ok; exact E|]. split; [vm_compute; reflexivity|]. split; [reflexivity|].
  vm_compute in E. injection E as <- <-. intros [|]; vm_compute; reflexivity.
Qed.
Print Assumptions C80_parser_sharp.
Definition parse_case64 (cfg : config) (t id : str) (debug : bool) (fuel : nat) (rd : mreader) : option (res (list event)) :=
  match prepare cfg t id with Some (g, m) => match parser_parse64 debug g fuel m rd with Some x => Some (fst x) | None => None end | None => None end.
Example C80_parser_case : u32_rules (rules_of (txt "S=3*{'a'-'b'},['c'];")) = true /\
  parse_case64 default_config (txt "S=3*'a'-'b',['c'],{'d'};") (txt "S") true 100 (mr_of_text (Loc [] (2 ^ 64 - 6) (2 ^ 64 - 6)) (txt "aaacd")) =
  parse_case default_config (txt "S=3*'a'-'b',['c'],{'d'};") (txt "S") true 100 (mr_of_text (Loc [] (2 ^ 64 - 6) (2 ^ 64 - 6)) (txt "aaacd")) /\
  exists evs, parse_case64 default_config (txt "S=3*'a'-'b',['c'],{'d'};") (txt "S") true 100 (mr_of_text (Loc [] (2 ^ 64 - 6) (2 ^ 64 - 6)) (txt "aaacd")) = Some (Ok evs).
Proof. split; [|split; [|eexists]]; vm_compute; reflexivity. Qed.
