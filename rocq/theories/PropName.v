(** Property C76: the name given to the source of a syntax. *)
From Coq Require Import String List NArith Arith Bool Lia.
From Verif Require Import Base Ident Tokenizer Ast Lex Syntax Io Decode Read Open Graph Machine SpecText SpecSyntax SpecIo SpecGram SpecDecode TextFacts SyntaxFacts IoFacts SpecLex SpecParse SpecMachine SpecEvents SpecLike SpecName Pure ParseFacts LikeFacts LikeUse NameFacts NameUse PropSyntax PropParse PropEvents PropLike PropOpen.
Import ListNotations.
Open Scope nat_scope.

(** ** C76.  The name of the source of a syntax shows in locations, and nowhere else *)
(** Any calls, failed calls included, on two lexers made with different names. *)
Theorem C76_lexer : forall n1 n2 max hs, Forall2 (renamed_observation n1 n2) (observations (lx_new n1 max) hs) (observations (lx_new n2 max) hs).
Proof. intros n1 n2 max hs. apply observations_same, lx_new_same. Qed.
Print Assumptions C76_lexer.
Theorem C76_parse_str : forall n1 n2 s, renamed_res n1 n2 (renamed_rules n1 n2) (parse_str n1 s) (parse_str n2 s).
Proof. exact parse_str_same. Qed.
Print Assumptions C76_parse_str.
(** Any encodings, any label, limit and stream of bytes, failing ones included. *)
Theorem C76_read_from : forall for_label n1 n2 label max b,
  renamed_res n1 n2 (renamed_rules n1 n2) (parse_stream for_label n1 label max b) (parse_stream for_label n2 label max b) /\
  renamed_res n1 n2 (renamed_syntax n1 n2) (syntax_from for_label n1 label max b) (syntax_from for_label n2 label max b).
Proof. intros fl n1 n2 label max b. split; [apply parse_stream_same|apply syntax_from_same]. Qed.
Print Assumptions C76_read_from.
(** What the relation says: the rules are determined, shown alike, and the same but for
    locations. *)
Theorem C76_determined : forall n1 n2 rs a b, n1 <> of_string "<unknown>" -> renamed_rules n1 n2 rs a -> renamed_rules n1 n2 rs b -> a = b.
Proof. intros n1 n2 rs a b N A B. refine (rules_one (renamed_place n1 n2) _ rs a A b B). intros l x y. apply renamed_one. exact N. Qed.
Print Assumptions C76_determined.
Theorem C76_shown : forall n1 n2 rs rs', renamed_rules n1 n2 rs rs' -> show_rules rs = show_rules rs' /\ Forall2 eq_but_loc rs rs'.
Proof. intros n1 n2 rs rs' H. split; [exact (like_rules_shown _ _ _ H)|exact (like_but_loc _ _ _ H)]. Qed.
Print Assumptions C76_shown.
(** Hence the parsers made from both answer alike. *)
Theorem C76_parsers : forall n1 n2 s rs1 cfg g1 id m1, parse_str n1 s = Ok rs1 -> placeless cfg -> parser_for rs1 cfg g1 id m1 ->
  exists rs2 g2 m2, parse_str n2 s = Ok rs2 /\ renamed_rules n1 n2 rs1 rs2 /\ parser_for rs2 cfg g2 id m2 /\
  forall debug fuel1 rd, reader rd -> ending_of rd = None -> fst (parser_parse debug g1 fuel1 m1 rd) <> OutOfFuel ->
  exists f0, forall fuel, f0 <= fuel ->
    same_but_definitions (fst (parser_parse debug g1 fuel1 m1 rd)) (fst (parser_parse debug g2 fuel m2 rd)).
Proof.
  intros n1 n2 s rs1 cfg g1 id m1 H Hc Hp. pose proof (parse_str_same n1 n2 s) as K. rewrite H in K.
  destruct (parse_str n2 s) as [rs2|e|p|] eqn:E; try contradiction.
  destruct (rewritten_pf rs1 n2 s rs2 cfg g1 id m1 E (but_loc_sym _ _ (like_but_loc _ _ _ K)) Hc Hp) as (rs3 & g2 & m2 & E3 & P & Q).
  rewrite E in E3. injection E3 as <-. exists rs2, g2, m2. split; [reflexivity|]. split; [exact K|]. split; [exact P|exact Q].
Qed.
Print Assumptions C76_parsers.

(** An empty definition that stands nowhere (C53), a rule cut by a failed call, a reset. *)
Example C76_case :
  observations (lx_new (txt "one") 0) [HPushStr (txt "S=A,[];A='x';"); HPush 59%N; HPushStr (txt "B=:"); HReset; HPushStr (txt "C"); HFlush] =
    [RList (Ok [Rule (Loc (txt "one") 1 1) (txt "S") [[Term (Factor 1%N (PMeta (Loc (txt "one") 1 3) (txt "A"))) None;
         Term (Factor 1%N (POptional (Loc (txt "one") 1 5) [[Term (Factor 1%N (PEmpty (Loc (txt "<unknown>") 1 1))) None]])) None]];
       Rule (Loc (txt "one") 1 8) (txt "A") [[Term (Factor 1%N (PTerminal (Loc (txt "one") 1 10) (txt "x"))) None]]]);
     ROpt (Ok None); RList (Ok []); RNone; RList (Ok []); ROpt (Err (Error_ (Loc (txt "one") 1 2) (MDefiningExpected (txt "EOF"))))] /\
  observations (lx_new (txt "two") 0) [HPushStr (txt "S=A,[];A='x';"); HPush 59%N; HPushStr (txt "B=:"); HReset; HPushStr (txt "C"); HFlush] =
    [RList (Ok [Rule (Loc (txt "two") 1 1) (txt "S") [[Term (Factor 1%N (PMeta (Loc (txt "two") 1 3) (txt "A"))) None;
         Term (Factor 1%N (POptional (Loc (txt "two") 1 5) [[Term (Factor 1%N (PEmpty (Loc (txt "<unknown>") 1 1))) None]])) None]];
       Rule (Loc (txt "two") 1 8) (txt "A") [[Term (Factor 1%N (PTerminal (Loc (txt "two") 1 10) (txt "x"))) None]]]);
     ROpt (Ok None); RList (Ok []); RNone; RList (Ok []); ROpt (Err (Error_ (Loc (txt "two") 1 2) (MDefiningExpected (txt "EOF"))))].
Proof. split; vm_compute; reflexivity. Qed.
(** A duplicate, found in bytes. *)
Example C76_bytes :
  syntax_from table (txt "one") (txt "UTF8") 0 (BS [as_bytes (txt "S='x';S"); as_bytes (txt "='y';")] None) =
    Err (Error_ (Loc (txt "one") 1 7) (MDuplicate (txt "S") 1 1)) /\
  syntax_from table (txt "two") (txt "UTF8") 0 (BS [as_bytes (txt "S='x';S"); as_bytes (txt "='y';")] None) =
    Err (Error_ (Loc (txt "two") 1 7) (MDuplicate (txt "S") 1 1)).
Proof. split; vm_compute; reflexivity. Qed.
(** The hypotheses of [C76_parsers]. *)
Example C76_parsers_case : exists rs1 g1 m1, parse_str [] tight = Ok rs1 /\ placeless default_config /\ parser_for rs1 default_config g1 (txt "S") m1 /\
  fst (parser_parse true g1 200 m1 (text_reader (txt "ab"))) = Ok [bg 1 1 "S"; bg 4 1 "A"; tk 19 1 "a"; en 4 2 "A"; tk 6 2 "b"; en 1 3 "S"].
Proof.
  destruct (parse_case_ok default_config tight (txt "S") true 200 (text_reader (txt "ab")) _ (proj1 C58_case)) as (g & m & P & E).
  exists (rules_of tight), g, m. split; [vm_compute; reflexivity|]. split; [|split; [exact P|exact E]].
  apply C58_library; [exact (proj2 library_case)|reflexivity].
Qed.
