(** Property C56: what the errors of a parse say.

    [misses], [stops], [called] are in SpecError.v; [wanted s name] (SpecParse.v) is the
    error "[name] expected, but ... appeared" at [s], which quotes the first eight
    characters at [s]. *)
From Coq Require Import String List NArith Arith Bool Lia Relations.
From Verif Require Import Base Ident Tokenizer Ast Lex Syntax Io Graph Machine SpecText SpecSyntax SpecIo TextFacts SyntaxFacts SpecParse SpecMachine SpecError MachineFacts ErrorFacts PropSyntax PropParse.
Import ListNotations.
Open Scope nat_scope.

(** Every error of a parse is one of three: it names a construct of the rules that does
    not match at the place it points to; it says that the text should have ended at the
    place it points to, the rule having matched up to there; or it is one of the errors
    that stop a parse.  The first two quote the text they point to. *)
Theorem C56_errors : forall rs cfg g id m debug fuel rd e, parser_for rs cfg g id m ->
  reader rd -> ending_of rd = None ->
  fst (parser_parse debug g fuel m rd) = Err e ->
  misses rs cfg (stand rd) e \/
  (exists w s', goes (stand rd) w s' /\ p_rest s' <> [] /\ e = wanted s' (of_string "EOF") /\
     exists raw, means rs cfg id (stand rd) (Match s' raw)) \/
  stops rs cfg (stand rd) e.
Proof. exact parse_error. Qed.
Print Assumptions C56_errors.

(** When no definition of the rule matches, the error is the one of the last definition
    among those that got furthest; if none got anywhere, it names them all. *)
Theorem C56_choice : forall rs cfg g id m debug rd r, parser_for rs cfg g id m ->
  reader rd -> ending_of rd = None ->
  names rs id r -> r_defs r <> [] -> Forall (fun d => fails rs cfg (NSeq d) (stand rd)) (r_defs r) ->
  exists xs y, Forall2 (fun d x => fails_with rs cfg (NSeq d) (stand rd) x) (r_defs r) xs /\ last_furthest y xs /\
  exists f0, forall fuel, f0 <= fuel ->
    (e_loc y = p_at (stand rd) -> 2 <= length (r_defs r) ->
       fst (parser_parse debug g fuel m rd) = Err (wanted (stand rd) (defs_name cfg (r_defs r)))) /\
    (e_loc y <> p_at (stand rd) \/ length (r_defs r) = 1 -> fst (parser_parse debug g fuel m rd) = Err y).
Proof. exact parse_choice. Qed.
Print Assumptions C56_choice.

(** Concrete errors: a choice inside a sequence, the last of the furthest alternatives,
    quotation marks in a terminal, the end of the text, a repetition that matches nothing. *)
Example C56_case :
  let at_ c := Loc [] 1 c in
  parse_case default_config (txt "S='a',T,['!'];T='x'|2*'y'|{'z'}-'zz'|U|'k';U='u'|'v';") (txt "S") true 100 (text_reader (txt "azz nine more")) =
    Some (Err (Error_ (at_ 2%N) (MExpected (txt """x"", 2*'y', {'z'}-'zz', U, or ""k""") (Base.AText (txt "zz nine ") true)))) /\
  parse_case default_config (txt "S='x'|'a','b'|'a','c';") (txt "S") true 100 (text_reader (txt "ad")) =
    Some (Err (Error_ (at_ 2%N) (MExpected (txt """c""") (Base.AText (txt "d") false)))) /\
  parse_case default_config (txt "S='a','""';") (txt "S") true 100 (text_reader (txt "a")) =
    Some (Err (Error_ (at_ 2%N) (MExpected (txt """\""""") Base.AEof))) /\
  parse_case default_config (txt "S='a';") (txt "S") true 100 (text_reader (txt "ab")) =
    Some (Err (Error_ (at_ 2%N) (MExpected (txt "EOF") (Base.AText (txt "b") false)))) /\
  parse_case default_config (txt "S='a',{['b']};") (txt "S") true 100 (text_reader (txt "abc")) =
    Some (Err (Error_ (at_ 3%N) MLivelock)).
Proof. repeat split; vm_compute; reflexivity. Qed.
