(** Property C102: parsing with a reader of one's own.

    [Parser::parse] takes any [MarkableCharReader].  [own_parse] (OwnReader.v) is the parse
    over the methods of such a reader, [with_defaults] gives it the methods the trait
    defines.  [serves] and [serves_parse] (SpecOwn.v) say that a reader serves a text. *)
From Coq Require Import String List NArith Arith Bool Lia.
From Verif Require Import Base Ident Tokenizer Ast Lex Syntax Io Graph Machine OwnReader SpecText SpecSyntax SpecIo SpecOwn TextFacts SyntaxFacts IoFacts SpecParse SpecMachine Pure ParseFacts CodeFacts EvFacts MachineFacts OwnFacts OwnUse PropSyntax PropParse PropEvents.
Import ListNotations.
Open Scope nat_scope.

(** With any reader that serves a text the parse returns what it returns with the reader of
    the library over the characters not read yet, in debug and release builds, with rules
    that end and that do not, whether the text ends or the reader fails at its end.  The
    reader is left after the same characters, and the marks that stood before still stand. *)
Theorem C102_same_result : forall U text ending l0 at_ (ops : methods U), serves_parse U text ending l0 at_ ops -> forall debug g fuel m u c l,
  at_ u c -> orderly text c -> at_pos text l0 (c_pos c) l ->
  let lib := parser_parse debug g fuel m (mr_new l (Src [left_ text c] ending)) in
  exists u' c', own_parse ops debug g fuel m u = (fst lib, u') /\ at_ u' c' /\ orderly text c' /\
    left_ text c' = unread (snd lib) /\ at_pos text l0 (c_pos c') (ub_loc (mr_ub (snd lib))) /\ incl (c_marks c) (c_marks c').
Proof. exact own_same. Qed.
Print Assumptions C102_same_result.
(** It is enough to define the five methods that have no default. *)
Theorem C102_defaults : forall U text ending l0 at_ (q : required U), serves U text ending l0 at_ q -> serves_parse U text ending l0 at_ (with_defaults U q).
Proof. exact defaults_serve. Qed.
Print Assumptions C102_defaults.
(** The parse modelled in Machine.v is this one with the reader of the library. *)
Theorem C102_library : forall debug g fuel m r, own_parse (library_methods debug) debug g fuel m r = parser_parse debug g fuel m r.
Proof. exact own_library. Qed.
Print Assumptions C102_library.
(** In a release build the reader of the library serves its text. *)
Theorem C102_library_serves : forall text ending l0, serves mreader text ending l0 (rep text ending l0) (library_required false).
Proof. exact library_serves. Qed.
Print Assumptions C102_library_serves.

(** A parse from the beginning of the text. *)
Lemma own_from_start_pf : forall U text ending l0 at_ (q : required U), serves U text ending l0 at_ q -> forall rs cfg g id m debug fuel u, parser_for rs cfg g id m ->
  at_ u (Cur 0 []) -> fst (own_parse (with_defaults U q) debug g fuel m u) = fst (parser_parse debug g fuel m (mr_new l0 (Src [text] ending))).
Proof.
  intros U text ending l0 at_ q Hq rs cfg g id m debug fuel u _ Hu.
  assert (Ho : orderly text (Cur 0 [])) by (split; [cbn; lia|intros newer m0 p older E; destruct newer; discriminate E]).
  assert (Hl : at_pos text l0 0 l0) by (unfold at_pos; apply push_str_reaches).
  destruct (own_same _ _ _ _ _ _ (defaults_serve _ _ _ _ _ _ Hq) debug g fuel m u (Cur 0 []) l0 Hu Ho Hl) as (u' & c' & E & _). rewrite E. reflexivity.
Qed.
Theorem C102_from_start : forall U text ending l0 at_ (q : required U), serves U text ending l0 at_ q -> forall rs cfg g id m debug fuel u, parser_for rs cfg g id m ->
  at_ u (Cur 0 []) -> fst (own_parse (with_defaults U q) debug g fuel m u) = fst (parser_parse debug g fuel m (mr_new l0 (Src [text] ending))).
Proof. exact own_from_start_pf. Qed.
Print Assumptions C102_from_start.

(** [plain] (OwnUse.v): a reader over a text that numbers its marks and forgets them only
    when they are released.  The library numbers them otherwise and forgets them earlier. *)
Example C102_case : forall text ending l0, serves plain text ending l0 (plain_at text) (plain_required text ending l0) /\ plain_at text (Plain 0 0 []) (Cur 0 []).
Proof. intros text ending l0. split; [apply plain_serves|apply plain_start]. Qed.
Definition own_case {U : Type} (ops : methods U) (cfg : config) (t id : str) (debug : bool) (fuel : nat) (u : U) : option (res (list event)) :=
  match prepare cfg t id with Some (g, m) => Some (fst (own_parse ops debug g fuel m u)) | None => None end.
Example C102_parses : own_case (with_defaults plain (plain_required (txt "xdxd,eeab") None (loc_new []))) any_config small_text (txt "S") true 100 (Plain 0 0 []) =
  Some (Ok [bg 1 1 "S"; tk 6 1 "x"; bg 10 2 "D"; tk 39 2 "d"; en 10 3 "D"; tk 6 3 "x";
            bg 14 4 "D"; tk 39 4 "d"; en 14 5 "D"; tk 17 5 ",";
            bg 14 6 "D"; tk 43 6 "ee"; en 14 8 "D"; tk 23 8 "ab"; en 1 10 "S"]).
Proof. vm_compute. reflexivity. Qed.
Example C102_rejects : exists e, own_case (with_defaults plain (plain_required (txt "xdxc") None (loc_new []))) any_config small_text (txt "S") true 100 (Plain 0 0 []) = Some (Err e).
Proof. eexists. vm_compute. reflexivity. Qed.

(** A reader that fails: what was read is of no use if more has to be seen, but an error found
    before is told. *)
Definition disk : error := Error_ (loc_new []) (MIo (txt "disk")).
Example C102_fails : own_case (with_defaults plain (plain_required (txt "xdxd,eeab") (Some disk) (loc_new []))) any_config small_text (txt "S") true 100 (Plain 0 0 []) =
  Some (Err (Error_ (Loc [] 1 10) (MWrapped (loc_new []) (MIo (txt "disk"))))).
Proof. vm_compute. reflexivity. Qed.
Example C102_fails_later : exists l m, (forall l' m', m <> MWrapped l' m') /\
  own_case (with_defaults plain (plain_required (txt "xdxc000000000000") (Some disk) (loc_new []))) any_config small_text (txt "S") true 100 (Plain 0 0 []) = Some (Err (Error_ l m)).
Proof. eexists. eexists. split; [|vm_compute; reflexivity]. discriminate. Qed.

(** The laws are needed.  With a reader that does not go back the same rules fail. *)
Definition staying (text : str) : required plain :=
  let q := plain_required text None (loc_new []) in
  Required plain (q_read_chars plain q) (q_location plain q) (q_mark plain q) (fun m u => (Ok 0, u)) (q_unmark plain q).
Example C102_needs_reset : exists e, own_case (with_defaults plain (staying (txt "xdxd,eeab"))) any_config small_text (txt "S") true 100 (Plain 0 0 []) = Some (Err e).
Proof. eexists. vm_compute. reflexivity. Qed.
(** With one that names every mark alike they are released together, and the parse stops. *)
Definition nameless (text : str) : required plain :=
  let q := plain_required text None (loc_new []) in
  Required plain (q_read_chars plain q) (q_location plain q)
    (fun u => (Ok 0%N, Plain (pl_pos u) 0 ((0%N, pl_pos u) :: pl_marks u))) (q_reset plain q) (q_unmark plain q).
Example C102_needs_names : own_case (with_defaults plain (nameless (txt "xdxd,eeab"))) any_config small_text (txt "S") true 100 (Plain 0 0 []) =
  Some (Err (Error_ (Loc [] 1 10) (MInvalidMark 0 []))).
Proof. vm_compute. reflexivity. Qed.
(** The failure has to be told at the end of the text: told at the beginning it does not
    outweigh the errors of other choices. *)
Definition misplaced (text : str) : required plain :=
  let q := plain_required text (Some disk) (loc_new []) in
  Required plain (fun n u => match q_read_chars plain q n u with (Err _, u') => (Err (Error_ (loc_new []) (MWrapped (loc_new []) (MIo (txt "disk")))), u') | x => x end)
    (q_location plain q) (q_mark plain q) (q_reset plain q) (q_unmark plain q).
Definition choice_text : str := txt "S = 'abcdefghijk', 'z' | 'a', 'z';".
Example C102_needs_place :
  own_case (with_defaults plain (plain_required (txt "abcdefghijkl") (Some disk) (loc_new []))) any_config choice_text (txt "S") true 100 (Plain 0 0 []) =
    Some (Err (Error_ (Loc [] 1 13) (MWrapped (loc_new []) (MIo (txt "disk"))))) /\
  own_case (with_defaults plain (misplaced (txt "abcdefghijkl"))) any_config choice_text (txt "S") true 100 (Plain 0 0 []) =
    Some (Err (Error_ (Loc [] 1 2) (MExpected (34%N :: txt "z" ++ [34%N]) (Base.AText (txt "bcdefghi") true)))).
Proof. split; vm_compute; reflexivity. Qed.
