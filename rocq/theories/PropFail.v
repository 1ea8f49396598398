(** Property C57: parsing a source that fails, and C37 for such sources.

    [continued_by rd rd']: [rd'] stands where [rd] stands, with the same text ahead and any
    text behind it (none, possibly).  Its source may end in any way. *)
From Coq Require Import String List NArith Arith Bool Lia.
From Verif Require Import Base Ident Tokenizer Ast Lex Syntax Io Graph Machine SpecText SpecSyntax SpecIo TextFacts SyntaxFacts IoFacts SpecParse SpecMachine SpecEvents SpecTotal Pure ParseFacts CodeFacts EvFacts MachineFacts TotalFacts FailFacts PropSyntax PropParse PropEvents PropTotal.
Import ListNotations.
Open Scope nat_scope.

(** C57.  The parse of a source that fails with [e] behind its text answers with that
    failure, located where the text stops; or with the very answer (not a success) it
    gives for every text that goes on from there. *)
Theorem C57_failing_source : forall rs cfg g id m debug fuel rd rd' e l,
  parser_for rs cfg g id m -> no_forwarding cfg ->
  reader rd -> ending_of rd = Some e -> reader rd' -> continued_by rd rd' ->
  reaches (p_at (stand rd)) (unread rd) l ->
  fst (parser_parse debug g fuel m rd) = Err (Error_ l (MWrapped (e_loc e) (e_msg e))) \/
  (fst (parser_parse debug g fuel m rd) = fst (parser_parse debug g fuel m rd') /\
   forall evs, fst (parser_parse debug g fuel m rd) <> Ok evs).
Proof. exact parse_failing. Qed.
Print Assumptions C57_failing_source.
(** Both happen: "ab" with a failure behind needs more; "xxxxxxxxx" does not match, whatever
    follows. *)
Definition broken (s : str) : mreader := mr_new (loc_new []) (Src [s] (Some (Error_ (loc_new []) (MIo (txt "disk"))))).
Example C57_case :
  parse_case default_config (txt "S='a',{'b'},'c';") (txt "S") true 100 (broken (txt "ab")) =
    Some (Err (Error_ (Loc [] 1 3) (MWrapped (loc_new []) (MIo (txt "disk"))))) /\
  parse_case default_config (txt "S='a',{'b'},'c';") (txt "S") true 100 (broken (txt "abxxxxxxxxx")) =
    Some (Err (Error_ (Loc [] 1 3) (MExpected (debug_str (txt "c")) (Base.AText (txt "xxxxxxxx") true)))) /\
  parse_case default_config (txt "S='a',{'b'},'c';") (txt "S") true 100 (text_reader (txt "abxxxxxxxxxyz")) =
    Some (Err (Error_ (Loc [] 1 3) (MExpected (debug_str (txt "c")) (Base.AText (txt "xxxxxxxx") true)))) /\
  reader (broken (txt "abxxxxxxxxx")) /\ continued_by (broken (txt "abxxxxxxxxx")) (text_reader (txt "abxxxxxxxxxyz")).
Proof.
  split; [vm_compute; reflexivity|]. split; [vm_compute; reflexivity|]. split; [vm_compute; reflexivity|]. split; [apply rd_new|].
  exists (txt "yz"). vm_compute. reflexivity.
Qed.
(** Scanners that forward are excluded, for a reason: the failure of the target is
    ignored, also when it is the failure of the source. *)
Definition forwards_blindly : config := fun _ c =>
  if str_eqb c (txt " f ") then ScUser (txt "f") (fun _ => SpRet (RForward (txt "X")))
  else ScUser (txt "u") (fun _ => SpRet RUnmatch).
Theorem C57_forwarding_refuted : exists ebnf input e2 e3,
  parse_case forwards_blindly ebnf (txt "S") true 100 (broken input) = Some (Err e2) /\
  parse_case forwards_blindly ebnf (txt "S") true 100 (text_reader input) = Some (Err e3) /\
  e2 <> e3 /\ e_msg e2 <> MWrapped (loc_new []) (MIo (txt "disk")).
Proof.
  exists (txt "S={? f ?};X=? u ?;"), (txt "abc"), (Error_ (Loc [] 1 4) MLivelock), (Error_ (Loc [] 1 1) MLivelock).
  split; [vm_compute; reflexivity|]. split; [vm_compute; reflexivity|]. split; discriminate.
Qed.
Print Assumptions C57_forwarding_refuted.

(** C37 for every source. *)
Lemma ends_failing_pf : forall rs cfg g id m debug rd, parser_for rs cfg g id m -> no_forwarding cfg -> reader rd ->
  (forall r, In r rs -> ~ left_recursive rs cfg r) ->
  exists f0, forall fuel, f0 <= fuel -> fst (parser_parse debug g fuel m rd) <> OutOfFuel.
Proof.
  intros rs cfg g id m debug rd Hp Hn Hr Hl. destruct (ending_of rd) as [e|] eqn:He; [|exact (parse_ends _ _ _ _ _ _ _ Hp Hr He Hl)].
  pose (rd' := mr_new (p_at (stand rd)) (Src [unread rd] None)).
  assert (Hr' : reader rd') by apply rd_new.
  destruct (parse_ends rs cfg g id m debug rd' Hp Hr' eq_refl Hl) as (f0 & Hf). exists f0. intros fuel Hle.
  destruct (parse_failing rs cfg g id m debug fuel rd rd' e (loc_push_str (p_at (stand rd)) (unread rd)) Hp Hn Hr He Hr') as [K|(K & _)].
  - exists []. unfold stand at 1, unread at 1. cbn. rewrite !app_nil_r. reflexivity.
  - apply push_str_reaches.
  - rewrite K. discriminate.
  - rewrite K. apply Hf. exact Hle.
Qed.
Theorem C37_parse_returns_any_source : forall rs cfg g id m debug rd, parser_for rs cfg g id m ->
  no_forwarding cfg -> reader rd -> (forall r, In r rs -> ~ left_recursive rs cfg r) ->
  exists f0, forall fuel, f0 <= fuel -> fst (parser_parse debug g fuel m rd) <> OutOfFuel.
Proof. exact ends_failing_pf. Qed.
Print Assumptions C37_parse_returns_any_source.
Example C37_failing_case : parse_case any_config sums (txt "E") true 100 (broken (txt "x+(n)")) =
  Some (Err (Error_ (Loc [] 1 6) (MWrapped (loc_new []) (MIo (txt "disk"))))).
Proof. vm_compute. reflexivity. Qed.
