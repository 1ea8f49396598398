(** Property C98: what a parse makes the reader hold. *)
From Coq Require Import String List NArith Arith Bool Lia.
From Verif Require Import Base Ident Tokenizer Ast Lex Syntax Io Graph Machine SpecText SpecIo SpecSyntax TextFacts TokRun IoFacts SyntaxFacts SpecParse SpecMachine SpecGauge SpecHold Pure PureFacts ParseFacts CodeFacts RunFacts RunComplete EvFacts MachineFacts HoldFacts PropSyntax PropParse PropEvents.
Import ListNotations.
Open Scope nat_scope.

(** After a successful parse with a rule that begins with a choice, an exception, a counted
    factor or a [CharsScanner], the reader holds every character of the text, and has at
    least one mark more than before, of which the caller is not told. *)
Theorem C98_holds_all : forall rs cfg g id m debug fuel rd evs rd' r, parser_for rs cfg g id m -> reader rd ->
  parser_parse debug g fuel m rd = (Ok evs, rd') -> names rs id r -> pins rs cfg (NDefs (r_defs r)) ->
  length (unread rd) <= length (ub_buf (mr_ub rd')) /\ length (ub_stack (mr_ub rd)) < length (ub_stack (mr_ub rd')).
Proof. exact parse_holds. Qed.
Print Assumptions C98_holds_all.

(** A rule of terminals one after the other leaves the marks as they were and, where nothing
    was held before, nothing is held afterwards. *)
Theorem C98_holds_nothing : forall rs cfg g id m debug fuel debug0 l0 chunks ending os an rd evs rd' r, parser_for rs cfg g id m ->
  perform debug0 os (mr_new l0 (Src chunks ending)) = (an, None, rd) ->
  parser_parse debug g fuel m rd = (Ok evs, rd') -> names rs id r -> flat rs (NDefs (r_defs r)) ->
  ub_stack (mr_ub rd') = ub_stack (mr_ub rd) /\ (ub_stack (mr_ub rd) = [] -> ub_buf (mr_ub rd) = [] -> ub_buf (mr_ub rd') = []).
Proof. exact parse_eases. Qed.
Print Assumptions C98_holds_nothing.

(** Both at work: the same text in two chunks, read as a choice and as a sequence. *)
Definition held_case (cfg : config) (t id : str) (rd : mreader) : option (bool * nat * nat) :=
  match prepare cfg t id with
  | Some (g, m) => let (x, rd') := parser_parse true g 100 m rd in
      Some (match x with Ok _ => true | _ => false end, length (ub_buf (mr_ub rd')), length (ub_stack (mr_ub rd')))
  | None => None
  end.
Definition two_chunks : mreader := mr_new (loc_new []) (Src [txt "ab"; txt "cd"] None).
Example C98_choice_case : held_case default_config (txt "S=A|B;A='abcd';B='x';") (txt "S") two_chunks = Some (true, 4, 1) /\
  held_case default_config (txt "S='a',B;B='b',('cd');") (txt "S") two_chunks = Some (true, 0, 0) /\
  held_case any_config (txt "S=T,T;T=? ?;") (txt "S") two_chunks = Some (true, 4, 2) /\
  held_case default_config (txt "S='ab',X-'z';X='cd';") (txt "S") two_chunks = Some (true, 2, 1).
Proof. repeat split; vm_compute; reflexivity. Qed.
(** The hypotheses are met. *)
Example C98_pins_case : exists r, names (rules_of (txt "S=T,'x';T=(A|B);A='a';B='b';")) (txt "S") r /\ pins (rules_of (txt "S=T,'x';T=(A|B);A='a';B='b';")) default_config (NDefs (r_defs r)).
Proof.
  set (rs := rules_of _). vm_compute in rs. subst rs. eexists. split; [split; [left; reflexivity|apply same_name_keyed; vm_compute; reflexivity]|].
  apply pn_only, pn_first, pn_factor, pn_once. eapply pn_ref; [split; [right; left; reflexivity|apply same_name_keyed; vm_compute; reflexivity]|].
  apply pn_only, pn_first, pn_factor, pn_once, pn_group, pn_choice.
Qed.
Example C98_flat_case : exists r, names (rules_of (txt "S='a',B;B='b',('cd');")) (txt "S") r /\ flat (rules_of (txt "S='a',B;B='b',('cd');")) (NDefs (r_defs r)).
Proof.
  set (rs := rules_of _). vm_compute in rs. subst rs. eexists. split; [split; [left; reflexivity|apply same_name_keyed; vm_compute; reflexivity]|].
  apply fl_only, fl_more; [apply fl_term, fl_factor, fl_terminal|]. apply fl_one, fl_term, fl_factor. eapply fl_ref; [split; [right; left; reflexivity|apply same_name_keyed; vm_compute; reflexivity]|].
  apply fl_only, fl_more; [apply fl_term, fl_factor, fl_terminal|]. apply fl_one, fl_term, fl_factor, fl_group, fl_only, fl_one, fl_term, fl_factor, fl_terminal.
Qed.
