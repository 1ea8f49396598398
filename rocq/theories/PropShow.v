(** Property C18: displaying rules and reading them back. *)
From Coq Require Import String List NArith Arith Bool.
From Verif Require Import Base Tokenizer Ast Lex SpecText SpecTok SpecLex SpecGram SpecTree
  TreeFacts ShowFacts.
Import ListNotations.
Open Scope nat_scope.

Definition txt := of_string.
Definition rules_of (s : str) : list rule := match parse_str [] s with Ok rs => rs | _ => [] end.

(** C18 fails: a group whose text ends in a repetition symbol is displayed with a star
    before the closing parenthesis, which cannot be read. *)
Theorem C18_display_round_trip_refuted : exists s rs e,
  parse_str [] s = Ok rs /\ parse_str [] (show_rules rs) = Err e.
Proof.
  exists (txt "a=(3* );"), (rules_of (txt "a=(3* );")).
  eexists. split; [vm_compute; reflexivity|]. vm_compute. reflexivity.
Qed.
Print Assumptions C18_display_round_trip_refuted.

(** That is the only obstacle: rules that were read give themselves back, up to
    locations, exactly when no group is displayed with such a star. *)
Theorem C18_display_round_trip_iff : forall name s rs, parse_str name s = Ok rs ->
  (Forall group_ok_rule rs <->
   exists rs', parse_str name (show_rules rs) = Ok rs' /\ Forall2 eq_but_loc rs' rs).
Proof.
  intros name s rs H. apply parse_wf in H. split.
  - exact (show_parse name rs H).
  - intros (rs' & Hp & _). exact (show_unparse name rs rs' H Hp).
Qed.
Print Assumptions C18_display_round_trip_iff.
(** The same for well-formed trees built by other means. *)
Theorem C18_display_round_trip_trees : forall name rs, Forall wf_rule rs -> Forall group_ok_rule rs ->
  exists rs', parse_str name (show_rules rs) = Ok rs' /\ Forall2 eq_but_loc rs' rs.
Proof. exact show_parse. Qed.
Print Assumptions C18_display_round_trip_trees.
(** And in the other case the display is not readable at all. *)
Theorem C18_unreadable_display : forall name rs rs', Forall wf_rule rs ->
  parse_str name (show_rules rs) = Ok rs' -> Forall group_ok_rule rs.
Proof. exact show_unparse. Qed.
Print Assumptions C18_unreadable_display.

Example C18_case : exists rs, Forall wf_rule rs /\ Forall group_ok_rule rs /\
  show_rules rs = txt "a b=12*(3*,'x')-?y?|[c d,""it's""],{|};c d=;" /\
  exists rs', parse_str [] (show_rules rs) = Ok rs'.
Proof.
  pose (t := txt "a  b = 12 * (3*,'x') - ?y? / (/c d, ""it's""/), (: ! :). c d=;").
  assert (E : parse_str [] t = Ok (rules_of t)) by (vm_compute; reflexivity).
  assert (S : show_rules (rules_of t) = txt "a b=12*(3*,'x')-?y?|[c d,""it's""],{|};c d=;")
    by (vm_compute; reflexivity).
  assert (P : parse_str [] (show_rules (rules_of t)) = Ok (rules_of (show_rules (rules_of t))))
    by (vm_compute; reflexivity).
  apply parse_wf in E. exists (rules_of t). split; [exact E|].
  split; [exact (show_unparse _ _ _ E P)|]. eauto.
Qed.
