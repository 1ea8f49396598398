(** Property C97: a parse that returns does so within a number of instructions that
    depends on the rules and on the length of the text only; whether a parse returns can
    therefore be found out by running it. *)
From Coq Require Import String List NArith Arith Bool Lia Relations.
From Verif Require Import Base Ident Tokenizer Ast Lex Syntax Io Graph Machine MachineSteps SpecText SpecSyntax SpecIo TextFacts SyntaxFacts IoFacts SpecParse SpecMachine SpecEvents SpecTotal SpecWork SpecCap Pure PureFacts ParseFacts CodeFacts RunFacts RunComplete EvFacts MachineFacts TotalFacts WorkFacts WorkApi CapFacts FuelNeed PropSyntax PropParse PropEvents PropTotal PropWork.
Import ListNotations.
Open Scope nat_scope.

Theorem C97_at_most_exponential : forall rs cfg g id m debug fuel rd, parser_for rs cfg g id m -> reader rd -> ending_of rd = None ->
  fst (parser_parse debug g fuel m rd) <> OutOfFuel ->
  parser_steps debug g fuel m rd <= step_cap rs (length (unread rd)).
Proof.
  intros rs cfg g id m debug fuel rd Hp Hr He Hne.
  pose proof (proj2 (steps_exact rs cfg g id m debug fuel rd Hp Hr He Hne (parser_steps debug g fuel m rd)) eq_refl) as HL.
  exact (labour_capped rs cfg (parser_unique _ _ _ _ _ Hp) (proj1 (proj2 Hp)) id _ _ HL).
Qed.
Print Assumptions C97_at_most_exponential.
(** Exponential in the length of the text, for given rules; by C94_exponential there are
    rules for which it is no less. *)
Theorem C97_form : forall rs, exists b, 2 <= b /\ forall n, step_cap rs n = b ^ (n + 1).
Proof.
  intros rs. exists (syntax_load rs ^ (length rs + 2)). assert (B : 2 <= syntax_load rs) by (induction rs as [|r rs IH]; cbn [syntax_load]; lia). split.
  - apply Nat.le_trans with (syntax_load rs ^ 1); [rewrite Nat.pow_1_r; exact B|]. apply Nat.pow_le_mono_r; lia.
  - intros n. unfold step_cap. rewrite (Nat.mul_comm (n + 1)). apply Nat.pow_mul_r.
Qed.
Print Assumptions C97_form.
(** Given this many turns of its loops, a parse has returned or never returns. *)
Theorem C97_now_or_never : forall rs cfg g id m debug fuel rd, parser_for rs cfg g id m -> reader rd -> ending_of rd = None ->
  step_cap rs (length (unread rd)) + length (unread rd) + 2 <= fuel ->
  (fst (parser_parse debug g fuel m rd) = OutOfFuel <-> forall fuel', fst (parser_parse debug g fuel' m rd) = OutOfFuel).
Proof.
  intros rs cfg g id m debug fuel rd Hp Hr He Hle. split; [|intros H; apply H]. intros H fuel'.
  destruct (parse_never debug g fuel m rd Hr H fuel') as [E|L]; [exact E|].
  destruct (fst (parser_parse debug g fuel' m rd)) eqn:E; try reflexivity.
  all: assert (Hne : fst (parser_parse debug g fuel' m rd) <> OutOfFuel) by (rewrite E; discriminate);
    pose proof (C97_at_most_exponential rs cfg g id m debug fuel' rd Hp Hr He Hne); lia.
Qed.
Print Assumptions C97_now_or_never.
(** All that a parse which returns needs (whatever the reader does at its end): as many
    turns as it executes instructions, one for each character, and two. *)
Theorem C97_enough : forall debug g fuel m rd, reader rd -> fst (parser_parse debug g fuel m rd) <> OutOfFuel ->
  forall fuel', parser_steps debug g fuel m rd + length (unread rd) + 2 <= fuel' ->
  fst (parser_parse debug g fuel' m rd) = fst (parser_parse debug g fuel m rd).
Proof. exact parse_needs. Qed.
Print Assumptions C97_enough.

(** So a run of 731 turns shows that this parse of the empty text never returns. *)
Definition lefty : str := txt "S=S,'a'|'b';".
Lemma lefty_cap : step_cap (rules_of lefty) 0 + 0 + 2 = 731.
Proof. vm_compute. reflexivity. Qed.
Example C97_never : exists g m, parser_for (rules_of lefty) default_config g (txt "S") m /\
  forall fuel, fst (parser_parse false g fuel m (text_reader [])) = OutOfFuel.
Proof.
  destruct (prepare default_config lefty (txt "S")) as [(g & m)|] eqn:E; [|vm_compute in E; discriminate]. exists g, m.
  pose proof (prepare_ok _ _ _ _ _ E) as Hp. split; [exact Hp|]. destruct (text_reader_ok []) as (H1 & H2 & _).
  apply (proj1 (C97_now_or_never _ _ g _ m false 731 _ Hp H1 H2 ltac:(change (length (unread (text_reader []))) with 0; rewrite lefty_cap; apply le_n))).
  assert (K : match prepare default_config lefty (txt "S") with Some (g, m) => fst (parser_parse false g 731 m (text_reader [])) = OutOfFuel | None => False end) by (vm_compute; reflexivity).
  rewrite E in K. exact K.
Qed.
(** A left-recursive syntax whose parse returns all the same, and one that takes
    exponential time. *)
Example C97_case : match prepare default_config (txt "S=|S,'a';") (txt "S") with
  | Some (g, m) => parser_steps false g 20 m (text_reader []) = 3 /\ fst (parser_parse false g 20 m (text_reader [])) <> OutOfFuel
  | None => False end.
Proof. vm_compute. split; [reflexivity|discriminate]. Qed.
Example C97_twofold : 38 <= step_cap (rules_of twofold) 5.
Proof.
  pose proof C94_case as K. destruct (prepare default_config twofold (txt "S")) as [(g & m)|] eqn:E; [|destruct K]. destruct K as (K1 & evs & K2).
  destruct (text_reader_ok (squared 2)) as (H1 & H2 & _).
  pose proof (C97_at_most_exponential _ _ g _ m false 100 _ (prepare_ok _ _ _ _ _ E) H1 H2 ltac:(rewrite K2; discriminate)) as Q. rewrite K1 in Q.
  change (length (unread (text_reader (squared 2)))) with 5 in Q. exact Q.
Qed.
