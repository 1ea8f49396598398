(** Property C88: which mistake of a text a lexer reports.

    [broken] and [wrong] (SpecFirst.v) are the two kinds of mistakes: something that begins no
    token, and tokens that are no rules.  The first one is noticed while the call that brings
    it is cut into tokens, the second one when a call has been cut into tokens completely. *)
From Coq Require Import String List NArith Arith Bool Lia.
From Verif Require Import Base Tokenizer Ast Lex SpecText TextFacts SpecTok TokFacts SpecLex TokRun LexRun SpecGram SpecFault FaultFacts SpecLimit SpecFirst FirstFacts PropLex.
Import ListNotations.
Open Scope nat_scope.

(** If the texts of some of the first calls together are wrong but not broken, the outcome is
    the one of the wrong rule, whatever comes behind. *)
Theorem C88_wrong : forall name pre post o, wrong name (frags_text pre) o -> (forall e, ~ broken name (frags_text pre) e) ->
  lex_fragments name 0 (pre ++ post) = o.
Proof. exact first_wrong. Qed.
Print Assumptions C88_wrong.
(** If there are no such calls, and the text is broken, the outcome says why. *)
Theorem C88_broken : forall name fs e, broken name (frags_text fs) e ->
  (forall pre post o, fs = pre ++ post -> wrong name (frags_text pre) o -> exists e', broken name (frags_text pre) e') ->
  lex_fragments name 0 fs = Err e.
Proof. exact first_broken. Qed.
Print Assumptions C88_broken.
(** If the text is not broken, the cut does not matter. *)
Theorem C88_other : forall name fs, (forall e, ~ broken name (frags_text fs) e) -> lex_fragments name 0 fs = parse_str name (frags_text fs).
Proof. exact first_none. Qed.
Print Assumptions C88_other.
(** The calls before the end of the text succeed if and only if the text is neither. *)
Theorem C88_succeeds : forall name fs, succeeds name fs <->
  (forall e, ~ broken name (frags_text fs) e) /\ (forall o, ~ wrong name (frags_text fs) o).
Proof. exact first_succeeds. Qed.
Print Assumptions C88_succeeds.
(** At once, the first kind is noticed first; character by character, the second. *)
Theorem C88_at_once : forall name s e, broken name s e -> parse_str name s = Err e.
Proof. exact broken_whole. Qed.
Print Assumptions C88_at_once.
Theorem C88_characters : forall name s o, wrong name s o -> lex_fragments name 0 (map FChar s) = o.
Proof. exact wrong_chars. Qed.
Print Assumptions C88_characters.
(** The outcome is independent of the cut if and only if the text is not both. *)
Theorem C88_independent : forall name s, (forall fs, frags_text fs = s -> lex_fragments name 0 fs = parse_str name s) <->
  ~ ((exists e, broken name s e) /\ (exists o, wrong name s o)).
Proof. exact independent_iff. Qed.
Print Assumptions C88_independent.
(** A text has at most one mistake of each kind, and more text does not mend it. *)
Theorem C88_unique : forall name s x,
  (forall e e', broken name s e -> broken name s e' -> e = e') /\ (forall o o', wrong name s o -> wrong name s o' -> o = o') /\
  (forall e, broken name s e -> broken name (s ++ x) e) /\ (forall o, wrong name s o -> wrong name (s ++ x) o).
Proof.
  intros name s x. split; [|split; [|split]]; intros.
  - eapply broken_fun; eassumption.
  - eapply wrong_fun; eassumption.
  - apply broken_app. assumption.
  - apply wrong_app. assumption.
Qed.
Print Assumptions C88_unique.

(** A text that is both. *)
Example C88_both : broken [] (txt "a=];b=:x;") (Error_ (Loc [] 1 7) MColon) /\
  exists o, wrong [] (txt "a=];b=:x;") o /\ lex_fragments [] 0 [FStr (txt "a=];b"); FStr (txt "=:x;")] = o /\
    lex_fragments [] 0 [FStr (txt "a="); FStr (txt "];b=:x;")] = Err (Error_ (Loc [] 1 7) MColon).
Proof.
  split.
  - assert (R : runs [] (txt "a=];b=:x;") [TMeta (Loc [] 1 1) (txt "a"); TDefining (Loc [] 1 2); TEndOption (Loc [] 1 3) (txt "]"); TTerminator (Loc [] 1 4) 59%N; TMeta (Loc [] 1 5) (txt "b"); TDefining (Loc [] 1 6)] (Loc [] 1 7) (txt ":x;")).
    { split; [|intros t n; vm_compute; discriminate].
      repeat (eapply steps_cons; [vm_compute; reflexivity|]). vm_compute. constructor. }
    apply (broken_runs _ _ _ _ _ _ R). vm_compute. reflexivity.
  - exists (parse_str [] (txt "a=];")). split.
    + assert (T : tokens_of [] [txt "a=];"] = Ok ([TMeta (Loc [] 1 1) (txt "a"); TDefining (Loc [] 1 2); TEndOption (Loc [] 1 3) (txt "]")] ++ [TTerminator (Loc [] 1 4) 59%N; TEOF (Loc [] 1 5)])) by (vm_compute; reflexivity).
      apply tokens_lexes in T. exists (txt "a=];"), (txt "b=:x;"). eexists _, _, _. split; [reflexivity|]. split; [exact T|]. split; [exact I|]. split; [reflexivity|]. vm_compute. reflexivity.
    + vm_compute. split; reflexivity.
Qed.
