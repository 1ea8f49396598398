(** Property C87: exactly when the limit of a lexer rejects a text.

    [keeps] (SpecLimit.v) says what is left of a text once the certain tokens are taken off. *)
From Coq Require Import String List NArith Arith Bool Lia.
From Verif Require Import Base Tokenizer Ast Lex SpecText TextFacts SpecTok SpecLex TokRun LexRun SpecLimit LimitFacts PropLex.
Import ListNotations.
Open Scope nat_scope.

(** A lexer with the limit [m] complains about it if and only if one of the calls, the first
    such one, hands over more than what is free beside the characters kept so far; the
    complaint gives the two numbers and the place where the kept characters begin. *)
Theorem C87_rejected : forall name m, (0 < m)%N -> forall fs l have add m',
  lex_fragments name m fs = Err (Error_ l (MTooLong have add m')) <-> m' = m /\ first_overflow name m fs l have add.
Proof. exact limit_iff. Qed.
Print Assumptions C87_rejected.
(** Otherwise, and only then, it does what a lexer without limit does. *)
Theorem C87_otherwise : forall name m, (0 < m)%N -> forall fs,
  lex_fragments name m fs = lex_fragments name 0 fs <-> (forall l have add, ~ first_overflow name m fs l have add).
Proof. exact limit_same_iff. Qed.
Print Assumptions C87_otherwise.
(** What is kept is determined by the text. *)
Theorem C87_kept : forall l s ts l1 b1 ts' l2 b2, keeps l s ts l1 b1 -> keeps l s ts' l2 b2 -> ts = ts' /\ l1 = l2 /\ b1 = b2.
Proof. exact keeps_fun. Qed.
Print Assumptions C87_kept.
(** Handed over character by character, a correct text is accepted if and only if every token
    has less than [m] characters, or just [m] and nothing needs to be seen behind it. *)
Theorem C87_characters : forall name m s ts rs, (0 < m)%N -> parse_str name s = Ok rs -> lexes (loc_new name) s ts ->
  (roomy m ts /\ lex_fragments name m (map FChar s) = Ok rs) \/
  (~ roomy m ts /\ exists l, lex_fragments name m (map FChar s) = Err (Error_ l (MTooLong m 1 m))).
Proof. exact chars_pf. Qed.
Print Assumptions C87_characters.
(** Handed over at once, if and only if it has at most [m] characters. *)
Lemma whole_pf : forall name m s, (0 < m)%N ->
  if (m <? N.of_nat (length s))%N
  then lex_fragments name m [FStr s] = Err (Error_ (loc_new name) (MTooLong 0 (N.of_nat (length s)) m))
  else lex_fragments name m [FStr s] = parse_str name s.
Proof.
  intros name m s Hm. destruct (N.ltb_spec m (N.of_nat (length s))) as [H|H].
  - apply limit_iff; [exact Hm|]. split; [reflexivity|]. exists [], (FStr s), []. split; [reflexivity|]. split; [eexists _, _; reflexivity|]. split.
    + exists [], []. split; [|repeat split; assumption]. constructor. intros t rest E Hv Hl _. pose proof (text_pos _ Hv) as P.
      symmetry in E. apply app_eq_nil in E as (E & _). rewrite E in P. cbn in P. lia.
    + intros pre' f' post' l' h' a' E. destruct pre'; discriminate E.
  - rewrite parse_str_fragments. apply limit_same_iff; [exact Hm|]. intros l h a (pre & f & post & E & _ & (ts & b & Hk & -> & -> & Hlt) & _).
    destruct pre as [|g pre]; [|destruct pre; discriminate E]. injection E as <- <-. cbn in Hk. apply keeps_steps in Hk as (Hk & _).
    apply steps_text in Hk as (Hk & _). symmetry in Hk. apply app_eq_nil in Hk as (_ & ->). cbn in Hlt. lia.
Qed.
Theorem C87_whole : forall name m s, (0 < m)%N ->
  if (m <? N.of_nat (length s))%N
  then lex_fragments name m [FStr s] = Err (Error_ (loc_new name) (MTooLong 0 (N.of_nat (length s)) m))
  else lex_fragments name m [FStr s] = parse_str name s.
Proof. exact whole_pf. Qed.
Print Assumptions C87_whole.

(** The same text, cut in different ways, with the limit 5: ["xyz"] fits, as does [abcd]
    behind which one more character has to be seen; six characters at once do not. *)
Example C87_case :
  is_ok (lex_fragments [] 5 (map FChar (txt "abcd='xyz';"))) = true /\
  lex_fragments [] 4 (map FChar (txt "abcd='xyz';")) = Err (Error_ (Loc [] 1 1) (MTooLong 4 1 4)) /\
  is_ok (lex_fragments [] 5 [FStr (txt "abcd="); FStr (txt "'xyz'"); FStr (txt ";")]) = true /\
  lex_fragments [] 5 [FStr (txt "abcd="); FStr (txt "'x"); FStr (txt "yz';")] = Err (Error_ (Loc [] 1 6) (MTooLong 2 4 5)) /\
  lex_fragments [] 5 (map FChar (txt "abcde=;")) = Err (Error_ (Loc [] 1 1) (MTooLong 5 1 5)) /\
  is_ok (lex_fragments [] 5 (map FChar (txt "a='xyz';"))) = true.
Proof. vm_compute. repeat split. Qed.
(** ... so the last call of the fourth case is the first that exceeds. *)
Example C87_first : first_overflow [] 5 [FStr (txt "abcd="); FStr (txt "'x"); FStr (txt "yz';")] (Loc [] 1 6) 2 4.
Proof. apply (limit_iff [] 5%N eq_refl _ _ _ _ 5%N). vm_compute. reflexivity. Qed.
