(** C85: the texts on which lexing panics, exactly. *)
From Coq Require Import String List NArith Arith Bool.
From Verif Require Import Base Tokenizer Ast Lex SpecText SpecTok SpecLex SpecGram SpecFault SpecTrip
  TokRun LexRun TripFacts.
Import ListNotations.
Open Scope nat_scope.

Local Notation txt := of_string.

(** [parse_str] panics exactly on the texts that have correct rules first, then a rule whose
    first mistake is a count at the very end of a bracket; behind this rule comes anything
    that consists of tokens, the last of which may be unfinished. *)
Theorem C85_exactly : forall name s p, parse_str name s = Panic p <-> p = PIndex /\
  ((exists ts, lexes (loc_new name) s ts /\ trips ts) \/
   (exists ts l v e, cuts (loc_new name) s ts l v /\ fault l v e /\ unfinished v e /\ trips ts)).
Proof. exact text_exact. Qed.
Print Assumptions C85_exactly.
Example C85_case :
  parse_str [] (txt "z=;a='x'-2*[b|c,(3 (**))];") = Panic PIndex /\
  parse_str [] (txt "a=(3);b=") = Panic PIndex /\
  parse_str [] (txt "a=(3);b='") = Panic PIndex.
Proof. vm_compute. repeat split. Qed.
(** The same integer before the same bracket is only an error when something before it is
    wrong, when a bracket around it is not closed, when it is too large, at the end of the
    rule instead of a bracket, and when the text has a character that begins no token. *)
Example C85_only_errors : Forall (fun s => exists e, parse_str [] (txt s) = Err e)
  ["a=(b c,'d' 'e',(3));"; "a=([3)];"; "a=({[3]);"; "a=[4294967296];"; "a=3;"; "a='b',(c 3);"; "a=(3);#x"]%string.
Proof. repeat constructor; vm_compute; eexists; reflexivity. Qed.

(** In any fragments, as long as the limit is off, the same holds for every text that
    consists of tokens, and for every text whose last token is unfinished. *)
Theorem C85_fragments : forall name fs ts, lexes (loc_new name) (frags_text fs) ts ->
  forall p, lex_fragments name 0 fs = Panic p <-> p = PIndex /\ trips ts.
Proof. exact frags_exact. Qed.
Print Assumptions C85_fragments.
Theorem C85_unfinished : forall name fs ts l v e,
  cuts (loc_new name) (frags_text fs) ts l v -> fault l v e -> unfinished v e ->
  forall p, lex_fragments name 0 fs = Panic p <-> p = PIndex /\ trips ts.
Proof. exact fault_exact. Qed.
Print Assumptions C85_unfinished.
Example C85_fragments_case : exists ts,
  lexes (loc_new []) (frags_text [FStr (txt "a=[3"); FStr (txt "(**)]"); FStr (txt ";")]) ts /\ trips ts.
Proof.
  assert (E : exists ts, tokens_of [] [txt "a=[3(**)];"] = Ok ts) by (vm_compute; eexists; reflexivity).
  destruct E as (ts & E). apply tokens_lexes in E. exists ts. split; [exact E|].
  apply (frags_exact [] [FStr (txt "a=[3"); FStr (txt "(**)]"); FStr (txt ";")] ts E PIndex).
  vm_compute. reflexivity.
Qed.

(** With any limit, in any fragments: a panic needs such a rule. *)
Theorem C85_any_limit : forall name m fs p, lex_fragments name m fs = Panic p ->
  p = PIndex /\ exists u v ts, frags_text fs = u ++ v /\ lexes (loc_new name) u ts /\ trips ts.
Proof. exact frags_trips. Qed.
Print Assumptions C85_any_limit.
Example C85_any_limit_case :
  lex_fragments [] 3 [FStr (txt "a=("); FStr (txt "3"); FStr (txt ")"); FStr (txt ";")] = Panic PIndex.
Proof. vm_compute. reflexivity. Qed.
