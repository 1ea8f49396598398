(** Property C100: how deep the calls stand inside each other when an EBNF text is read, and
    what the limit of the buffer does not bound. *)
From Coq Require Import String List NArith Arith Bool Lia.
From Verif Require Import Base Ast Tokenizer Lex SpecNest LexDepth SpecText SpecTok SpecLex LexDepthFacts LexDepthFamily.
Import ListNotations.
Open Scope nat_scope.

(** An accepted text takes six calls for each bracket of its deepest rule, and six more,
    however it is cut into fragments. *)
Theorem C100_exact : forall name max fs rs, lex_fragments name max fs = Ok rs -> rs <> [] ->
  frags_deep (lx_new name max) fs = list_max (map (fun r => 6 * nest_dl (r_defs r) + 6) rs).
Proof. exact reading_tells. Qed.
Print Assumptions C100_exact.

(** Every text, accepted or not, takes at most three calls for each character, and nine more. *)
Theorem C100_at_most : forall name max fs,
  frags_deep (lx_new name max) fs <= 3 * length (frags_text fs) + 9.
Proof. exact reading_bounded. Qed.
Print Assumptions C100_at_most.

(** A limit of the buffer bounds neither the name of a rule nor the depth of its brackets nor
    the depth of the calls: for each limit of two or more and each [n] there is a text that is
    accepted under the limit, pushed one character at a time, with a name of [2 n + 1]
    characters and brackets [n] deep. *)
Theorem C100_limit_does_not_bound : forall name m n, (2 <= m)%N -> exists s r,
  lex_fragments name m (map FChar s) = Ok [r] /\
  length (r_id r) = 2 * n + 1 /\ nest_dl (r_defs r) = n /\
  frags_deep (lx_new name m) (map FChar s) = 6 * n + 6.
Proof. intros name m n Hm. exists (tall n). exact (limit_in_vain name m n Hm). Qed.
Print Assumptions C100_limit_does_not_bound.

(** A text with brackets two deep in one of its rules, the second an exception. *)
Example C100_exact_case : exists rs,
  lex_fragments [] 0%N [FStr (of_string "a='b';c=['d'-("); FChar 39%N; FStr (of_string "e')],{'f'}.")] = Ok rs /\
  rs <> [] /\ map (fun r => nest_dl (r_defs r)) rs = [0; 2] /\
  frags_deep (lx_new [] 0%N) [FStr (of_string "a='b';c=['d'-("); FChar 39%N; FStr (of_string "e')],{'f'}.")] = 18.
Proof. eexists. split; [vm_compute; reflexivity|]. split; [discriminate|]. split; vm_compute; reflexivity. Qed.
(** The bound is not far off; a text that is not accepted. *)
Example C100_at_most_case :
  frags_deep (lx_new [] 0%N) [FStr (of_string "a=(((b)));")] = 24 /\ length (of_string "a=(((b)));") = 10 /\
  frags_deep (lx_new [] 0%N) [FStr (of_string "a=((=));")] = 18 /\
  (forall rs, lex_fragments [] 0%N [FStr (of_string "a=((=));")] <> Ok rs).
Proof. split; [|split; [|split]]; try (vm_compute; reflexivity). intros rs H. vm_compute in H. discriminate. Qed.
(** The text of the third theorem, and one of the same length that the limit refuses. *)
Example C100_limit_case :
  tall 2 = of_string "a a a=((a));" /\
  (exists r, lex_fragments [] 2%N (map FChar (tall 2)) = Ok [r] /\ r_id r = of_string "a a a" /\ nest_dl (r_defs r) = 2) /\
  (forall rs, lex_fragments [] 2%N (map FChar (of_string "aaaaa=((a));")) <> Ok rs).
Proof.
  split; [reflexivity|]. split; [eexists; split; [vm_compute; reflexivity|split; vm_compute; reflexivity]|].
  intros rs H. vm_compute in H. discriminate.
Qed.
