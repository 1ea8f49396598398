(** Property C99: what reading an EBNF text costs. *)
From Coq Require Import String List NArith Arith Bool Lia.
From Verif Require Import Base Ast Tokenizer Lex LexCost SpecText SpecTok SpecLex LexRun LexCostFacts LexCostFamily.
Import ListNotations.
Open Scope nat_scope.

(** The square of the length bounds it, for every text, cut into pieces in every way, whether
    the text is accepted or not and whatever the limit of the buffer. *)
Theorem C99_at_most : forall name max ss,
  pieces_cost (lx_new name max) ss <= 84 * (length (concat ss) + 1) * (length (concat ss) + length ss + 1).
Proof. exact reading_cost. Qed.
Print Assumptions C99_at_most.

(** With a limit, what the tokenizer does for one piece is bounded by the piece and the limit,
    whatever has been pushed before. *)
Theorem C99_limit : forall t s, (0 < tk_max t)%N -> push_cost t s <= length s + 4 * N.to_nat (tk_max t) + 1.
Proof. exact push_cost_limit. Qed.
Print Assumptions C99_limit.

(** The square is reached in three ways.  First: [parse_str] of every text it accepts moves
    each token past all that come after it. *)
Theorem C99_tokens_moved : forall name s rs ts, parse_str name s = Ok rs -> lexes (loc_new name) s ts ->
  (length ts - 2) * (length ts - 1) <= 2 * parse_str_cost name s.
Proof. exact tokens_squared. Qed.
Print Assumptions C99_tokens_moved.

(** Second: a comment pushed one character at a time is read again from its beginning for each
    of them, whatever comes after it. *)
Theorem C99_comment_read_again : forall name n rest,
  n * n <= 2 * pieces_cost (lx_new name 0%N) ([c_lpar] :: [c_star] :: repeat [97%N] n ++ rest).
Proof. exact opened_squared. Qed.
Print Assumptions C99_comment_read_again.

(** Third: the closing bracket of every bracket is looked for past the brackets inside it, so
    [a=((...'b'...));] costs the square of its depth however it is cut into pieces. *)
Theorem C99_brackets_read_again : forall name n ss, concat ss = [97%N; c_eq] ++ bracketed n ++ [c_semi] ->
  n * n <= pieces_cost (lx_new name 0%N) ss.
Proof. exact brackets_squared. Qed.
Print Assumptions C99_brackets_read_again.

(** Texts of these kinds are accepted, and what they cost. *)
Example C99_brackets_case :
  (exists rs, parse_str [] (of_string "a=((('b')));") = Ok rs) /\
  [97%N; c_eq] ++ bracketed 3 ++ [c_semi] = of_string "a=((('b')));" /\
  parse_str_cost [] (of_string "a=((('b')));") = 159.
Proof. split; [eexists; vm_compute; reflexivity|]. split; vm_compute; reflexivity. Qed.
Example C99_comment_case :
  let ss := map (fun c => [c]) (of_string "(*aaaa*)a='b';") in
  ss = [c_lpar] :: [c_star] :: repeat [97%N] 4 ++ map (fun c => [c]) (of_string "*)a='b';") /\
  (exists rs, parse_str [] (concat ss) = Ok rs) /\
  pieces_cost (lx_new [] 0%N) ss = 113 /\ parse_str_cost [] (concat ss) = 85.
Proof. cbv zeta. split; [reflexivity|]. split; [eexists; vm_compute; reflexivity|]. split; vm_compute; reflexivity. Qed.
Example C99_tokens_case : exists rs ts, parse_str [] (of_string "a='b';c='d'.") = Ok rs /\
  lexes (loc_new []) (of_string "a='b';c='d'.") ts /\ length ts = 9 /\ parse_str_cost [] (of_string "a='b';c='d'.") = 119.
Proof.
  assert (E : exists ts, tokens_of [] [of_string "a='b';c='d'."] = Ok ts /\ length ts = 9)
    by (eexists; split; vm_compute; reflexivity).
  destruct E as (ts & E & Hl). apply tokens_lexes in E. cbn [concat] in E. rewrite app_nil_r in E.
  eexists. exists ts. split; [vm_compute; reflexivity|]. split; [exact E|]. split; [exact Hl|vm_compute; reflexivity].
Qed.
(** A piece the limit admits, and one it refuses. *)
Example C99_limit_case :
  push_cost (Tk 8%N (of_string "(*ab") (loc_new [])) (of_string "cd*)") = 21 /\
  push_cost (Tk 8%N (of_string "(*ab") (loc_new [])) (of_string "cde*)") = 5.
Proof. split; vm_compute; reflexivity. Qed.
