(** What is wrong with a text that the lexer rejects. *)
From Coq Require Import String List NArith Arith Bool.
From Verif Require Import Base Tokenizer Lex SpecText SpecTok SpecGram.
Import ListNotations.
Open Scope nat_scope.

(** [cuts l s ts l' v]: the text [s], starting at [l], begins with the tokens [ts];
    behind them, at [l'], comes [v]. *)
Inductive cuts : location -> str -> list token -> location -> str -> Prop :=
| cuts_here : forall l v, cuts l v [] l v
| cuts_token : forall l l1 t rest ts l' v,
    valid_tok t -> tok_loc t = l -> follows t (hd_error rest) ->
    reaches l (tok_text t) l1 -> cuts l1 rest ts l' v -> cuts l (tok_text t ++ rest) (t :: ts) l' v.

Definition quote (c : char) : Prop := c = c_squote \/ c = c_dquote.
(** [w], behind an opening bracket, does not leave the comment. *)
Definition commented (w : str) : Prop :=
  Forall (fun c => printable c \/ gap_char c) w /\
  forall p q, c_star :: w = p ++ q -> closes p <= opens p.
(** No token begins with [c]. *)
Definition foreign (c : char) : Prop :=
  ~ letter c /\ ~ digit c /\ ~ gap_char c /\ ~ In c (of_string "*-,|=;![](){}/:.'""?").

(** [fault l v e]: [v], at [l], does not begin with a token, and [e] says why. *)
Inductive fault (l : location) : str -> error -> Prop :=
| fa_foreign : forall c r, foreign c -> fault l (c :: r) (Error_ l (MUndefinedChar c))
| fa_colon : forall r, hd_error r <> Some c_rpar -> fault l (c_colon :: r) (Error_ l MColon)
| fa_end_comment : forall r, fault l (c_star :: c_rpar :: r) (Error_ l MEndCommentNotOpened)
| fa_ambiguous : forall r, fault l (c_lpar :: c_star :: c_rpar :: r) (Error_ l MAmbiguousComment)
| fa_term_empty : forall q r, quote q -> fault l (q :: q :: r) (Error_ l MTermEmpty)
| fa_term_bad : forall q w c r, quote q -> Forall printable w -> ~ In q w -> ~ printable c ->
    fault l (q :: w ++ c :: r) (Error_ l (MTermBadChar c))
| fa_term_open : forall q w, quote q -> Forall printable w -> ~ In q w ->
    fault l (q :: w) (Error_ l (MTermNotClosed q))
| fa_spec_bad : forall w c r, Forall (fun x => x <> c_quest /\ (printable x \/ gap_char x)) w -> ~ printable c -> ~ gap_char c ->
    fault l (c_quest :: w ++ c :: r) (Error_ l (MSpecBadChar c))
| fa_spec_open : forall w, Forall (fun x => x <> c_quest /\ (printable x \/ gap_char x)) w ->
    fault l (c_quest :: w) (Error_ l MSpecNotClosed)
| fa_comment_bad : forall w c r l', commented w -> ~ printable c -> ~ gap_char c ->
    reaches l (c_lpar :: c_star :: w) l' ->
    fault l (c_lpar :: c_star :: w ++ c :: r) (Error_ l' (MCommentBadChar c))
| fa_comment_open : forall w, commented w -> fault l (c_lpar :: c_star :: w) (Error_ l MCommentNotClosed).
(** Text to come might still mend it. *)
Definition unfinished (v : str) (e : error) : Prop :=
  match e_msg e with
  | MTermNotClosed _ | MSpecNotClosed | MCommentNotClosed => True
  | MUndefinedChar _ | MColon => length v = 1
  | _ => False
  end.

(** The last token of [a] that is not trivia is [t]. *)
Definition just_before (t : token) (a : list token) : Prop :=
  exists a0 tr, a = a0 ++ t :: tr /\ all_trivia tr.
(** A rule may begin behind [a]. *)
Definition rule_begins (a : list token) : Prop :=
  all_trivia a \/ exists t, terminator t /\ just_before t a.

(** The bracket [t] and its kind of brackets. *)
Inductive opening : token -> str -> (token -> Prop) -> (token -> Prop) -> Prop :=
| op_option : forall l s, opening (TStartOption l s) (of_string "start-option-symbol")
    (fun x => exists l s, x = TStartOption l s) (fun x => exists l s, x = TEndOption l s)
| op_repeat : forall l s, opening (TStartRepeat l s) (of_string "start-repeat-symbol")
    (fun x => exists l s, x = TStartRepeat l s) (fun x => exists l s, x = TEndRepeat l s)
| op_group : forall l, opening (TStartGroup l) (of_string "start-group-symbol")
    (fun x => exists l, x = TStartGroup l) (fun x => exists l, x = TEndGroup l).
(** [counts P ts n]: [n] of the tokens satisfy [P]. *)
Inductive counts (P : token -> Prop) : list token -> nat -> Prop :=
| co_nil : counts P [] 0
| co_yes : forall t ts n, P t -> counts P ts n -> counts P (t :: ts) (S n)
| co_no : forall t ts n, ~ P t -> counts P ts n -> counts P (t :: ts) n.
(** Behind an opening bracket come the tokens [b]: before they close it they end the rule,
    or close a bracket of another kind that they have not opened. *)
Definition never_closed (o c : token -> Prop) (b : list token) : Prop :=
  exists b1 x b2, b = b1 ++ x :: b2 /\ Forall (fun t => ~ terminator t) b1 /\
    (forall p q i j, b1 = p ++ q -> counts o p i -> counts c p j -> j <= i) /\
    (terminator x \/
     exists y n o' c', opening y n o' c' /\ c' x /\ ~ c x /\
       forall i j, counts o' b1 i -> counts c' b1 j -> i <= j).

(** [misfit a t b m]: between the tokens [a] and [b] stands [t], and [m] says what is
    wrong with it. *)
Inductive misfit (a : list token) : token -> list token -> msg -> Prop :=
| mi_meta : forall t b, rule_begins a -> ~ trivia t -> ~ terminator t -> (forall l s, t <> TMeta l s) ->
    misfit a t b (MMetaExpected (tok_name t))
| mi_defining : forall l s t b, just_before (TMeta l s) a -> ~ trivia t -> (forall l, t <> TDefining l) ->
    misfit a t b (MDefiningExpected (tok_name t))
| mi_concat : forall t b, ~ trivia t -> ~ terminator t -> (forall l, t <> TConcat l) -> (forall l c, t <> TDefSep l c) ->
    misfit a t b (MConcatExpected (tok_name t))
| mi_number : forall l s b, (2 ^ 32 <= numeral s)%N -> misfit a (TInteger l s) b (MRepetitionNumber s)
| mi_repetition : forall l s t b, just_before (TInteger l s) a -> ~ trivia t -> (forall l, t <> TRepetition l) ->
    misfit a t b (MRepetitionExpected (tok_name t))
| mi_option : forall l l' b, misfit a (TStartOption l [c_lpar; c_slash]) (TEndGroup l' :: b) MAmbiguousOption
| mi_repeat : forall l l' b, misfit a (TStartRepeat l [c_lpar; c_colon]) (TEndGroup l' :: b) MAmbiguousRepeat
| mi_open : forall t n o c b, opening t n o c -> never_closed o c b -> misfit a t b (MNotClosed n (tok_text t)).

(** [viable name ts]: some text that begins with the tokens [ts] is a syntax. *)
Definition viable (name : str) (ts : list token) : Prop :=
  exists s ts' rs, lexes (loc_new name) s (ts ++ ts') /\ g_syntax (ts ++ ts') rs.
(** Messages about a bracket, known only from what comes behind it. *)
Definition about_bracket (m : msg) : Prop :=
  match m with MAmbiguousOption | MAmbiguousRepeat | MNotClosed _ _ => True | _ => False end.
(** [e] says what is wrong with one of the tokens of [s].  The tokens before it can be
    continued to a syntax.  With it, and for a bracket with the tokens that show that it
    does not fit, they cannot. *)
Definition grammatical (name s : str) (e : error) : Prop :=
  exists ts l v a t b1 b2, cuts (loc_new name) s ts l v /\
    (ts = a ++ t :: b1 ++ b2 \/ v = [] /\ ts ++ [TEOF l] = a ++ t :: b1 ++ b2) /\
    e_loc e = tok_loc t /\ misfit a t (b1 ++ b2) (e_msg e) /\
    viable name a /\ ~ viable name (a ++ t :: b1) /\ (b1 = [] \/ about_bracket (e_msg e)).
Definition lexical (name s : str) (e : error) : Prop :=
  exists ts l v, cuts (loc_new name) s ts l v /\ fault l v e.
(** The buffer would have held more than [max] characters. *)
Definition too_long (name s : str) (max : N) (e : error) : Prop :=
  exists ts l v have add, cuts (loc_new name) s ts l v /\ e = Error_ l (MTooLong have add max) /\
    (0 < max < have + add)%N /\ (have + add <= N.of_nat (length v))%N.
