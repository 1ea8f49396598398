(** Errors that their text tells apart. *)
From Coq Require Import String List NArith Arith Bool.
From Verif Require Import Base.
Import ListNotations.
Open Scope nat_scope.

(** What errors of [Parser::parse] quote: the end, or one to eight characters, followed by
    three dots if there are more. *)
Definition quotable (a : actual) : Prop :=
  match a with AEof => True | AText s more => 0 < length s <= 8 /\ (more = true -> length s = 8) end.

(** Messages about an EBNF text, about rules or about a text that is parsed.  Not among them:
    the texts of users and of the operating system, which may say anything. *)
Inductive clear_msg : msg -> Prop :=
(* lexical *)
| cm_too_long : forall a b c, clear_msg (MTooLong a b c)
| cm_ambiguous_comment : clear_msg MAmbiguousComment
| cm_colon : clear_msg MColon
| cm_end_comment : clear_msg MEndCommentNotOpened
| cm_undefined_char : forall c, clear_msg (MUndefinedChar c)
| cm_term_bad : forall c, clear_msg (MTermBadChar c)
| cm_term_open : forall c, clear_msg (MTermNotClosed c)
| cm_term_empty : clear_msg MTermEmpty
| cm_spec_bad : forall c, clear_msg (MSpecBadChar c)
| cm_spec_open : clear_msg MSpecNotClosed
| cm_comment_open : clear_msg MCommentNotClosed
| cm_comment_bad : forall c, clear_msg (MCommentBadChar c)
(* grammatical *)
| cm_meta : forall n, clear_msg (MMetaExpected n)
| cm_defining : forall n, clear_msg (MDefiningExpected n)
| cm_concat : forall n, clear_msg (MConcatExpected n)
| cm_number : forall n, clear_msg (MRepetitionNumber n)
| cm_repetition : forall n, clear_msg (MRepetitionExpected n)
| cm_option : clear_msg MAmbiguousOption
| cm_repeat : clear_msg MAmbiguousRepeat
| cm_not_closed : forall n s, In n (map of_string ["start-option-symbol"; "start-repeat-symbol"; "start-group-symbol"]%string) -> clear_msg (MNotClosed n s)
(* rules *)
| cm_duplicate : forall id l c, clear_msg (MDuplicate id l c)
| cm_undefined : forall id, clear_msg (MUndefinedMeta id)
(* parsing *)
| cm_regex : clear_msg MRegexTooLong
| cm_livelock : clear_msg MLivelock
| cm_expected : forall x a, quotable a -> clear_msg (MExpected x a).

(** Digits: [digit] is their value, [base] what a place is worth. *)
Fixpoint place_value (base : N) (digit : N -> N) (a : N) (s : str) : N :=
  match s with [] => a | c :: r => place_value base digit (base * a + digit c)%N r end.
Definition decimal (s : str) (n : N) : Prop :=
  s <> [] /\ Forall (fun c => 48 <= c <= 57)%N s /\ place_value 10 (fun c => c - 48)%N 0 s = n.
(** The value of a hexadecimal digit, small or capital. *)
Definition hexit (c : N) : N := (if c <? 58 then c - 48 else if c <? 71 then c - 55 else c - 87)%N.
(** A code point as Unicode writes it, after "U+": at least four capital hexadecimal digits,
    and no more zeros in front than that. *)
Definition code_point (s : str) (n : N) : Prop :=
  4 <= length s /\ Forall (fun c => 48 <= c <= 57 \/ 65 <= c <= 70)%N s /\ place_value 16 hexit 0 s = n /\
  (4 < length s -> hd_error s <> Some 48%N).
(** A literal of Rust, between the quotes [q]: what is written, and the characters meant. *)
Inductive literal (q : N) : str -> str -> Prop :=
| lit_end : literal q [] []
| lit_plain : forall c w s, c <> q -> c <> 92%N -> (32 <= c)%N -> c <> 127%N -> literal q w s -> literal q (c :: w) (c :: s)
| lit_short : forall x c w s, In (x, c) [(48, 0); (116, 9); (110, 10); (114, 13); (92, 92); (q, q)]%N -> literal q w s ->
    literal q (92%N :: x :: w) (c :: s)
| lit_code : forall h c w s, h <> [] -> Forall (fun d => 48 <= d <= 57 \/ 97 <= d <= 102)%N h -> place_value 16 hexit 0 h = c -> literal q w s ->
    literal q ([92; 117; 123]%N ++ h ++ [125%N] ++ w) (c :: s).
