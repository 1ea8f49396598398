(** C62: lexing errors point at what they complain about. *)
From Coq Require Import String List NArith Arith Bool Lia.
From Verif Require Import Base Tokenizer Ast Lex SpecText TextFacts SpecTok SpecLex SpecGram SpecFault FaultFacts StopFacts.
Import ListNotations.
Open Scope nat_scope.

(** Every error, whatever the limit and the calls, names a spot that does not begin with a
    token, a token that does not fit, or the limit. *)
Theorem C62_errors : forall name max fs e, lex_fragments name max fs = Err e ->
  lexical name (frags_text fs) e \/ grammatical name (frags_text fs) e \/ too_long name (frags_text fs) max e.
Proof. exact errors_explained. Qed.
Print Assumptions C62_errors.

(** The location lies in the text. *)
Theorem C62_inside : forall name max fs e, lex_fragments name max fs = Err e ->
  exists u r, frags_text fs = u ++ r /\ reaches (loc_new name) u (e_loc e).
Proof. intros name max fs e H. apply errors_explained in H. exact (explained_inside _ _ _ _ H). Qed.
Print Assumptions C62_inside.

(** Unless it is about a bracket, a grammatical error points at the first token with which
    the text can no longer be continued to a syntax. *)
Theorem C62_first_misfit : forall name s e, grammatical name s e -> ~ about_bracket (e_msg e) ->
  exists ts l v a t b, cuts (loc_new name) s ts l v /\ (ts = a ++ t :: b \/ v = [] /\ ts ++ [TEOF l] = a ++ t :: b) /\
    e_loc e = tok_loc t /\ misfit a t b (e_msg e) /\
    forall p q, a ++ t :: b = p ++ q -> (viable name p <-> length p <= length a).
Proof.
  intros name s e (ts & l & v & a & t & b1 & b & Hc & Hts & El & Hm & Hy & Hn & Hb) Hnb. destruct Hb as [->|K]; [|contradiction]. cbn [app] in *.
  exists ts, l, v, a, t, b. split; [exact Hc|]. split; [exact Hts|]. split; [exact El|]. split; [exact Hm|]. intros p q E.
  assert (Hp : p = firstn (length p) (a ++ t :: b)) by (rewrite E, firstn_app, Nat.sub_diag, firstn_O, app_nil_r, firstn_all; reflexivity).
  split.
  - intros H. destruct (Nat.le_gt_cases (length p) (length a)) as [L|L]; [exact L|]. exfalso. apply Hn. apply (viable_prefix name _ (skipn (S (length a)) p)).
    replace (a ++ [t]) with (firstn (S (length a)) p); [rewrite firstn_skipn; exact H|].
    rewrite Hp, firstn_firstn, Nat.min_l by lia. rewrite firstn_app, firstn_all2 by lia. replace (S (length a) - length a) with 1 by lia. reflexivity.
  - intros L. apply (viable_prefix name _ (skipn (length p) a)). replace p with (firstn (length p) a) at 1; [rewrite firstn_skipn; exact Hy|].
    rewrite Hp at 2. rewrite firstn_app. replace (length p - length a) with 0 by lia. rewrite firstn_O, app_nil_r. reflexivity.
Qed.
Print Assumptions C62_first_misfit.

(** A text has at most one lexical fault. *)
Theorem C62_one_fault : forall name s e e', lexical name s e -> lexical name s e' -> e = e'.
Proof. exact lexical_unique. Qed.
Print Assumptions C62_one_fault.

(** A lexical fault does not pass: without a limit the fault is reported, or a token that does not fit
    (or the lexer panics, C09). *)
Theorem C62_reported : forall name fs e, lexical name (frags_text fs) e ->
  match lex_fragments name 0 fs with
  | Ok _ => False
  | Err e' => e' = e \/ grammatical name (frags_text fs) e'
  | _ => True
  end.
Proof. exact fault_reported. Qed.
Print Assumptions C62_reported.

(** [parse_str] reports it before any token that does not fit, unless the text to come
    could have mended it. *)
Theorem C62_at_once : forall name s ts l v e, cuts (loc_new name) s ts l v -> fault l v e -> ~ unfinished v e ->
  parse_str name s = Err e.
Proof. exact fault_at_once. Qed.
Print Assumptions C62_at_once.

(** ** Instances *)
Example misplaced : lex_fragments (of_string "g") 0 [FStr (of_string "a = 'x' 'y'; b ="); FChar c_semi] =
  Err (Error_ (Loc (of_string "g") 1 9) (MConcatExpected (of_string "terminal-string"))).
Proof. vm_compute. reflexivity. Qed.
Example misplaced_first : exists ts l v a t b, cuts (loc_new (of_string "g")) (of_string "a = 'x' 'y'; b =;") ts l v /\
  (ts = a ++ t :: b \/ v = [] /\ ts ++ [TEOF l] = a ++ t :: b) /\ Loc (of_string "g") 1 9 = tok_loc t /\
  forall p q, a ++ t :: b = p ++ q -> (viable (of_string "g") p <-> length p <= length a).
Proof.
  pose proof (C62_errors _ _ _ _ misplaced) as H. change (frags_text _) with (of_string "a = 'x' 'y'; b =;") in H. destruct H as [(ts & l & v & _ & H)|[H|(ts & l & v & ? & ? & _ & H & _)]].
  - inversion H.
  - apply C62_first_misfit in H; [|intros []]. destruct H as (ts & l & v & a & t & b & H1 & H2 & H3 & _ & H4). exists ts, l, v, a, t, b. auto.
  - discriminate.
Qed.
Example not_closed : parse_str (of_string "g") (of_string "a = ['x', {b]; c = d}") =
  Err (Error_ (Loc (of_string "g") 1 11) (MNotClosed (of_string "start-repeat-symbol") (of_string "{"))).
Proof. vm_compute. reflexivity. Qed.
(** The character in the comment, not the comment. *)
Example bad_character : parse_str (of_string "g") (of_string "a = (* x " ++ [7%N] ++ of_string " *) b;") =
  Err (Error_ (Loc (of_string "g") 1 10) (MCommentBadChar 7)).
Proof. vm_compute. reflexivity. Qed.
Example bad_character_fault : lexical (of_string "g") (of_string "(* x " ++ [7%N] ++ of_string " *)") (Error_ (Loc (of_string "g") 1 6) (MCommentBadChar 7)).
Proof.
  destruct (C62_errors (of_string "g") 0 [FStr (of_string "(* x " ++ [7%N] ++ of_string " *)")] (Error_ (Loc (of_string "g") 1 6) (MCommentBadChar 7))) as [H|[H|H]]; [vm_compute; reflexivity| | |].
  - exact H.
  - destruct H as (? & ? & ? & ? & ? & ? & ? & _ & _ & _ & H & _). inversion H.
  - destruct H as (? & ? & ? & ? & ? & _ & H & _). discriminate.
Qed.
(** The fault comes second, and [parse_str] reports it nevertheless. *)
Example fault_first : parse_str (of_string "g") (of_string "a = ''; b = 'x' 'y'") = Err (Error_ (Loc (of_string "g") 1 5) MTermEmpty) /\
  parse_str (of_string "g") (of_string "b = 'x' 'y'; a = '';") = Err (Error_ (Loc (of_string "g") 1 18) MTermEmpty) /\
  lex_fragments (of_string "g") 0 [FStr (of_string "b = 'x' 'y';"); FStr (of_string " a = '';")] = Err (Error_ (Loc (of_string "g") 1 9) (MConcatExpected (of_string "terminal-string"))).
Proof. vm_compute. auto. Qed.
Example limited : lex_fragments (of_string "g") 3 [FStr (of_string "ab"); FStr (of_string "cd")] = Err (Error_ (loc_new (of_string "g")) (MTooLong 2 2 3)).
Proof. vm_compute. reflexivity. Qed.
