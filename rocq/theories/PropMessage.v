(** Property C61: the text of an error tells where it is and what it is.

    [plain] says which characters beyond ASCII [{:?}] writes as they are.  [clear_msg]
    (SpecMessage.v) lists the messages about an EBNF text, about rules and about a text
    that is parsed. *)
From Coq Require Import String List NArith Arith Bool Lia.
From Verif Require Import Base Ident Tokenizer Ast Lex Syntax Io Graph Machine Message SpecText SpecSyntax SpecIo TextFacts SyntaxFacts IoFacts SpecParse SpecMachine SpecEvents SpecError SpecMessage MessageFacts ReadBack ClearFacts PropSyntax PropParse.
Import ListNotations.
Open Scope nat_scope.

(** Locations that display alike are alike. *)
Theorem C61_location : forall l l', show_location l = show_location l' -> l = l'.
Proof. exact location_inj. Qed.
Print Assumptions C61_location.

(** A quotation ends where it ends, and quotes one text. *)
Theorem C61_quotation : forall plain s s' a b, debug_text plain s ++ a = debug_text plain s' ++ b -> s = s' /\ a = b.
Proof. exact debug_split. Qed.
Print Assumptions C61_quotation.

(** Among the clear messages no two read alike. *)
Theorem C61_messages : forall plain m m', clear_msg m -> clear_msg m' -> render plain m = render plain m' -> m = m'.
Proof. exact render_inj. Qed.
Print Assumptions C61_messages.

(** Nor do errors of the same source. *)
Theorem C61_errors : forall plain e e', clear_msg (e_msg e) -> clear_msg (e_msg e') -> l_name (e_loc e) = l_name (e_loc e') ->
  show_error plain e = show_error plain e' -> e = e'.
Proof. exact error_inj. Qed.
Print Assumptions C61_errors.

(** All errors of the lexer, of [Syntax::new], and of a parse with the scanners of the
    library whose source does not fail are clear. *)
Theorem C61_lexer : forall lx e,
  (forall s, snd (lx_push_str lx s) = Err e -> clear_msg (e_msg e)) /\
  (forall c, snd (lx_push lx c) = Err e -> clear_msg (e_msg e)) /\
  (snd (lx_flush lx) = Err e -> clear_msg (e_msg e)).
Proof.
  intros lx e. split; [|split]; intros; [pose proof (lx_push_str_said lx s) as K|pose proof (lx_push_said lx c) as K|pose proof (lx_flush_said lx) as K]; rewrite H in K; exact K.
Qed.
Print Assumptions C61_lexer.
Theorem C61_parse_str : forall name s e, parse_str name s = Err e -> clear_msg (e_msg e).
Proof. intros name s e H. pose proof (parse_str_said name s) as K. rewrite H in K. exact K. Qed.
Print Assumptions C61_parse_str.
Theorem C61_new : forall rs e, new_syntax rs = Err e -> clear_msg (e_msg e).
Proof. intros rs e H. pose proof (new_syntax_said rs) as K. rewrite H in K. exact K. Qed.
Print Assumptions C61_new.
Theorem C61_parse : forall rs cfg g id m debug fuel rd e, parser_for rs cfg g id m -> (forall l c, library_scanner (cfg l c)) ->
  reader rd -> ending_of rd = None -> fst (parser_parse debug g fuel m rd) = Err e -> clear_msg (e_msg e).
Proof. exact parse_clear. Qed.
Print Assumptions C61_parse.

(** Printable ASCII is quoted as in the displayed rules. *)
Theorem C61_ascii : forall plain s, Forall (fun c => 32 <= c < 127)%N s -> debug_text plain s = debug_str s.
Proof. exact debug_ascii. Qed.
Print Assumptions C61_ascii.

(** An error reads: the name of the source, in brackets the line and the column in decimal,
    a space, and the message. *)
Theorem C61_place : forall plain e, exists line column,
  show_error plain e = l_name (e_loc e) ++ txt "(" ++ line ++ txt "," ++ column ++ txt ") " ++ render plain (e_msg e) /\
  decimal line (l_lines (e_loc e)) /\ decimal column (l_columns (e_loc e)).
Proof.
  intros plain e. exists (show_N (l_lines (e_loc e))), (show_N (l_columns (e_loc e))). repeat split; try apply show_N_reads.
  unfold show_error, show_location. rewrite <- !app_assoc. reflexivity.
Qed.
Print Assumptions C61_place.

(** A quotation is a literal of Rust for the text quoted, whatever it contains; and a literal
    ends at its closing quote and means one text. *)
Theorem C61_literal : forall plain s, exists w, debug_text plain s = txt """" ++ w ++ txt """" /\ literal 34 w s.
Proof. exact debug_text_reads. Qed.
Print Assumptions C61_literal.
Theorem C61_literal_one : forall w s w' s' a b, literal 34 w s -> literal 34 w' s' -> w ++ txt """" ++ a = w' ++ txt """" ++ b ->
  w = w' /\ s = s' /\ a = b.
Proof. exact (literal_ends 34 (or_introl eq_refl)). Qed.
Print Assumptions C61_literal_one.

(** A character that can not be used is shown as a literal and by its code point. *)
Theorem C61_code_point : forall plain c, exists w code, literal 39 w [c] /\ code_point code c /\
  render plain (MUndefinedChar c) = txt "An undefined character was detected: '" ++ w ++ txt "' (U+" ++ code ++ txt ")" /\
  render plain (MCommentBadChar c) = txt "This comment contains a character '" ++ w ++ txt "' (U+" ++ code ++ txt ") that cannot be used as a comment.".
Proof.
  intros plain c. destruct (debug_char_reads plain c) as (w & E & Hw). exists w, (show_04X c). repeat split; try exact Hw; try apply show_04X_reads.
  - cbn [render]. rewrite E, <- !app_assoc. reflexivity.
  - cbn [render]. rewrite E, <- !app_assoc. reflexivity.
Qed.
Print Assumptions C61_code_point.
Example C61_code_case : code_point (txt "00E9") 233 /\ code_point (txt "1F600") 128512 /\ ~ code_point (txt "000E9") 233 /\
  literal 34 (txt "a\u{e9}\n\""") [97; 233; 10; 34]%N.
Proof.
  split; [|split; [|split]].
  - change (txt "00E9") with [48; 48; 69; 57]%N. repeat split; [cbn; lia|repeat (constructor; [lia|]); constructor|cbn; lia].
  - change (txt "1F600") with [49; 70; 54; 48; 48]%N. repeat split; [cbn; lia|repeat (constructor; [lia|]); constructor|cbn; discriminate].
  - intros (_ & _ & _ & K). apply K; [cbn; lia|reflexivity].
  - change (txt "a\u{e9}\n\""") with (97%N :: [92; 117; 123]%N ++ [101; 57]%N ++ [125]%N ++ [92; 110; 92; 34]%N).
    apply lit_plain; try discriminate. apply lit_code; [discriminate|repeat (constructor; [lia|]); constructor|reflexivity|].
    apply lit_short; [cbn; tauto|]. apply lit_short; [cbn; tauto|]. constructor.
Qed.

(** Concrete errors as they are displayed. *)
Definition shown {A} (r : res A) : option str := match r with Err e => Some (show_error (fun _ => true) e) | _ => None end.
Example C61_case :
  shown (parse_str (txt "x.ebnf") (txt "a = 'b
")) = Some (txt "x.ebnf(1,5) terminal-string contains a character '\n' that cannot be used.") /\
  shown (parse_str (txt "x.ebnf") (txt "a = 'b'; &")) = Some (txt "x.ebnf(1,10) An undefined character was detected: '&' (U+0026)") /\
  shown (new_syntax (rules_of (txt "a='b'; b='c'; a='d';"))) = Some (txt "(1,15) The meta-identifier a is defined in (1,1).") /\
  option_map shown (parse_case default_config (txt "S='a','b'|'a','c';") (txt "S") true 100 (text_reader (txt "a'""\ and so on"))) =
    Some (Some (txt "(1,2) Syntactic Error: ""c"" expected, but ""'\""\\ and ..."" appeared.")).
Proof. repeat split; vm_compute; reflexivity. Qed.

(** Across sources the text is ambiguous: a name may read like a place and a message. *)
Theorem C61_names_matter : exists e e', show_error (fun _ => true) e = show_error (fun _ => true) e' /\
  clear_msg (e_msg e) /\ clear_msg (e_msg e') /\ e <> e'.
Proof.
  exists (Error_ (Loc (txt "a") 1 1) (MExpected (txt "b(1,1) Syntactic Error: c") Base.AEof)).
  exists (Error_ (Loc (txt "a(1,1) Syntactic Error: b") 1 1) (MExpected (txt "c") Base.AEof)).
  repeat split; try (constructor; exact I); try (vm_compute; reflexivity). discriminate.
Qed.
Print Assumptions C61_names_matter.
(** So are messages whose text is up to the user. *)
Theorem C61_users_matter : exists m m', render (fun _ => true) m = render (fun _ => true) m' /\ m <> m'.
Proof. exists (MUser (txt "An ambiguous start/end-option-symbol: (/)")), MAmbiguousOption. split; [reflexivity|discriminate]. Qed.
Print Assumptions C61_users_matter.
