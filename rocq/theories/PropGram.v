(** Properties C09, C12, C13, C15-C17: the grammar read by the lexer. *)
From Coq Require Import String List NArith Arith Bool.
From Verif Require Import Base Tokenizer Ast Lex SpecText SpecTok SpecLex SpecGram SpecTree
  TokRun LexRun GramFacts GramText GramFinal TreeFacts.
Import ListNotations.
Open Scope nat_scope.

Definition txt := of_string.

(** C09 fails: a count directly before a closing bracket indexes past the end of the
    token slice. *)
Theorem C09_lexing_never_panics_refuted : exists s p, parse_str [] s = Panic p.
Proof. exists (txt "a=(3);"), PIndex. vm_compute. reflexivity. Qed.
Print Assumptions C09_lexing_never_panics_refuted.
(** It fails too (debug assertion) when a client goes on after a grammatical error
    without [reset]: the tokens of the failed rule are kept. *)
Theorem C09_flush_after_error_panics_refuted : exists hs p,
  snd (lx_flush (history (lx_new [] 0) hs)) = Panic p.
Proof. exists [HPushStr (txt "a=];")], PDebugAssert. vm_compute. reflexivity. Qed.
Print Assumptions C09_flush_after_error_panics_refuted.
(** What holds: reading any text in any fragments with any limit terminates, and panics
    only out of range and only on a text that has an integer before a closing bracket. *)
Theorem C09_only_panic : forall name m fs, match lex_fragments name m fs with
  | Ok _ | Err _ => True
  | Panic p => p = PIndex /\ exists u v ts,
      frags_text fs = u ++ v /\ lexes (loc_new name) u ts /\ count_before_close ts
  | OutOfFuel => False
  end.
Proof. exact frags_panic. Qed.
Print Assumptions C09_only_panic.
Example C09_case :
  is_ok (lex_fragments [] 0 [FStr (txt "a=3*"); FStr (txt "'b',(c);")]) = true /\
  (exists e, lex_fragments [] 0 [FStr (txt "a=3 'b';")] = Err e) /\
  lex_fragments [] 0 [FStr (txt "a=[3(**)]"); FStr (txt ";")] = Panic PIndex.
Proof. vm_compute. repeat split; eauto. Qed.

(** C12: every accepted text is a derivation of the returned rules, with their
    locations. *)
Theorem C12_parse_sound : forall name s rs, parse_str name s = Ok rs ->
  exists ts, lexes (loc_new name) s ts /\ g_syntax ts rs.
Proof. exact parse_sound. Qed.
Print Assumptions C12_parse_sound.
Example C12_case : exists rs, length rs = 2 /\
  parse_str [] (txt "a b = 2*'x' - c | {d}, ?e?; c = ;") = Ok rs.
Proof. vm_compute. eexists. split; [|reflexivity]. reflexivity. Qed.

(** C13: every text with a derivation is accepted, with these rules (empty sequences
    may carry another location); and no text has two different readings. *)
Theorem C13_parse_complete : forall name s ts rs,
  lexes (loc_new name) s ts -> g_syntax ts rs ->
  exists rs', parse_str name s = Ok rs' /\ Forall2 eq_but_empty rs' rs.
Proof. exact parse_complete. Qed.
Print Assumptions C13_parse_complete.
Theorem C13_unambiguous : forall name s ts ts' rs rs',
  lexes (loc_new name) s ts -> lexes (loc_new name) s ts' ->
  g_syntax ts rs -> g_syntax ts' rs' -> Forall2 eq_but_empty rs rs'.
Proof. exact text_unambiguous. Qed.
Print Assumptions C13_unambiguous.
Example C13_case : exists ts rs,
  lexes (loc_new []) (txt "a=3*b-'c'|;") ts /\ g_syntax ts rs /\ length rs = 1.
Proof.
  assert (E : exists rs, parse_str [] (txt "a=3*b-'c'|;") = Ok rs /\ length rs = 1).
  { vm_compute. eexists. split; reflexivity. }
  destruct E as (rs & E & L). apply parse_sound in E as (ts & Hl & Hg). eauto.
Qed.

(** C15: two texts with the same symbols give the same rules up to locations. *)
Theorem C15_same_symbols : forall name1 name2 s1 s2 ts1 ts2 ss rs1,
  lexes (loc_new name1) s1 ts1 -> lexes (loc_new name2) s2 ts2 ->
  symbols ts1 ss -> symbols ts2 ss -> parse_str name1 s1 = Ok rs1 ->
  exists rs2, parse_str name2 s2 = Ok rs2 /\ Forall2 eq_but_loc rs2 rs1.
Proof. exact same_symbols. Qed.
Print Assumptions C15_same_symbols.
(** Gaps and comments inserted or removed around any symbol do not matter. *)
Theorem C15_trivia_irrelevant : forall name1 name2 s1 s2 a t b tr1 tr2 ts2 rs1,
  lexes (loc_new name1) s1 (a ++ t :: b) -> lexes (loc_new name2) s2 ts2 ->
  symbol_of t <> None -> all_trivia tr1 -> all_trivia tr2 ->
  map erase ts2 = map erase (a ++ tr1 ++ t :: tr2 ++ b) ->
  (parse_str name1 s1 = Ok rs1 ->
   exists rs2, parse_str name2 s2 = Ok rs2 /\ Forall2 eq_but_loc rs2 rs1) /\
  (parse_str name2 s2 = Ok rs1 ->
   exists rs2, parse_str name1 s1 = Ok rs2 /\ Forall2 eq_but_loc rs2 rs1).
Proof. exact trivia_inserted. Qed.
Print Assumptions C15_trivia_irrelevant.
Example C15_case : exists a t b tr1 tr2 ts2 rs,
  lexes (loc_new []) (txt "a='x',b;") (a ++ t :: b) /\
  lexes (loc_new []) (txt "a='x' (*1*) ,  b;") ts2 /\
  symbol_of t <> None /\ all_trivia tr1 /\ length tr1 = 3 /\ all_trivia tr2 /\
  map erase ts2 = map erase (a ++ tr1 ++ t :: tr2 ++ b) /\
  parse_str [] (txt "a='x',b;") = Ok rs.
Proof.
  assert (E : exists x1 x2 x3 t b y1 y2 y3 c1 c2 c3 t' g b' rs,
    tokens_of [] [txt "a='x',b;"] = Ok (x1 :: x2 :: x3 :: t :: b) /\
    tokens_of [] [txt "a='x' (*1*) ,  b;"] = Ok (y1 :: y2 :: y3 :: c1 :: c2 :: c3 :: t' :: g :: b') /\
    all_trivia [c1; c2; c3] /\ all_trivia [g] /\ symbol_of t <> None /\
    map erase (y1 :: y2 :: y3 :: c1 :: c2 :: c3 :: t' :: g :: b') =
    map erase ([x1; x2; x3] ++ [c1; c2; c3] ++ t :: [g] ++ b) /\
    parse_str [] (txt "a='x',b;") = Ok rs).
  { vm_compute. do 15 eexists. repeat split; try reflexivity; repeat constructor. discriminate. }
  destruct E as (x1 & x2 & x3 & t & b & y1 & y2 & y3 & c1 & c2 & c3 & t' & g & b' & rs &
    E1 & E2 & H1 & H2 & H3 & H4 & H5).
  apply tokens_lexes in E1, E2. cbn [concat] in E1, E2. rewrite app_nil_r in E1, E2.
  exists [x1; x2; x3], t, b, [c1; c2; c3], [g], (y1 :: y2 :: y3 :: c1 :: c2 :: c3 :: t' :: g :: b'), rs.
  repeat split; assumption.
Qed.

(** C16: the terminator of the last rule may be left out. *)
Theorem C16_last_terminator_optional : forall name s rs tc,
  tc = c_semi \/ tc = c_dot ->
  parse_str name s = Ok rs -> parse_str name (s ++ [tc]) = Ok rs.
Proof. exact final_terminator. Qed.
Print Assumptions C16_last_terminator_optional.
Example C16_case : exists r1 r2,
  parse_str [] (txt "a='x';b=[c") <> Ok [r1; r2] /\
  parse_str [] (txt "a='x';b=[c]") = Ok [r1; r2] /\
  parse_str [] (txt "a='x';b=[c];") = Ok [r1; r2].
Proof. vm_compute. do 2 eexists. split; [|split; reflexivity]. discriminate. Qed.

(** C17: returned trees are well formed. *)
Theorem C17_rules_well_formed : forall name s rs,
  parse_str name s = Ok rs -> Forall wf_rule rs.
Proof. exact parse_wf. Qed.
Print Assumptions C17_rules_well_formed.
Example C17_case : exists l id d,
  parse_str [] (txt "long  name = (2 * 'x' - ),;") = Ok [Rule l id d] /\ id = txt "long name" /\
  length (concat d) = 2.
Proof. vm_compute. do 3 eexists. repeat split. Qed.
