(** Properties C05-C08, C10, C11, C14: feeding text to the lexer. *)
From Coq Require Import String List NArith Arith Bool.
From Verif Require Import Base Tokenizer Ast Lex SpecText SpecTok SpecLex TokRun LexRun.
Import ListNotations.
Open Scope nat_scope.

Definition txt := of_string.

(** C05: any sequence of [push] and [push_str] then [flush] gives the rules of
    [parse_str] on the whole text, and fails iff [parse_str] fails. *)
Theorem C05_chunk_invariance : forall name fs rs,
  lex_fragments name 0 fs = Ok rs <-> parse_str name (frags_text fs) = Ok rs.
Proof. exact frags_ok_iff. Qed.
Print Assumptions C05_chunk_invariance.
Example C05_case :
  let fs := [FStr (txt "a='"); FChar 120%N; FStr []; FStr (txt "';b=(*"); FStr (txt " *)")] in
  lex_fragments [] 0 fs = parse_str [] (frags_text fs) /\ is_ok (lex_fragments [] 0 fs) = true.
Proof. vm_compute. auto. Qed.

(** C06 fails: a text with a grammatical and, later, a lexical error reports the one
    or the other. *)
Theorem C06_error_identity_refuted : exists name fs1 fs2 e1 e2,
  frags_text fs1 = frags_text fs2 /\
  lex_fragments name 0 fs1 = Err e1 /\ lex_fragments name 0 fs2 = Err e2 /\ e1 <> e2.
Proof.
  exists [], [FStr (txt "a=];b=:x")], [FStr (txt "a=];"); FStr (txt "b=:x")].
  vm_compute. do 2 eexists. repeat split; discriminate.
Qed.
Print Assumptions C06_error_identity_refuted.

(** It holds for every text without a lexical error, and in general a text has at
    most two outcomes. *)
Theorem C06_error_identity_of_tokenisable : forall name s ts,
  lexes (loc_new name) s ts ->
  forall fs, frags_text fs = s -> lex_fragments name 0 fs = parse_str name s.
Proof. exact frags_same_outcome. Qed.
Print Assumptions C06_error_identity_of_tokenisable.
Theorem C06_at_most_two_outcomes : forall name s, exists o1 o2, forall fs,
  frags_text fs = s -> lex_fragments name 0 fs = o1 \/ lex_fragments name 0 fs = o2.
Proof. exact frags_two_outcomes. Qed.
Print Assumptions C06_at_most_two_outcomes.
(** The tokenizer itself always reports the same tokens or the same error. *)
Theorem C06_lexical_error_identity : forall name ss1 ss2,
  concat ss1 = concat ss2 -> tokens_of name ss1 = tokens_of name ss2.
Proof. exact tokens_chunks. Qed.
Print Assumptions C06_lexical_error_identity.
Example C06_case : exists ts e, lexes (loc_new []) (txt "a=];") ts /\
  lex_fragments [] 0 [FChar 97%N; FStr (txt "=];")] = Err e /\
  tokens_of [] [txt "a="; txt ":x"] = tokens_of [] [txt "a=:"; txt "x"] /\
  is_ok (tokens_of [] [txt "a=:x"]) = false.
Proof.
  assert (E : exists ts, tokens_of [] [txt "a=];"] = Ok ts) by (vm_compute; eauto).
  destruct E as (ts & E). apply tokens_lexes in E. cbn [concat] in E. rewrite app_nil_r in E.
  exists ts. vm_compute. eexists. repeat split; try reflexivity. exact E.
Qed.

(** C07 fails: ";;;" has tokens of one character only, and is rejected with limit 2. *)
Theorem C07_limit_rejects_only_long_tokens_refuted : exists m fs ts l h a,
  lexes (loc_new []) (frags_text fs) ts /\
  Forall (fun t => (N.of_nat (length (tok_text t)) < m)%N) ts /\
  lex_fragments [] m fs = Err (Error_ l (MTooLong h a m)).
Proof.
  assert (E : exists ts, tokens_of [] [txt ";;;"] = Ok ts /\
            Forall (fun t => (N.of_nat (length (tok_text t)) < 2)%N) ts).
  { vm_compute. eexists. split; [reflexivity|]. repeat constructor. }
  destruct E as (ts & E & HF). apply tokens_lexes in E. cbn [concat] in E. rewrite app_nil_r in E.
  exists 2%N, [FStr (txt ";;;")], ts. vm_compute. do 3 eexists. repeat split; [exact E|exact HF].
Qed.
Print Assumptions C07_limit_rejects_only_long_tokens_refuted.

(** What holds: fragments of at most [k] characters and tokens of at most [m - k]
    characters never meet the limit [m], and the result is that of [parse_str]. *)
Theorem C07_limit_harmless_for_small_fragments : forall name m k fs ts, (0 < m)%N ->
  lexes (loc_new name) (frags_text fs) ts ->
  Forall (fun t => (N.of_nat (length (tok_text t) + k) <= m)%N) ts ->
  Forall (fun f => length (frag_text f) <= k) fs ->
  lex_fragments name m fs = parse_str name (frags_text fs).
Proof. exact limit_irrelevant. Qed.
Print Assumptions C07_limit_harmless_for_small_fragments.
Example C07_case :
  let fs := map FChar (txt "abc = 'xy' ;") in
  is_ok (lex_fragments [] 5 fs) = true /\
  exists ts, lexes (loc_new []) (frags_text fs) ts /\
    Forall (fun t => (N.of_nat (length (tok_text t) + 1) <= 5)%N) ts /\
    Forall (fun f => length (frag_text f) <= 1) fs.
Proof.
  assert (E : exists ts, tokens_of [] [txt "abc = 'xy' ;"] = Ok ts /\
            Forall (fun t => (N.of_nat (length (tok_text t) + 1) <= 5)%N) ts).
  { vm_compute. eexists. split; [reflexivity|]. repeat constructor; discriminate. }
  destruct E as (ts & E & HF). apply tokens_lexes in E. cbn [concat] in E. rewrite app_nil_r in E.
  split; [reflexivity|]. exists ts. split; [exact E|]. split; [exact HF|]. repeat constructor.
Qed.

(** C08: no history makes the lexer hold more than [m] characters; a limited lexer
    that accepts returns what [parse_str] returns. *)
Theorem C08_limit_bounds_buffer : forall name m hs, (0 < m)%N ->
  (N.of_nat (length (tk_buf (lx_tk (history (lx_new name m) hs)))) <= m)%N.
Proof. exact history_bound. Qed.
Print Assumptions C08_limit_bounds_buffer.
Theorem C08_limited_result_is_unlimited_result : forall name m fs rs,
  lex_fragments name m fs = Ok rs -> parse_str name (frags_text fs) = Ok rs.
Proof. exact (fun name m fs rs H => proj1 (frags_ok_iff name fs rs) (limit_same name m fs rs H)). Qed.
Print Assumptions C08_limited_result_is_unlimited_result.
Example C08_case :
  length (tk_buf (lx_tk (history (lx_new [] 4) [HPushStr (txt "ab"); HPush 94%N; HPush 99%N; HPushStr (txt "xy"); HPush 42%N]))) = 4
  /\ is_ok (lex_fragments [] 4 [FStr (txt "ab="); FStr (txt "c;")]) = true.
Proof. vm_compute. auto. Qed.

(** C10: after any history, failed calls included, [reset] gives a lexer that cannot
    be told from a new one by any later calls. *)
Theorem C10_reset_is_fresh : forall name m before after,
  observations (history (lx_new name m) (before ++ [HReset])) after =
  observations (lx_new name m) after.
Proof.
  exact (fun name m before after =>
    eq_ind_r (fun lx => observations lx after = _)
      (eq_ind_r (fun lx => observations lx after = _) eq_refl (reset_fresh name m before))
      (fold_left_app hstep before [HReset] (lx_new name m))).
Qed.
Print Assumptions C10_reset_is_fresh.
Example C10_case :
  lx_new (txt "f") 9 <> history (lx_new (txt "f") 9) [HPushStr (txt "a=^;")] /\
  observations (history (lx_new (txt "f") 9) [HPushStr (txt "a=^;"); HFlush; HReset]) [HPushStr (txt "a=b;"); HFlush]
  <> observations (history (lx_new (txt "f") 9) [HPushStr (txt "a=^;"); HFlush]) [HPushStr (txt "a=b;"); HFlush].
Proof. split; vm_compute; discriminate. Qed.

(** C11: in every reachable state, one character or [flush] completes at most one
    rule, and it is the one returned. *)
Theorem C11_push_loses_no_rule : forall name max lx c lx' rs, reached name max lx ->
  lx_push_str lx [c] = (lx', Ok rs) ->
  length rs <= 1 /\ lx_push lx c = (lx', Ok (hd_error rs)).
Proof. exact push_complete. Qed.
Print Assumptions C11_push_loses_no_rule.
Theorem C11_flush_loses_no_rule : forall name max lx tk ts c rs, reached name max lx ->
  tk_flush (lx_tk lx) = (tk, Ok ts) -> append_loop (lx_tokens lx) ts = (c, Ok rs) ->
  length rs <= 1 /\ lx_flush lx = (Lx tk c, Ok (hd_error rs)).
Proof. exact flush_complete. Qed.
Print Assumptions C11_flush_loses_no_rule.
Example C11_case : exists lx lx' r, reached [] 0 lx /\
  lx_push_str lx [59%N] = (lx', Ok [r]) /\ tk_buf (lx_tk lx) <> [].
Proof.
  pose (lx := fst (call (lx_new [] 0) (FStr (txt "a=b")))).
  exists lx, (fst (lx_push_str lx [59%N])), (Rule (Loc [] 1 1) (txt "a")
    [[Term (Factor 1 (PMeta (Loc [] 1 3) (txt "b"))) None]]).
  split; [|split; [reflexivity|discriminate]].
  apply (reached_call [] 0 _ (FStr (txt "a=b")) lx [] (reached_new [] 0)). reflexivity.
Qed.

(** C14: the tokenizer accepts exactly the texts that can be cut into valid tokens
    each followed by a legal character; the cut is unique, spells the text, and the
    locations are those of the first characters. *)
Theorem C14_tokenisation : forall name ss ts,
  tokens_of name ss = Ok ts <-> lexes (loc_new name) (concat ss) ts.
Proof. exact tokens_lexes. Qed.
Print Assumptions C14_tokenisation.
Theorem C14_cut : forall l s ts, lexes l s ts ->
  (forall ts', lexes l s ts' -> ts' = ts) /\
  flat_map tok_text ts = s /\
  (forall a t b, ts = a ++ t :: b -> reaches l (flat_map tok_text a) (tok_loc t)) /\
  (exists ts0 l', ts = ts0 ++ [TEOF l'] /\ Forall valid_tok ts0).
Proof.
  exact (fun l s ts H => conj (fun ts' H' => lexes_unique l s ts' ts H' H)
    (conj (lexes_text l s ts H) (conj (lexes_locations l s ts H) (lexes_shape l s ts H)))).
Qed.
Print Assumptions C14_cut.
Example C14_case : tokens_of [] [txt "a1=(*(*x*)*)2*(/b"; txt "/)."] =
  Ok [TMeta (Loc [] 1 1) (txt "a1"); TDefining (Loc [] 1 3); TComment (Loc [] 1 4) (txt "(*x*)");
      TInteger (Loc [] 1 13) (txt "2"); TRepetition (Loc [] 1 14); TStartOption (Loc [] 1 15) (txt "(/");
      TMeta (Loc [] 1 17) (txt "b"); TEndOption (Loc [] 1 18) (txt "/)");
      TTerminator (Loc [] 1 20) 46%N; TEOF (Loc [] 1 21)].
Proof. reflexivity. Qed.
