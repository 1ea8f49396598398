(** C91: forwarding, exactly. *)
From Coq Require Import String List NArith Arith Bool Lia.
From Verif Require Import Base Ident Tokenizer Ast Lex Syntax Io Graph Machine SpecText SpecSyntax SpecIo TextFacts SyntaxFacts IoFacts SpecParse SpecMachine SpecEvents Pure ParseFacts CodeFacts EvFacts EventFacts MachineFacts SpecForward PropSyntax PropParse PropEvents PropDeriv.
Import ListNotations.
Open Scope nat_scope.

Lemma forward_iff : forall rs cfg l c s id s1 o, scanned (cfg l c) l s (SForward id s1) ->
  ev rs cfg (NPrim (PSpecial l c)) s o <->
  (exists n o', target rs id n /\ ev rs cfg n s1 o' /\ o = forgiven o') \/
  ((forall n, ~ target rs id n) /\ o = Halt (Failed (Error_ (p_at s) (MNoSuchForward id (scanner_symbol (cfg l c)) l)))).
Proof.
  intros rs cfg l c s id s1 o Hs.
  assert (Hfwd : forall o', ev rs cfg (NFwd id) s1 o' <-> exists n, target rs id n /\ ev rs cfg n s1 o').
  { intros o'. split.
    - intros H. inversion H; subst; eexists; (split; [econstructor; eassumption|assumption]).
    - intros (n & Ht & H). destruct Ht; [eapply ev_fwd; eassumption|eapply ev_fwd_alias; eassumption]. }
  split.
  - intros H. inversion H; subst;
      match goal with A : scanned (cfg l c) l s ?x |- _ => let E := fresh in pose proof (scanned_fun _ _ _ _ _ A Hs) as E; try discriminate E; injection E as -> -> end.
    + left. match goal with K : ev rs cfg (NFwd id) s1 _ |- _ => apply Hfwd in K; destruct K as (n & K1 & K2) end. eexists n, _. split; [exact K1|]. split; [exact K2|reflexivity].
    + left. match goal with K : ev rs cfg (NFwd id) s1 _ |- _ => apply Hfwd in K; destruct K as (n & K1 & K2) end. eexists n, _. split; [exact K1|]. split; [exact K2|reflexivity].
    + left. match goal with K : ev rs cfg (NFwd id) s1 _ |- _ => apply Hfwd in K; destruct K as (n & K1 & K2) end. eexists n, _. split; [exact K1|]. split; [exact K2|reflexivity].
    + right. split; [|reflexivity]. intros n Ht. destruct Ht as [r (K1 & K2)|r K1 K2].
      * match goal with K : ~ defined rs id |- _ => apply K end. exists r. auto.
      * match goal with K : forall r, In r rs -> ~ dollar id r |- _ => exact (K r K1 K2) end.
  - intros [(n & o' & Ht & Hev & ->)|(Hn & ->)].
    + assert (K : ev rs cfg (NFwd id) s1 o') by (apply Hfwd; eauto). destruct o' as [s' e|x s' e|h]; cbn [forgiven].
      * eapply ev_forward; eassumption.
      * eapply ev_forward_no; eassumption.
      * eapply ev_forward_halt; eassumption.
    + eapply ev_forward_unknown; [exact Hs| |].
      * intros (r & K1 & K2). apply (Hn (NDefs (r_defs r))). constructor. split; assumption.
      * intros r K1 K2. apply (Hn (NRef (r_loc r) (r_id r))). constructor; assumption.
Qed.
(** What a special sequence does where its scanner forwards: what the target does, a failure
    being taken for a match; an error if there is no target. *)
Theorem C91_forward : forall rs cfg l c s id s1 o, scanned (cfg l c) l s (SForward id s1) ->
  ev rs cfg (NPrim (PSpecial l c)) s o <->
  (exists n o', target rs id n /\ ev rs cfg n s1 o' /\ o = forgiven o') \/
  ((forall n, ~ target rs id n) /\ o = Halt (Failed (Error_ (p_at s) (MNoSuchForward id (scanner_symbol (cfg l c)) l)))).
Proof. exact forward_iff. Qed.
Print Assumptions C91_forward.

(** There is at most one target. *)
Lemma target_fun_pf : forall rs id n1 n2, no_repeat rs -> no_dollar rs -> target rs id n1 -> target rs id n2 -> n1 = n2.
Proof.
  intros rs id n1 n2 Hu Hd H1 H2. destruct H1 as [r1 A1|r1 A1 B1], H2 as [r2 A2|r2 A2 B2].
  - rewrite (names_unique _ _ _ _ Hu A1 A2). reflexivity.
  - exfalso. destruct A1 as (A1 & B1). apply (Hd r1 (r_id r2) A1). unfold dollar in B2. rewrite same_name_keyed in *. congruence.
  - exfalso. destruct A2 as (A2 & B2). apply (Hd r2 (r_id r1) A2). unfold dollar in B1. rewrite same_name_keyed in *. congruence.
  - assert (K : names rs (r_id r1) r2).
    { split; [exact A2|]. apply dollar_name. unfold dollar in *. rewrite same_name_keyed in *. congruence. }
    assert (K1 : names rs (r_id r1) r1) by (split; [exact A1|apply same_name_keyed; reflexivity]).
    rewrite (names_unique _ _ _ _ Hu K K1). reflexivity.
Qed.
Theorem C91_target : forall rs id n1 n2, no_repeat rs -> no_dollar rs -> target rs id n1 -> target rs id n2 -> n1 = n2.
Proof. exact target_fun_pf. Qed.
Print Assumptions C91_target.

(** A rule that is just such a special sequence accepts the texts that its target reads to the
    end, whether it matches them or not. *)
Lemma single_rule : forall rs cfg l c s o r, r_defs r = [[Term (Factor 1 (PSpecial l c)) None]] ->
  ev rs cfg (NDefs (r_defs r)) s o <-> ev rs cfg (NPrim (PSpecial l c)) s o.
Proof.
  intros rs cfg l c s o r ->. split.
  - intros H. inversion H; subst.
    all: repeat match goal with
      | K : ev _ _ (NAlts [_]) _ _ |- _ => inversion K; subst; clear K
      | K : ev _ _ (NSeq []) _ _ |- _ => inversion K; subst; clear K
      | K : ev _ _ (NSeq [_]) _ _ |- _ => inversion K; subst; clear K
      | K : ev _ _ (NTerm _) _ _ |- _ => inversion K; subst; clear K
      | K : ev _ _ (NFactor _) _ _ |- _ => inversion K; subst; clear K
      end; try discriminate; try congruence; try assumption; cbn [before] in *; try rewrite app_nil_r; try assumption.
  - intros H. apply ev_defs_one. assert (K : ev _ _ (NTerm (Term (Factor 1 (PSpecial l c)) None)) s o) by (apply ev_term_plain, ev_factor_one; exact H).
    destruct o as [s' e|x s' e|h].
    + pose proof (ev_seq rs cfg _ [] s s' e _ (eq_refl : bare_group (Term (Factor 1 (PSpecial l c)) None) = None) K (ev_seq_nil rs cfg s')) as Q. cbn [before] in Q. rewrite app_nil_r in Q. exact Q.
    + apply ev_seq_no; [reflexivity|exact K].
    + apply ev_seq_halt; [reflexivity|exact K].
Qed.
Lemma accepts_pf : forall rs cfg g id m rd r l c tid s1, parser_for rs cfg g id m -> reader rd -> ending_of rd = None ->
  names rs id r -> r_defs r = [[Term (Factor 1 (PSpecial l c)) None]] -> scanned (cfg l c) l (stand rd) (SForward tid s1) ->
  (exists fuel evs, fst (parser_parse false g fuel m rd) = Ok evs) <->
  exists n s' evs, target rs tid n /\ p_rest s' = [] /\ (ev rs cfg n s1 (Match s' evs) \/ exists e, ev rs cfg n s1 (No e s' evs)).
Proof.
  intros rs cfg g id m rd r l c tid s1 Hp Hr He Hn Hd Hs. split.
  - intros (fuel & evs & H). destruct (raw_of _ _ _ _ _ _ _ _ _ Hp Hr H) as (r2 & raw & Hn2 & Hev & _ & Hu).
    rewrite (names_unique _ _ _ _ (parser_unique _ _ _ _ _ Hp) Hn2 Hn) in Hev. set (s' := stand (snd (parser_parse false g fuel m rd))) in *.
    assert (Hs' : p_rest s' = []) by exact Hu. clearbody s'. inversion Hev; subst.
    match goal with K : names rs (r_id r) ?x |- _ => rewrite (names_unique _ _ _ _ (parser_unique _ _ _ _ _ Hp) K (self_name _ _ _ Hn)) in * end.
    match goal with K : ev rs cfg (NDefs (r_defs r)) _ _ |- _ => rename K into Hb end.
    apply (single_rule _ _ _ _ _ _ _ Hd) in Hb. apply (forward_iff _ _ _ _ _ _ _ _ Hs) in Hb. destruct Hb as [(n & o' & A & B & C)|(_ & C)]; [|discriminate].
    destruct o' as [s2 e|x s2 e|h]; cbn [forgiven] in C; try discriminate; injection C as <- <-; eexists n, _, _; (split; [exact A|]; split; [exact Hs'|]).
    + left. exact B.
    + right. eauto.
  - intros (n & s' & evs & A & Hs' & B).
    assert (Hb : ev rs cfg (NPrim (PSpecial l c)) (stand rd) (Match s' evs)).
    { apply (forward_iff _ _ _ _ _ _ _ _ Hs). left. destruct B as [B|(e & B)]; eexists n, _; (split; [exact A|]; split; [exact B|reflexivity]). }
    apply (single_rule _ _ _ _ _ _ _ Hd) in Hb. 
    assert (Hm : means rs cfg id (stand rd) (Match s' ((EvBegin (r_loc r) (p_at (stand rd)) (r_id r) :: evs) ++ [EvEnd (r_loc r) (p_at s') (r_id r)]))).
    { exists r. split; [exact Hn|]. eapply ev_ref; [exact (self_name _ _ _ Hn)|exact Hb]. }
    destruct (parse_complete_api rs cfg g id m false rd _ Hp Hr He Hm) as (f0 & Hf). specialize (Hf f0 (le_n _)). cbv iota in Hf.
    rewrite Hs' in Hf. cbn [andb] in Hf. eauto.
Qed.
Theorem C91_accepts : forall rs cfg g id m rd r l c tid s1, parser_for rs cfg g id m -> reader rd -> ending_of rd = None ->
  names rs id r -> r_defs r = [[Term (Factor 1 (PSpecial l c)) None]] -> scanned (cfg l c) l (stand rd) (SForward tid s1) ->
  (exists fuel evs, fst (parser_parse false g fuel m rd) = Ok evs) <->
  exists n s' evs, target rs tid n /\ p_rest s' = [] /\ (ev rs cfg n s1 (Match s' evs) \/ exists e, ev rs cfg n s1 (No e s' evs)).
Proof. exact accepts_pf. Qed.
Print Assumptions C91_accepts.

(** X reads the 'a', misses the 'b' and fails; S, which forwards to X, accepts the 'a'. *)
Example C91_case :
  let ebnf := txt "S=? x ?; X='a','b';" in
  parse_case (forwarding (txt "X")) ebnf (txt "S") true 100 (text_reader (txt "a")) = Some (Ok [bg 1 1 "S"; tk 12 1 "a"; en 1 2 "S"]) /\
  parse_case (forwarding (txt "X")) ebnf (txt "X") true 100 (text_reader (txt "a")) =
    Some (Err (Error_ (Loc [] 1 2) (MExpected (debug_str (txt "b")) Base.AEof))) /\
  scanned (forwarding (txt "X") (Loc [] 1 3) (txt " x ")) (Loc [] 1 3) (stand (text_reader (txt "a"))) (SForward (txt "X") (stand (text_reader (txt "a")))).
Proof. split; [vm_compute; reflexivity|]. split; [vm_compute; reflexivity|]. apply sn_user. constructor. Qed.
