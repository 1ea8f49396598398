(** Property C79: exactly when a parse returns. *)
From Coq Require Import String List NArith Arith Bool Lia Relations.
From Verif Require Import Base Ident Tokenizer Ast Lex Syntax Io Graph Machine SpecText SpecSyntax SpecIo TextFacts SyntaxFacts IoFacts SpecParse SpecMachine SpecEvents SpecTotal SpecLoop Pure PureFacts ParseFacts CodeFacts RunFacts RunComplete EvFacts MachineFacts TotalFacts FuelFacts LoopFacts PropSyntax PropParse PropEvents PropTotal PropDepth.
Import ListNotations.
Open Scope nat_scope.

(** A parse of a complete text returns exactly when no rule is tried again at a place where
    it is being tried already. *)
Lemma returns_iff : forall rs cfg g id m debug rd, parser_for rs cfg g id m -> reader rd -> ending_of rd = None ->
  ((exists fuel, fst (parser_parse debug g fuel m rd) <> OutOfFuel) <-> ~ loops rs cfg id (stand rd)).
Proof.
  intros rs cfg g id m debug rd Hp Hr He. destruct (parser_rule _ _ _ _ _ Hp) as (r & Hn & _).
  pose proof (ends_iff rs cfg (parser_unique _ _ _ _ _ Hp) (proj1 (proj2 Hp)) id (stand rd) (ex_intro _ r Hn)) as K. rewrite <- K. clear K. split.
  - intros (fuel & H). pose proof (parse_sound_api rs cfg g id m debug fuel rd Hp Hr He) as G. destruct (fst (parser_parse debug g fuel m rd)) as [evs|e|p|]; [| | |contradiction].
    + destruct G as (raw & G & _). eauto.
    + destruct G as [(s' & raw & G)|[(s' & raw & G & _)|G]]; eauto.
    + destruct G as [G|(_ & s' & raw & G & _)]; eauto.
  - intros (o & Ho). destruct (parse_returns rs cfg g id m debug rd o Hp Hr He Ho) as (f0 & Hf). exists f0. apply Hf. lia.
Qed.
Theorem C79_returns_iff : forall rs cfg g id m debug rd, parser_for rs cfg g id m -> reader rd -> ending_of rd = None ->
  ((exists fuel, fst (parser_parse debug g fuel m rd) <> OutOfFuel) <-> ~ loops rs cfg id (stand rd)).
Proof. exact returns_iff. Qed.
Print Assumptions C79_returns_iff.
(** ... and with such a rule it never does. *)
Theorem C79_never : forall rs cfg g id m debug rd, parser_for rs cfg g id m -> reader rd -> ending_of rd = None ->
  loops rs cfg id (stand rd) -> forall fuel, fst (parser_parse debug g fuel m rd) = OutOfFuel.
Proof.
  intros rs cfg g id m debug rd Hp Hr He Hl fuel. destruct (fst (parser_parse debug g fuel m rd)) eqn:E; try reflexivity; exfalso;
    apply (proj1 (returns_iff rs cfg g id m debug rd Hp Hr He)); auto; exists fuel; rewrite E; discriminate.
Qed.
Print Assumptions C79_never.
(** Only rules that are left-recursive in their text (C37) can be tried again in this way. *)
Theorem C79_left_recursion : forall rs cfg g id m rd, parser_for rs cfg g id m -> reader rd -> ending_of rd = None ->
  (forall r, In r rs -> ~ left_recursive rs cfg r) -> ~ loops rs cfg id (stand rd).
Proof.
  intros rs cfg g id m rd Hp Hr He Hl. apply (returns_iff rs cfg g id m false rd Hp Hr He).
  destruct (parse_ends rs cfg g id m false rd Hp Hr He Hl) as (f0 & Hf). exists f0. apply Hf. lia.
Qed.
Print Assumptions C79_left_recursion.

(** A left-recursive rule whose parse returns for the texts that begin with [a], and for no
    others. *)
Definition hidden : str := txt "S='a'|S,'b';".
Lemma hidden_rules : exists r l1 l2 l3, rules_of hidden = [r] /\ r_id r = [83%N] /\
  r_defs r = [[Term (Factor 1 (PTerminal l1 [97%N])) None];
              [Term (Factor 1 (PMeta l2 [83%N])) None; Term (Factor 1 (PTerminal l3 [98%N])) None]].
Proof. vm_compute. eexists _, _, _, _. split; [reflexivity|]. split; reflexivity. Qed.
Lemma hidden_loops : forall s, (forall s', ~ goes s [97%N] s') -> loops (rules_of hidden) default_config (txt "S") s.
Proof.
  intros s Hs. destruct hidden_rules as (r & l1 & l2 & l3 & Hr & Hid & Hd). rewrite Hr.
  assert (Hn : names [r] [83%N] r) by (split; [left; reflexivity|apply same_name_keyed; rewrite Hid; reflexivity]).
  exists r, (r, s). split; [exact Hn|]. split; [apply rt_refl|]. apply t_step. unfold leads. cbn [fst snd]. rewrite Hd. apply as_defs. eapply as_alts_next.
  - eapply ev_seq_no; [reflexivity|]. apply ev_term_plain, ev_factor_one, ev_terminal_no. exact Hs.
  - apply as_alts, as_seq; [reflexivity|]. apply as_term, as_factor_one, as_meta, as_ref. exact Hn.
Qed.
Example C79_case : exists g m, parser_for (rules_of hidden) default_config g (txt "S") m /\ forall t debug,
  ((exists fuel, fst (parser_parse debug g fuel m (text_reader t)) <> OutOfFuel) <-> exists t', t = 97%N :: t').
Proof.
  destruct (prepare default_config hidden (txt "S")) as [(g & m)|] eqn:E; [|vm_compute in E; discriminate]. exists g, m.
  pose proof (prepare_ok _ _ _ _ _ E) as Hp. split; [exact Hp|]. intros t debug. destruct (text_reader_ok t) as (H1 & H2 & H3).
  assert (N0 : (forall s', ~ goes (Pst t (loc_new [])) [97%N] s') -> ~ exists fuel, fst (parser_parse debug g fuel m (text_reader t)) <> OutOfFuel).
  { intros Hs H. apply (proj1 (returns_iff _ _ g _ m debug _ Hp H1 H2)) in H. apply H. rewrite H3. apply hidden_loops. exact Hs. }
  split.
  - intros H. destruct t as [|c t]; [exfalso; apply N0; [|exact H]; intros s' (K & _); discriminate K|].
    destruct (N.eq_dec c 97) as [->|Hc]; [eauto|]. exfalso. apply N0; [|exact H]. intros s' (K & _). cbn in K. congruence.
  - intros (t' & ->). destruct hidden_rules as (r & l1 & l2 & l3 & Hr & Hid & Hd).
    destruct (one_more 97%N (stand (text_reader (97%N :: t'))) t') as (s1 & Hg & _); [rewrite H3; reflexivity|].
    destruct (parse_returns (rules_of hidden) default_config g (txt "S") m debug (text_reader (97%N :: t')) (Match s1 ((EvBegin (r_loc r) (p_at (stand (text_reader (97%N :: t')))) (r_id r) :: [EvToken l1 (p_at (stand (text_reader (97%N :: t')))) [97%N]] ++ []) ++ [EvEnd (r_loc r) (p_at s1) (r_id r)])) Hp H1 H2) as (f0 & Hf).
    + rewrite Hr. exists r. assert (Hn : names [r] [83%N] r) by (split; [left; reflexivity|apply same_name_keyed; rewrite Hid; reflexivity]). split; [exact Hn|].
      rewrite Hid at 1. apply (ev_ref _ _ _ _ r); [exact Hn|]. rewrite Hd. apply ev_defs, ev_alts_first. eapply seq_more; [reflexivity|apply ev_term_plain, ev_factor_one, ev_terminal; exact Hg|apply ev_seq_nil].
    + exists f0. apply Hf. lia.
Qed.
(** The same through another rule, and behind something that need not be there. *)
Definition winding : str := txt "A=B|'x';B=['y'],A,'z';".
Example C79_indirect : exists g m, parser_for (rules_of winding) default_config g (txt "A") m /\ forall t debug fuel,
  (forall t', t <> 121%N :: t') -> fst (parser_parse debug g fuel m (text_reader t)) = OutOfFuel.
Proof.
  destruct (prepare default_config winding (txt "A")) as [(g & m)|] eqn:E; [|vm_compute in E; discriminate]. exists g, m.
  pose proof (prepare_ok _ _ _ _ _ E) as Hp. split; [exact Hp|]. intros t debug fuel Ht. destruct (text_reader_ok t) as (H1 & H2 & H3).
  apply (C79_never _ _ g _ m debug _ Hp H1 H2). rewrite H3. clear - Ht.
  assert (K : exists a b l1 l2 l3 l4 l5 l6, rules_of winding = [a; b] /\ r_id a = [65%N] /\ r_id b = [66%N] /\
    r_defs a = [[Term (Factor 1 (PMeta l1 [66%N])) None]; [Term (Factor 1 (PTerminal l2 [120%N])) None]] /\
    r_defs b = [[Term (Factor 1 (POptional l3 [[Term (Factor 1 (PTerminal l4 [121%N])) None]])) None; Term (Factor 1 (PMeta l5 [65%N])) None; Term (Factor 1 (PTerminal l6 [122%N])) None]]).
  { vm_compute. do 8 eexists. split; [reflexivity|]. split; [reflexivity|]. split; [reflexivity|]. split; reflexivity. }
  destruct K as (a & b & l1 & l2 & l3 & l4 & l5 & l6 & Hr & Ha & Hb & Da & Db). rewrite Hr. set (s := Pst t (loc_new [])).
  assert (Na : names [a; b] [65%N] a) by (split; [left; reflexivity|apply same_name_keyed; rewrite Ha; reflexivity]).
  assert (Nb : names [a; b] [66%N] b) by (split; [right; left; reflexivity|apply same_name_keyed; rewrite Hb; reflexivity]).
  exists a, (a, s). split; [exact Na|]. split; [apply rt_refl|]. apply (t_trans _ _ _ (b, s)); apply t_step; unfold leads; cbn [fst snd].
  - rewrite Da. apply as_defs, as_alts, as_seq; [reflexivity|]. apply as_term, as_factor_one, as_meta, as_ref. exact Nb.
  - rewrite Db. apply as_defs_one. eapply as_seq_next; [reflexivity| |].
    + apply ev_term_plain, ev_factor_one, ev_optional. eapply ev_times_stop; [reflexivity|lia|]. apply ev_defs_one. eapply ev_seq_no; [reflexivity|].
      apply ev_term_plain, ev_factor_one, ev_terminal_no. intros s' (G & _). cbn in G. exact (Ht _ G).
    + apply as_seq; [reflexivity|]. apply as_term, as_factor_one, as_meta, as_ref. exact Na.
Qed.
