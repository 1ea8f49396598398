(** Property C68: the error of a rejected text stands after a beginning that could have been
    continued to a text of the grammar.

    [viable] (SpecViable.v) uses the textbook language of the rules ([lang], SpecEvents.v). *)
From Coq Require Import String List NArith Arith Bool Lia.
From Verif Require Import Base Ident Tokenizer Ast Lex Syntax Io Graph Machine SpecText SpecSyntax SpecIo TextFacts SyntaxFacts IoFacts SpecParse SpecMachine SpecEvents SpecTotal SpecLL SpecDeriv SpecViable Pure ParseFacts CodeFacts EvFacts EventFacts MachineFacts LangFacts TotalFacts LLFacts DerivFacts LLCheck ProdCheck ViableFacts PropSyntax PropParse PropEvents PropLL PropDeriv.
Import ListNotations.
Open Scope nat_scope.

Lemma viable_pf : forall rs cfg g id m debug fuel rd e, parser_for rs cfg g id m -> reader rd -> ending_of rd = None ->
  no_forwarding cfg -> local_failures cfg -> productive rs cfg -> Forall (fun r => groups_last (NDefs (r_defs r))) rs ->
  fst (parser_parse debug g fuel m rd) = Err e ->
  exists w s', goes (stand rd) w s' /\ e_loc e = p_at s' /\ viable rs cfg id w.
Proof.
  intros rs cfg g id m debug fuel rd e Hp Hr He Hf Hl Hprod Hg H.
  assert (R : forall r w v, names rs id r -> lang cfg rs (NPrim (PMeta (r_loc r) (r_id r))) (w ++ v) -> viable rs cfg id w).
  { intros r w v Hn K. inversion K; subst. match goal with J : names rs (r_id r) ?r0 |- _ => rewrite (names_unique _ _ _ _ (parser_unique _ _ _ _ _ Hp) J (self_name _ _ _ Hn)) in * end. exists r, v. auto. }
  assert (F : forall o, means rs cfg id (stand rd) o -> fault o = Some e -> exists w s', goes (stand rd) w s' /\ e_loc e = p_at s' /\ viable rs cfg id w).
  { intros o (r & Hn & Hev) Ho. destruct (ev_on rs cfg Hf Hl Hg Hprod _ _ _ Hev I I e Ho) as (u & v & (s1 & G & E) & Hw). exists u, s1. split; [exact G|]. split; [exact E|]. eapply R; [exact Hn|exact Hw]. }
  pose proof (parse_sound_api rs cfg g id m debug fuel rd Hp Hr He) as K. rewrite H in K.
  destruct K as [(s' & raw & K)|[(s' & raw & (r & Hn & Hev) & _ & ->)|K]]; [exact (F _ K eq_refl)| |exact (F _ K eq_refl)].
  destruct (ev_speaks rs cfg Hf Hg _ _ _ Hev I) as (w & G & Hw). exists w, s'. split; [exact G|]. split; [reflexivity|]. apply (R r w []); [exact Hn|]. rewrite app_nil_r. exact Hw.
Qed.
(** C68: the location of an error is that of some place of the text, at or after the start
    of the parse, and the text up to there begins a word of the entry rule. *)
Theorem C68_viable : forall rs cfg g id m debug fuel rd e, parser_for rs cfg g id m -> reader rd ->
  ending_of rd = None -> no_forwarding cfg -> local_failures cfg -> productive rs cfg ->
  Forall (fun r => groups_last (NDefs (r_defs r))) rs ->
  fst (parser_parse debug g fuel m rd) = Err e ->
  exists w s', goes (stand rd) w s' /\ e_loc e = p_at s' /\ viable rs cfg id w.
Proof. exact viable_pf. Qed.
Print Assumptions C68_viable.
(** The scanners that come with the library fail where they start. *)
Theorem C68_library : forall cfg, library_config cfg -> no_forwarding cfg /\ local_failures cfg.
Proof.
  intros cfg H. split; [apply (library_scanners _ H)|]. intros l c s x K. specialize (H l c). inversion K; subst; try reflexivity.
  match goal with J : _ = cfg l c |- _ => rewrite <- J in H end. destruct H.
Qed.
Print Assumptions C68_library.

(** Some parser ran, and failed there. *)
Lemma fails_viable : forall cfg text id debug fuel input l, library_config cfg -> productive (rules_of text) cfg ->
  Forall (fun r => groups_last (NDefs (r_defs r))) (rules_of text) ->
  match parse_case cfg text id debug fuel (text_reader input) with Some (Err e) => e_loc e = l | _ => False end ->
  exists w s', goes (Pst input (loc_new [])) w s' /\ l = p_at s' /\ viable (rules_of text) cfg id w.
Proof.
  intros cfg text id debug fuel input l Hl Hp Hg H. destruct (parse_case cfg text id debug fuel (text_reader input)) as [[| | |]|] eqn:E; try contradiction. subst l.
  destruct (parse_case_ok _ _ _ _ _ _ _ E) as (g & m & Hm & K). destruct (text_reader_ok input) as (H1 & H2 & H3).
  destruct (C68_library _ Hl) as (L1 & L2). rewrite <- H3. exact (C68_viable _ _ _ _ _ _ _ _ _ Hm H1 H2 L1 L2 Hp Hg K).
Qed.
(** An open bracket: the error of ["(2"] stands at its end, and ["(2"] can be continued. *)
Lemma calc_groups : Forall (fun r => groups_last (NDefs (r_defs r))) (rules_of calc).
Proof. apply rules_gl. apply C63_calc. Qed.
Example C68_calc :
  match parse_case number_config calc (txt "E") true 1000 (text_reader (txt "(2")) with Some (Err e) => e_loc e = Loc [] 1 3 | _ => False end /\
  viable (rules_of calc) number_config (txt "E") (txt "(2").
Proof.
  assert (K : match parse_case number_config calc (txt "E") true 1000 (text_reader (txt "(2")) with Some (Err e) => e_loc e = Loc [] 1 3 | _ => False end) by (vm_compute; reflexivity).
  split; [exact K|]. destruct (fails_viable number_config calc (txt "E") true 1000 (txt "(2") (Loc [] 1 3) number_library (proj2 C67_calc) calc_groups K) as (w & s' & (G1 & G2) & L & V).
  clear K. destruct s' as [rest at']. cbn [p_rest p_at] in *. subst at'. destruct G2 as (_ & _ & G2 & _). change (txt "(2") with [40%N; 50%N] in *. 
  destruct w as [|x [|y w]]; cbn [app] in G1.
  - specialize (G2 (fun F => F)). discriminate G2.
  - injection G1 as <- G1. assert (F : ~ In 10%N [40%N]) by (intros [F|[]]; discriminate F). specialize (G2 F). discriminate G2.
  - injection G1 as <- <- G. symmetry in G. apply app_eq_nil in G. destruct G as (-> & _). exact V.
Qed.
(** A grammar in which [X] has no words: the error of ["ab"] stands after ["a"], with which
    nothing begins. *)
Definition endless : str := txt "S='a',X|'b';X='x',X;".
Example C68_productive_needed : fruitful digits (rules_of endless) = false /\
  match parse_case default_config endless (txt "S") true 1000 (text_reader (txt "ab")) with Some (Err e) => e_loc e = Loc [] 1 2 | _ => False end.
Proof. split; vm_compute; reflexivity. Qed.
(** The error need not stand after the longest such beginning, although one character
    decides: of ["abd"] the beginning ["ab"] could be continued with ["c"]. *)
Definition tail_rules : str := txt "S='a',{'b','c'};".
Example C68_not_furthest :
  match parse_case default_config tail_rules (txt "S") true 1000 (text_reader (txt "abd")) with Some (Err e) => e_loc e = Loc [] 1 2 | _ => False end /\
  match parse_case default_config tail_rules (txt "S") true 1000 (text_reader (txt "abc")) with Some (Ok _) => True | _ => False end.
Proof. split; vm_compute; [reflexivity|exact I]. Qed.
