(** Property C74: refactoring of rules.

    [refactored id] (SpecInline.v): parts are given names, names are written out, rules are
    put in another order, come in or are left out; [id] names the entry. *)
From Coq Require Import String List NArith Arith Bool Lia Relations Permutation.
From Verif Require Import Base Ident Tokenizer Ast Lex Syntax Io Graph Machine SpecText SpecSyntax SpecIo TextFacts SyntaxFacts IoFacts SpecTok SpecLex SpecGram SpecTree TreeFacts ShowFacts SpecParse SpecMachine SpecEvents SpecTotal SpecLL SpecDeriv SpecViable SpecLike SpecLaws SpecInline Pure ParseFacts CodeFacts EvFacts EventFacts MachineFacts LangFacts LikeFacts LikeUse LawFacts LawUse LawGlue InlineFacts PropSyntax PropParse PropEvents PropLike PropLaws.
Import ListNotations.
Open Scope nat_scope.

(** ** C74.  Naming a part, writing out a name *)
Theorem C74_refactored : forall rs rs' cfg g g' id m m' debug fuel rd, refactored id rs rs' -> no_forwarding cfg ->
  (debug = true -> nesting_scanners cfg) ->
  parser_for rs cfg g id m -> parser_for rs' cfg g' id m' -> reader rd -> ending_of rd = None ->
  fst (parser_parse debug g fuel m rd) <> OutOfFuel ->
  exists f0, forall fuel', f0 <= fuel' ->
    accepts_alike (fst (parser_parse debug g fuel m rd)) (fst (parser_parse debug g' fuel' m' rd)).
Proof. exact parse_refactored. Qed.
Print Assumptions C74_refactored.
Theorem C74_refactored_back : forall rs rs' cfg g g' id m m' debug fuel rd, refactored id rs rs' -> no_forwarding cfg ->
  (debug = true -> nesting_scanners cfg) ->
  parser_for rs cfg g id m -> parser_for rs' cfg g' id m' -> reader rd -> ending_of rd = None ->
  fst (parser_parse debug g' fuel m' rd) <> OutOfFuel ->
  exists f0, forall fuel', f0 <= fuel' ->
    accepts_alike (fst (parser_parse debug g' fuel m' rd)) (fst (parser_parse debug g fuel' m rd)).
Proof.
  intros rs rs' cfg g g' id m m' debug fuel rd H Hf Hn Hp Hp' Hr He Hne. eapply (parse_refactored rs' rs); try eassumption.
  apply (refactored_back id rs rs' H (parser_unique _ _ _ _ _ Hp) (proj1 (proj2 Hp))).
Qed.
Print Assumptions C74_refactored_back.
(** For syntaxes written down. *)
Theorem C74_texts : forall name1 name2 s1 s2 rs1 rs rs' rs2 cfg g1 g2 id m1 m2 debug fuel1 rd,
  parse_str name1 s1 = Ok rs1 -> parse_str name2 s2 = Ok rs2 ->
  Forall2 eq_but_loc rs1 rs -> refactored id rs rs' -> Forall2 eq_but_loc rs' rs2 -> placeless cfg -> no_forwarding cfg ->
  (debug = true -> nesting_scanners cfg) ->
  parser_for rs1 cfg g1 id m1 -> parser_for rs2 cfg g2 id m2 -> reader rd -> ending_of rd = None ->
  fst (parser_parse debug g1 fuel1 m1 rd) <> OutOfFuel ->
  exists f0, forall fuel, f0 <= fuel ->
    match fst (parser_parse debug g1 fuel1 m1 rd), fst (parser_parse debug g2 fuel m2 rd) with
    | Ok _, Ok _ => True
    | Err e, Err e' => e_loc e = e_loc e'
    | Panic _, Panic _ => True
    | _, _ => False
    end.
Proof.
  intros name1 name2 s1 s2 rs1 rs rs' rs2 cfg g1 g2 id m1 m2 debug fuel1 rd H1 H2 HF1 HR HF2 Hc Hw Hn Hp1 Hp2 Hr He Hf.
  pose proof (but_loc_sym _ _ HF2) as HB.
  destruct (moved_parser rs1 rs cfg g1 id m1 HF1 (moved_filled _ _ HF1 (read_filled _ _ _ H1)) Hp1) as (g & m & Hp).
  destruct (moved_parser rs2 rs' cfg g2 id m2 HB (moved_filled _ _ HB (read_filled _ _ _ H2)) Hp2) as (g' & m' & Hp').
  destruct (parse_moved rs1 rs cfg HF1 Hc g1 g id m1 m debug fuel1 rd Hp1 Hp Hr He Hf) as (f1 & K1). specialize (K1 f1 (le_n _)).
  destruct (parse_refactored rs rs' cfg g g' id m m' debug f1 rd HR Hw Hn Hp Hp' Hr He (moved_answered _ _ K1)) as (f2 & K2). specialize (K2 f2 (le_n _)).
  destruct (parse_moved rs' rs2 cfg HF2 Hc g' g2 id m' m2 debug f2 rd Hp' Hp2 Hr He (alike_answered _ _ K2)) as (f0 & K3).
  exists f0. intros fuel Hle. exact (alike_compose _ _ _ _ K1 K2 (K3 fuel Hle)).
Qed.
Print Assumptions C74_texts.
(** The choice at the end gets a name, and [P] is written out. *)
Definition before_text : str := txt "S=P,('b'|'c');P='a','-';".
Definition after_text : str := txt "S='a','-',T;T='b'|'c';".
Definition inputs (t : str) : list (option (res (list event))) :=
  map (fun w => parse_case default_config t (txt "S") true 300 (text_reader (txt w))) ["a-b"; "a-c"; "ab"; "a-"; "a-bb"]%string.
Lemma no_dollar_check : forall rs, forallb (fun r => match keyed (r_id r) with 36%N :: _ => false | _ => true end) rs = true -> no_dollar rs.
Proof.
  intros rs H r w Hr K. rewrite forallb_forall in H. specialize (H r Hr). apply same_name_keyed in K. rewrite K in H. cbn in H. discriminate.
Qed.
Lemma no_repeat_check : forall rs, nodup (list_eq_dec N.eq_dec) (map (fun r => keyed (r_id r)) rs) = map (fun r => keyed (r_id r)) rs -> no_repeat rs.
Proof. intros rs H. apply no_repeat_keys. rewrite <- H. apply NoDup_nodup. Qed.
Example C74_case : exists rs rs', Forall2 eq_but_loc (rules_of before_text) rs /\ refactored (txt "S") rs rs' /\ Forall2 eq_but_loc rs' (rules_of after_text) /\
  map brief (inputs before_text) = [None; None; Some (Loc [] 1 2); Some (Loc [] 1 3); Some (Loc [] 1 4)] /\
  map brief (inputs after_text) = [None; None; Some (Loc [] 1 2); Some (Loc [] 1 3); Some (Loc [] 1 4)].
Proof.
  set (o := loc_new []). set (c := fun w => just (PTerminal o (txt w))). set (bc := [[c "b"%string]; [c "c"%string]]). set (x := just (PGrouped o bc)).
  set (P := Rule o (txt "P") [[c "a"; c "-"]]%string). set (T := Rule o (txt "T") bc). set (t := just (PMeta o (txt "T"))).
  set (S := fun d => Rule o (txt "S") [d]). set (p := just (PMeta o (txt "P"))).
  exists [S [p; x]; P], [S [c "a"; c "-"; t]%string; T].
  split; [repeat constructor|]. split; [|split; [repeat constructor|vm_compute; auto]].
  assert (names_T : forall rs, In T rs -> names rs (txt "T") T) by (intros rs H; split; [exact H|apply same_name_keyed; reflexivity]).
  assert (names_P : forall rs, In P rs -> names rs (txt "P") P) by (intros rs H; split; [exact H|apply same_name_keyed; reflexivity]).
  assert (names_S : forall d rs, In (S d) rs -> defined rs (txt "S")) by (intros d rs H; exists (S d); split; [exact H|apply same_name_keyed; reflexivity]).
  eapply rf_trans.
  { apply (rf_more _ _ [T]); [refine (all_defined_ok _ _); vm_compute; reflexivity|apply (names_S [p; x]); left; reflexivity| |].
    - apply no_repeat_check. vm_compute. reflexivity.
    - apply no_dollar_check. vm_compute. reflexivity. }
  cbn [app]. eapply rf_trans.
  { apply (rf_place _ [] o (txt "S") _ [[p; t]] [P; T]). apply (rw_alternative _ [] _ [p; t] []). apply rw_tail. apply rw_back.
    apply (il_last _ (txt "T") T). apply names_T. right. left. reflexivity. }
  cbn [app]. eapply rf_trans.
  { apply (rf_place _ [] o (txt "S") _ [[c "a"; c "-"; t]%string] [P; T]). apply (rw_alternative _ [] _ [c "a"; c "-"; t]%string []). apply rw_law.
    apply (il_sequence _ (txt "P") P o [c "a"; c "-"]%string [t]); [apply names_P; left; reflexivity|reflexivity|repeat constructor]. }
  cbn [app]. eapply rf_trans.
  { apply rf_order. apply perm_skip, perm_swap. }
  apply (rf_fewer _ [_; T] [P]); [refine (all_defined_ok _ _); vm_compute; reflexivity|]. apply (names_S [c "a"; c "-"; t]%string). left. reflexivity.
Qed.
(** In the midst of a sequence, the name of a rule is not its definitions in parentheses. *)
Theorem C74_group_named_refuted : exists input,
  (exists evs, parse_case default_config (txt "S=('a'|'b'),'c';") (txt "S") true 300 (text_reader input) = Some (Ok evs)) /\
  (exists e, parse_case default_config (txt "S=T,'c';T='a'|'b';") (txt "S") true 300 (text_reader input) = Some (Err e)).
Proof. exists (txt "a"). split; eexists; vm_compute; reflexivity. Qed.
Print Assumptions C74_group_named_refuted.
(** What is accepted stays, but the events do not: those of the name go or come. *)
Example C74_events_differ :
  parse_case default_config before_text (txt "S") true 300 (text_reader (txt "a-b")) <> parse_case default_config after_text (txt "S") true 300 (text_reader (txt "a-b")).
Proof. vm_compute. discriminate. Qed.
