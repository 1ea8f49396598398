(** Properties C71, C72: ways to write rules differently.

    [law] and [loose_law] (SpecLaws.v) are the ways, [rewritten] applies them any number of
    times, at any place, in either direction.  [agrees]: the same events, or an error at the
    same place; [accepts_alike]: both accept, or an error at the same place. *)
From Coq Require Import String List NArith Arith Bool Lia Relations.
From Verif Require Import Base Ident Tokenizer Ast Lex Syntax Io Graph Machine SpecText SpecSyntax SpecIo TextFacts SyntaxFacts IoFacts SpecTok SpecLex SpecGram SpecTree TreeFacts ShowFacts SpecParse SpecMachine SpecEvents SpecTotal SpecLL SpecDeriv SpecViable SpecLike SpecLaws Pure ParseFacts CodeFacts EvFacts EventFacts MachineFacts LangFacts LikeFacts LikeUse TotalFacts LLFacts DerivFacts LLCheck ProdCheck ViableFacts LawFacts LawUse LawGlue PropSyntax PropParse PropEvents PropLL PropDeriv PropViable PropLike.
Import ListNotations.
Open Scope nat_scope.

(** ** C71.  Laws that keep events and places *)
Theorem C71_laws : forall rs rs' cfg g g' id m m' debug fuel rd, rewritten law rs rs' ->
  parser_for rs cfg g id m -> parser_for rs' cfg g' id m' -> reader rd -> ending_of rd = None ->
  fst (parser_parse debug g fuel m rd) <> OutOfFuel ->
  exists f0, forall fuel', f0 <= fuel' ->
    agrees (fst (parser_parse debug g fuel m rd)) (fst (parser_parse debug g' fuel' m' rd)).
Proof. exact parse_law. Qed.
Print Assumptions C71_laws.
(** Rewriting goes both ways, so the same holds with the parsers exchanged. *)
Lemma rewritten_back : forall lw rs rs', rewritten lw rs rs' -> rewritten lw rs' rs.
Proof.
  intros lw rs rs' H. induction H as [x y H|x|x y z H1 IH1 H2 IH2]; [apply rt_step, rules_back, H|apply rt_refl|eapply rt_trans; eassumption].
Qed.
Theorem C71_laws_back : forall rs rs' cfg g g' id m m' debug fuel rd, rewritten law rs rs' ->
  parser_for rs cfg g id m -> parser_for rs' cfg g' id m' -> reader rd -> ending_of rd = None ->
  fst (parser_parse debug g' fuel m' rd) <> OutOfFuel ->
  exists f0, forall fuel', f0 <= fuel' ->
    agrees (fst (parser_parse debug g' fuel m' rd)) (fst (parser_parse debug g fuel' m rd)).
Proof. intros rs rs' cfg g g' id m m' debug fuel rd H Hp Hp' Hr He Hf. eapply (parse_law rs' rs); try eassumption. apply rewritten_back. exact H. Qed.
Print Assumptions C71_laws_back.

(** For syntaxes written down, which differ in the locations of definitions, too. *)
Lemma like_filled :
  (forall p, filled p -> forall p', like any eq p p' -> filled p') /\ (forall d, filled_defs d -> forall d', like_defs any eq d d' -> filled_defs d') /\
  (forall s, filled_seq s -> forall s', like_seq any eq s s' -> filled_seq s') /\ (forall t, filled_t t -> forall t', like_term any eq t t' -> filled_t t').
Proof.
  apply filled_mut.
  1-7: intros; match goal with K : like _ _ _ _ |- _ => inversion K; subst end; constructor; auto.
  - intros s Hs IH d' K. inversion K; subst. match goal with J : like_defs _ _ [] _ |- _ => inversion J; subst end. apply fl_defs1. auto.
  - intros s d Hs IH Hd IH' d' K. inversion K; subst. apply fl_defs2; auto.
  - intros t Ht IH s' K. inversion K; subst. match goal with J : like_seq _ _ [] _ |- _ => inversion J; subst end. apply fl_seq1. auto.
  - intros t s Ht IH Hs IH' s' K. inversion K; subst. apply fl_seq2; auto.
  - intros f Hf IH t' K. inversion K; subst. apply fl_t. cbn in *. auto.
  - intros f e Hf IH He IH' t' K. inversion K; subst. apply fl_te; cbn in *; auto.
Qed.
Lemma moved_filled : forall rs rs', Forall2 eq_but_loc rs rs' -> Forall (fun r => filled_defs (r_defs r)) rs -> Forall (fun r => filled_defs (r_defs r)) rs'.
Proof.
  intros rs rs' H. induction H as [|a b rs rs' Hab H IH]; intros K; inversion K; subst; constructor; [|auto].
  apply reloc_rule_like in Hab as (_ & _ & Hab). eapply (proj1 (proj2 like_filled)); eassumption.
Qed.
Lemma answered : forall a b, agrees a b -> b <> OutOfFuel.
Proof. intros [x|x|x|] [y|y|y|]; cbn; intros; try contradiction; discriminate. Qed.
Lemma moved_answered : forall a b, same_but_definitions a b -> b <> OutOfFuel.
Proof. intros [x|x|x|] [y|y|y|]; cbn; intros; try contradiction; discriminate. Qed.
Lemma le_trans_any : forall a b c, like_events any eq a b -> like_events any eq b c -> like_events any eq a c.
Proof.
  intros a b c H. revert c. induction H as [|x y a b Hxy H IH]; intros c K; inversion K; subst; constructor; [|apply IH; assumption].
  destruct Hxy; match goal with J : like_event _ _ _ _ |- _ => inversion J; subst end; constructor; try exact I; reflexivity.
Qed.
Lemma lx_loc : forall e e', like_error any eq eq e e' -> e_loc e = e_loc e' /\ (forall x a, e_msg e = MExpected x a <-> e_msg e' = MExpected x a).
Proof. intros e e' H. destruct H; cbn; split; try reflexivity; intros; subst; try tauto. split; discriminate. Qed.
Lemma lx_trans_any : forall e e1 e2, like_error any eq eq e e1 -> like_error any eq eq e1 e2 -> like_error any eq eq e e2.
Proof.
  intros e e1 e2 H K. destruct H; [exact K| |]; subst.
  - inversion K; subst; [constructor|]; constructor; reflexivity.
  - inversion K; subst; apply lx_forward; reflexivity || exact I.
Qed.
Lemma places_compose : forall a b c d, same_but_definitions a b -> agrees b c -> same_but_definitions c d -> agrees_elsewhere a d.
Proof.
  intros [x|x|x|] [y|y|y|] [z|z|z|] [w|w|w|]; cbn; intros H1 H2 H3; try contradiction; try exact I.
  - subst z. eapply le_trans_any; eassumption.
  - destruct H2 as [->|(E & (q & b & Hq) & (q' & b' & Hq'))].
    + left. eapply lx_trans_any; eassumption.
    + right. right. destruct (lx_loc _ _ H1) as (L1 & M1). destruct (lx_loc _ _ H3) as (L3 & M3). split; [congruence|]. split.
      * exists q, b. apply M1. exact Hq.
      * exists q', b'. apply M3. exact Hq'.
Qed.
(** Two syntaxes written down: up to locations, the one is the other rewritten. *)
Theorem C71_texts : forall name1 name2 s1 s2 rs1 rs rs' rs2 cfg g1 g2 id m1 m2 debug fuel1 rd,
  parse_str name1 s1 = Ok rs1 -> parse_str name2 s2 = Ok rs2 ->
  Forall2 eq_but_loc rs1 rs -> rewritten law rs rs' -> Forall2 eq_but_loc rs' rs2 -> placeless cfg ->
  parser_for rs1 cfg g1 id m1 -> parser_for rs2 cfg g2 id m2 -> reader rd -> ending_of rd = None ->
  fst (parser_parse debug g1 fuel1 m1 rd) <> OutOfFuel ->
  exists f0, forall fuel, f0 <= fuel ->
    agrees_elsewhere (fst (parser_parse debug g1 fuel1 m1 rd)) (fst (parser_parse debug g2 fuel m2 rd)).
Proof.
  intros name1 name2 s1 s2 rs1 rs rs' rs2 cfg g1 g2 id m1 m2 debug fuel1 rd H1 H2 HF1 HR HF2 Hc Hp1 Hp2 Hr He Hf.
  pose proof (but_loc_sym _ _ HF2) as HB.
  destruct (moved_parser rs1 rs cfg g1 id m1 HF1 (moved_filled _ _ HF1 (read_filled _ _ _ H1)) Hp1) as (g & m & Hp).
  destruct (moved_parser rs2 rs' cfg g2 id m2 HB (moved_filled _ _ HB (read_filled _ _ _ H2)) Hp2) as (g' & m' & Hp').
  destruct (parse_moved rs1 rs cfg HF1 Hc g1 g id m1 m debug fuel1 rd Hp1 Hp Hr He Hf) as (f1 & K1). specialize (K1 f1 (le_n _)).
  destruct (parse_law rs rs' cfg g g' id m m' debug f1 rd HR Hp Hp' Hr He (moved_answered _ _ K1)) as (f2 & K2). specialize (K2 f2 (le_n _)).
  destruct (parse_moved rs' rs2 cfg HF2 Hc g' g2 id m' m2 debug f2 rd Hp' Hp2 Hr He (answered _ _ K2)) as (f0 & K3).
  exists f0. intros fuel Hle. exact (places_compose _ _ _ _ K1 K2 (K3 fuel Hle)).
Qed.
Print Assumptions C71_texts.
(** Groups in choices, a group at the end, an option in an option, an alternative that comes
    twice. *)
Definition plain : str := txt "S='a'|'b'|'c',['d'];".
Definition fancy : str := txt "S=('a'|'b')|'c',([['d']])|'b';".
Example C71_case : exists rs rs', Forall2 eq_but_loc (rules_of fancy) rs /\ rewritten law rs rs' /\ Forall2 eq_but_loc rs' (rules_of plain) /\
  map (fun w => parse_case default_config fancy (txt "S") true 200 (text_reader (txt w))) ["b"; "cd"]%string =
    [Some (Ok [bg 1 1 "S"; tk 8 1 "b"; en 1 2 "S"]); Some (Ok [bg 1 1 "S"; tk 13 1 "c"; tk 20 2 "d"; en 1 3 "S"])] /\
  map (fun w => parse_case default_config plain (txt "S") true 200 (text_reader (txt w))) ["b"; "cd"]%string =
    [Some (Ok [bg 1 1 "S"; tk 7 1 "b"; en 1 2 "S"]); Some (Ok [bg 1 1 "S"; tk 11 1 "c"; tk 16 2 "d"; en 1 3 "S"])] /\
  match parse_case default_config fancy (txt "S") true 200 (text_reader (txt "cx")),
        parse_case default_config plain (txt "S") true 200 (text_reader (txt "cx")) with
  | Some (Err e), Some (Err e') => e_loc e = Loc [] 1 2 /\ e_loc e' = Loc [] 1 2 | _, _ => False end.
Proof.
  set (o := loc_new []). set (a := [just (PTerminal o (txt "a"))]). set (b := [just (PTerminal o (txt "b"))]). set (c := just (PTerminal o (txt "c"))).
  set (d := [[just (PTerminal o (txt "d"))]]).
  exists [Rule o (txt "S") ([] ++ [[just (PGrouped o [a; b])]] ++ [[c; just (PGrouped o [[just (POptional o [[just (POptional o d)]])]])]; b])],
    [Rule o (txt "S") [a; b; [c; just (POptional o d)]]].
  split; [constructor; [vm_compute; reflexivity|constructor]|]. split; [|split; [constructor; [vm_compute; reflexivity|constructor]|vm_compute; auto]].
  apply (star_rule law [] o (txt "S") _ _ []). eapply rt_trans.
  { apply rt_step, rw_law, law_flat; discriminate. }
  cbn [app]. eapply rt_trans.
  { apply rt_step, rw_law, (law_twice b [a] [[c; just (PGrouped o [[just (POptional o [[just (POptional o d)]])]])]] []). discriminate. }
  cbn [app]. eapply rt_trans.
  { apply rt_step, (rw_alternative law [a; b] _ [c; just (POptional o [[just (POptional o d)]])] []). apply rw_tail, rw_law, law_last. }
  apply rt_step, (rw_alternative law [a; b] _ [c; just (POptional o d)] []). apply rw_tail, rw_head, rw_factor, rw_law, law_optional.
Qed.

(** ** C72.  Laws that keep what is accepted and where errors stand *)
Theorem C72_loose_laws : forall rs rs' cfg g g' id m m' debug fuel rd, rewritten loose_law rs rs' ->
  (debug = true -> nesting_scanners cfg) ->
  parser_for rs cfg g id m -> parser_for rs' cfg g' id m' -> reader rd -> ending_of rd = None ->
  fst (parser_parse debug g fuel m rd) <> OutOfFuel ->
  exists f0, forall fuel', f0 <= fuel' ->
    accepts_alike (fst (parser_parse debug g fuel m rd)) (fst (parser_parse debug g' fuel' m' rd)).
Proof. exact parse_loose. Qed.
Print Assumptions C72_loose_laws.
Theorem C72_loose_laws_back : forall rs rs' cfg g g' id m m' debug fuel rd, rewritten loose_law rs rs' ->
  (debug = true -> nesting_scanners cfg) ->
  parser_for rs cfg g id m -> parser_for rs' cfg g' id m' -> reader rd -> ending_of rd = None ->
  fst (parser_parse debug g' fuel m' rd) <> OutOfFuel ->
  exists f0, forall fuel', f0 <= fuel' ->
    accepts_alike (fst (parser_parse debug g' fuel m' rd)) (fst (parser_parse debug g fuel' m rd)).
Proof. intros rs rs' cfg g g' id m m' debug fuel rd H Hn Hp Hp' Hr He Hf. eapply (parse_loose rs' rs); try eassumption. apply rewritten_back. exact H. Qed.
Print Assumptions C72_loose_laws_back.
(** The same for syntaxes written down. *)
Lemma alike_answered : forall a b, accepts_alike a b -> b <> OutOfFuel.
Proof. intros [x|x|x|] [y|y|y|]; cbn; intros; try contradiction; discriminate. Qed.
Lemma alike_compose : forall a b c d, same_but_definitions a b -> accepts_alike b c -> same_but_definitions c d ->
  match a, d with Ok _, Ok _ => True | Err e, Err e' => e_loc e = e_loc e' | Panic _, Panic _ => True | _, _ => False end.
Proof.
  intros [x|x|x|] [y|y|y|] [z|z|z|] [w|w|w|]; cbn; intros H1 H2 H3; try contradiction; try exact I.
  destruct (lx_loc _ _ H1) as (L1 & _). destruct (lx_loc _ _ H3) as (L3 & _). pose proof (sp_loc _ _ H2). congruence.
Qed.
Theorem C72_texts : forall name1 name2 s1 s2 rs1 rs rs' rs2 cfg g1 g2 id m1 m2 debug fuel1 rd,
  parse_str name1 s1 = Ok rs1 -> parse_str name2 s2 = Ok rs2 ->
  Forall2 eq_but_loc rs1 rs -> rewritten loose_law rs rs' -> Forall2 eq_but_loc rs' rs2 -> placeless cfg ->
  (debug = true -> nesting_scanners cfg) ->
  parser_for rs1 cfg g1 id m1 -> parser_for rs2 cfg g2 id m2 -> reader rd -> ending_of rd = None ->
  fst (parser_parse debug g1 fuel1 m1 rd) <> OutOfFuel ->
  exists f0, forall fuel, f0 <= fuel ->
    match fst (parser_parse debug g1 fuel1 m1 rd), fst (parser_parse debug g2 fuel m2 rd) with
    | Ok _, Ok _ => True
    | Err e, Err e' => e_loc e = e_loc e'
    | Panic _, Panic _ => True
    | _, _ => False
    end.
Proof.
  intros name1 name2 s1 s2 rs1 rs rs' rs2 cfg g1 g2 id m1 m2 debug fuel1 rd H1 H2 HF1 HR HF2 Hc Hn Hp1 Hp2 Hr He Hf.
  pose proof (but_loc_sym _ _ HF2) as HB.
  destruct (moved_parser rs1 rs cfg g1 id m1 HF1 (moved_filled _ _ HF1 (read_filled _ _ _ H1)) Hp1) as (g & m & Hp).
  destruct (moved_parser rs2 rs' cfg g2 id m2 HB (moved_filled _ _ HB (read_filled _ _ _ H2)) Hp2) as (g' & m' & Hp').
  destruct (parse_moved rs1 rs cfg HF1 Hc g1 g id m1 m debug fuel1 rd Hp1 Hp Hr He Hf) as (f1 & K1). specialize (K1 f1 (le_n _)).
  destruct (parse_loose rs rs' cfg g g' id m m' debug f1 rd HR Hn Hp Hp' Hr He (moved_answered _ _ K1)) as (f2 & K2). specialize (K2 f2 (le_n _)).
  destruct (parse_moved rs' rs2 cfg HF2 Hc g' g2 id m' m2 debug f2 rd Hp' Hp2 Hr He (alike_answered _ _ K2)) as (f0 & K3).
  exists f0. intros fuel Hle. exact (alike_compose _ _ _ _ K1 K2 (K3 fuel Hle)).
Qed.
Print Assumptions C72_texts.
(** A count is a sum; an option is a choice with an empty alternative. *)
Definition counted : str := txt "S=3*'a',['b'|'c'];".
Definition spelled : str := txt "S='a',2*'a',('b'|'c'|);".
Definition verdicts (t : str) : list (option (res (list event))) :=
  map (fun w => parse_case default_config t (txt "S") true 300 (text_reader (txt w))) ["aaa"; "aaac"; "aa"; "aaax"]%string.
Definition brief (a : option (res (list event))) : option location := match a with Some (Ok _) => None | Some (Err e) => Some (e_loc e) | _ => Some (loc_new (txt "?")) end.
Example C72_case : exists rs rs', Forall2 eq_but_loc (rules_of counted) rs /\ rewritten loose_law rs rs' /\ Forall2 eq_but_loc rs' (rules_of spelled) /\
  map brief (verdicts counted) = [None; None; Some (Loc [] 1 3); Some (Loc [] 1 4)] /\
  map brief (verdicts spelled) = [None; None; Some (Loc [] 1 3); Some (Loc [] 1 4)].
Proof.
  set (o := loc_new []). set (a := PTerminal o (txt "a")). set (bc := [[just (PTerminal o (txt "b"))]; [just (PTerminal o (txt "c"))]]).
  exists [Rule o (txt "S") [[Term (Factor (1 + 2) a) None; just (POptional o bc)]]],
    [Rule o (txt "S") [[just a; Term (Factor 2 a) None; just (PGrouped o (bc ++ [[just (PEmpty o)]]))]]].
  split; [constructor; [vm_compute; reflexivity|constructor]|]. split; [|split; [constructor; [vm_compute; reflexivity|constructor]|vm_compute; auto]].
  apply (star_rule loose_law [] o (txt "S") _ _ []). eapply rt_trans.
  { apply rt_step, (rw_alternative loose_law [] _ [just a; Term (Factor 2 a) None; just (POptional o bc)] []).
    apply rw_law, loose_count; try (vm_compute; discriminate). intros (l & d & K). discriminate. }
  apply rt_step, (rw_alternative loose_law [] _ [just a; Term (Factor 2 a) None; just (PGrouped o (bc ++ [[just (PEmpty o)]]))] []).
  apply rw_tail, rw_tail, rw_law, loose_option. discriminate.
Qed.
(** The events may differ: a failed body of an option leaves the tokens it had read (C35)
    when it is a sequence, but not when it is counted. *)
Theorem C72_counts_keep_events_refuted : exists t t' input evs evs',
  (exists rs rs', Forall2 eq_but_loc (rules_of t) rs /\ rewritten loose_law rs rs' /\ Forall2 eq_but_loc rs' (rules_of t')) /\
  parse_case default_config t (txt "S") true 300 (text_reader input) = Some (Ok evs) /\
  parse_case default_config t' (txt "S") true 300 (text_reader input) = Some (Ok evs') /\ length evs <> length evs'.
Proof.
  exists (txt "S=[2*'a'],'a','b';"), (txt "S=['a','a'],'a','b';"), (txt "ab"). eexists. eexists. split.
  - set (o := loc_new []). set (a := PTerminal o (txt "a")). set (z := [just a; just (PTerminal o (txt "b"))]).
    exists [Rule o (txt "S") [just (POptional o [[Term (Factor (1 + 1) a) None]]) :: z]], [Rule o (txt "S") [just (POptional o [[just a; just a]]) :: z]].
    split; [constructor; [vm_compute; reflexivity|constructor]|]. split; [|constructor; [vm_compute; reflexivity|constructor]].
    apply (star_rule loose_law [] o (txt "S") _ _ []).
    apply rt_step, (rw_alternative loose_law [] _ (just (POptional o [[just a; just a]]) :: z) []). apply rw_head, rw_factor, rw_optional.
    apply (rw_alternative loose_law [] _ [just a; just a] []).
    apply rw_law, loose_count; try (vm_compute; discriminate). intros (l & d & K). discriminate.
  - split; [vm_compute; reflexivity|]. split; [vm_compute; reflexivity|]. vm_compute. discriminate.
Qed.
Print Assumptions C72_counts_keep_events_refuted.
(** Familiar laws that fail, because nothing counts that follows a group standing by itself:
    parentheses around one thing, and an option written as a choice, in the midst of a
    sequence. *)
Theorem C72_parentheses_refuted : exists input,
  (exists evs, parse_case default_config (txt "S=('a'),'b';") (txt "S") true 300 (text_reader input) = Some (Ok evs)) /\
  (exists e, parse_case default_config (txt "S='a','b';") (txt "S") true 300 (text_reader input) = Some (Err e)).
Proof. exists (txt "a"). split; eexists; vm_compute; reflexivity. Qed.
Print Assumptions C72_parentheses_refuted.
Theorem C72_option_in_sequence_refuted : exists input,
  (exists evs, parse_case default_config (txt "S=['a'],'b';") (txt "S") true 300 (text_reader input) = Some (Ok evs)) /\
  (exists e, parse_case default_config (txt "S=('a'|),'b';") (txt "S") true 300 (text_reader input) = Some (Err e)).
Proof. exists (txt "ab"). split; eexists; vm_compute; reflexivity. Qed.
Print Assumptions C72_option_in_sequence_refuted.

(** ** C73.  Rules without what follows a group *)
Lemma cut_refers : forall r l id, refers (cut_rule r) l id -> refers r l id.
Proof.
  intros [l0 id0 d] l id (s & t & Hs & Ht & H). cbn [cut_rule r_defs r_loc r_id] in *. apply in_map_iff in Hs as (s0 & <- & Hs).
  assert (E : exists t0, In t0 s0 /\ t = cut_term t0).
  { clear - Ht. induction s0 as [|t0 s0 IH]; [contradiction|]. cbn [cut_seq] in Ht. destruct Ht as [<-|Ht]; [exists t0; split; [left|]; reflexivity|].
    destruct (bare_group t0); [contradiction|]. destruct (IH Ht) as (t1 & A & B). exists t1. split; [right|]; assumption. }
  destruct E as (t0 & Ht0 & ->). exists s0, t0. split; [exact Hs|]. split; [exact Ht0|].
  assert (M : forall p, cut p = PMeta l id -> p = PMeta l id). { intros p K. destruct p; try discriminate; exact K. }
  destruct t0 as [[n p] [[k q]|]]; cbn in *; destruct H as [H|(e & H1 & H2)]; auto; try discriminate.
  right. injection H1 as <-. cbn in H2. exists (Factor k q). auto.
Qed.
Lemma cut_filled :
  (forall p, filled p -> filled (cut p)) /\ (forall d, filled_defs d -> filled_defs (map cut_seq d)) /\
  (forall s, filled_seq s -> filled_seq (cut_seq s)) /\ (forall t, filled_t t -> filled_t (cut_term t)).
Proof.
  apply filled_mut.
  - intros l d H IH. rewrite cut_optional. constructor. exact IH.
  - intros l d H IH. rewrite cut_repeated. constructor. exact IH.
  - intros l d H IH. rewrite cut_grouped. constructor. exact IH.
  - constructor.
  - constructor.
  - constructor.
  - constructor.
  - intros s H IH. apply fl_defs1. exact IH.
  - intros s d H IH H' IH'. apply fl_defs2; assumption.
  - intros t H IH. cbn [cut_seq]. destruct (bare_group t); apply fl_seq1; exact IH.
  - intros t s H IH H' IH'. cbn [cut_seq]. destruct (bare_group t); [apply fl_seq1|apply fl_seq2]; assumption.
  - intros [n p] H IH. apply fl_t. exact IH.
  - intros [n p] [k q] H IH H' IH'. apply fl_te; assumption.
Qed.
Lemma cut_names : forall rs, map r_id rs = map r_id (map cut_rule rs).
Proof. intros rs. rewrite map_map. reflexivity. Qed.
Lemma cut_defined : forall rs id, defined rs id -> defined (map cut_rule rs) id.
Proof. intros rs id (r & Hin & Hs). exists (cut_rule r). split; [apply in_map; exact Hin|exact Hs]. Qed.
Lemma cut_parser : forall rs cfg g id m, parser_for rs cfg g id m -> Forall (fun r => filled_defs (r_defs r)) rs ->
  exists g' m', parser_for (map cut_rule rs) cfg g' id m'.
Proof.
  intros rs cfg g id m Hp Hf. apply parser_defined in Hp as (Hs & Hd & Hi). apply parser_made.
  - apply accepted_iff in Hs as (H1 & H2 & H3). apply accepted_iff. split; [|split].
    + rewrite Forall_forall in *. intros r Hr. apply in_map_iff in Hr as (r0 & <- & Hr). exact (H1 r0 Hr).
    + exact (names_no_repeat _ _ (cut_names rs) H2).
    + intros r l x Hr Hx. apply in_map_iff in Hr as (r0 & <- & Hr). apply cut_refers in Hx. apply cut_defined. eapply H3; eassumption.
  - exact (names_no_dollar _ _ (cut_names rs) Hd).
  - rewrite Forall_forall in *. intros r Hr. apply in_map_iff in Hr as (r0 & <- & Hr). apply cut_filled. apply Hf. exact Hr.
  - apply cut_defined. exact Hi.
Qed.
(** Leaving out what follows groups gives a parser that answers the same. *)
Theorem C73_cut : forall name s rs cfg g id m, parse_str name s = Ok rs -> parser_for rs cfg g id m ->
  exists g' m', parser_for (map cut_rule rs) cfg g' id m' /\
  forall debug fuel rd, reader rd -> ending_of rd = None ->
  (fst (parser_parse debug g fuel m rd) <> OutOfFuel -> exists f0, forall fuel', f0 <= fuel' ->
    agrees (fst (parser_parse debug g fuel m rd)) (fst (parser_parse debug g' fuel' m' rd))) /\
  (fst (parser_parse debug g' fuel m' rd) <> OutOfFuel -> exists f0, forall fuel', f0 <= fuel' ->
    agrees (fst (parser_parse debug g' fuel m' rd)) (fst (parser_parse debug g fuel' m rd))).
Proof.
  intros name s rs cfg g id m H Hp. destruct (cut_parser _ _ _ _ _ Hp (read_filled _ _ _ H)) as (g' & m' & Hp'). exists g', m'. split; [exact Hp'|].
  intros debug fuel rd Hr He. split; intros Hf.
  - eapply C71_laws; try eassumption. apply cut_rewritten.
  - eapply C71_laws_back; try eassumption. apply cut_rewritten.
Qed.
Print Assumptions C73_cut.
(** The sense of it: after cutting, groups come last. *)
Theorem C73_groups_last : forall rs, Forall (fun r => groups_last (NDefs (r_defs r))) (map cut_rule rs).
Proof. exact cut_groups_last. Qed.
Print Assumptions C73_groups_last.
(** With the rules cut, C32, C66 and C68 hold whatever groups the rules have. *)
Lemma cut_unique : forall rs cfg g id m, parser_for rs cfg g id m -> no_repeat (map cut_rule rs).
Proof. intros rs cfg g id m Hp. exact (names_no_repeat _ _ (cut_names rs) (parser_unique _ _ _ _ _ Hp)). Qed.
Lemma cut_raw : forall rs cfg g id m debug fuel rd evs, parser_for rs cfg g id m -> reader rd ->
  fst (parser_parse debug g fuel m rd) = Ok evs ->
  exists r raw, names (map cut_rule rs) id r /\ ev (map cut_rule rs) cfg (NRef (r_loc r) (r_id r)) (stand rd) (Match (stand (snd (parser_parse debug g fuel m rd))) raw) /\
    evs = remove_empty_pairs raw /\ unread (snd (parser_parse debug g fuel m rd)) = [].
Proof.
  intros rs cfg g id m debug fuel rd evs Hp Hr H. destruct (parse_all_read _ _ _ _ _ _ Hr H) as (He & Hu).
  pose proof (parse_sound_api rs cfg g id m debug fuel rd Hp Hr He) as K. rewrite H in K. destruct K as (raw & M & ->).
  destruct (means_law cfg rs _ (cut_rewritten rs) (parser_unique _ _ _ _ _ Hp) (proj1 (proj2 Hp)) _ _ _ M) as (o' & (r & Hn & Hev) & S).
  apply so_match_inv in S as (raw' & -> & <-). exists r, raw. auto.
Qed.
Theorem C73_language : forall rs cfg g id m debug fuel rd evs, parser_for rs cfg g id m -> reader rd -> no_forwarding cfg ->
  fst (parser_parse debug g fuel m rd) = Ok evs ->
  exists r, names (map cut_rule rs) id r /\ lang cfg (map cut_rule rs) (NDefs (r_defs r)) (unread rd).
Proof.
  intros rs cfg g id m debug fuel rd evs Hp Hr Hf H. destruct (cut_raw _ _ _ _ _ _ _ _ _ Hp Hr H) as (r & raw & Hn & Hev & _ & Hu).
  destruct (ev_speaks _ cfg Hf (cut_groups_last rs) _ _ _ Hev I) as (w & (Hw & _) & Hl). cbn [LangFacts.words] in Hl.
  exists r. split; [exact Hn|]. change (unread rd) with (p_rest (stand rd)). rewrite Hw.
  change (p_rest (stand (snd (parser_parse debug g fuel m rd)))) with (unread (snd (parser_parse debug g fuel m rd))). rewrite Hu, app_nil_r.
  inversion Hl as [| | |l' id' r' w' Hn' Hl'| | | | | | | | | | |]; subst.
  rewrite (names_unique _ _ _ _ (cut_unique _ _ _ _ _ Hp) Hn' (self_name _ _ _ Hn)) in Hl'. exact Hl'.
Qed.
Print Assumptions C73_language.
Theorem C73_derivation : forall rs cfg g id m debug fuel rd evs, parser_for rs cfg g id m -> reader rd -> no_forwarding cfg ->
  fst (parser_parse debug g fuel m rd) = Ok evs ->
  exists raw, derivation (map cut_rule rs) cfg id (stand rd) raw (stand (snd (parser_parse debug g fuel m rd))) /\
    (Forall (fun r => tidy (NDefs (r_defs r))) (map cut_rule rs) -> evs = without_pairs raw).
Proof.
  intros rs cfg g id m debug fuel rd evs Hp Hr Hf H. destruct (cut_raw _ _ _ _ _ _ _ _ _ Hp Hr H) as (r & raw & Hnm & Hev & -> & _).
  destruct (ev_derived _ cfg Hf (cut_groups_last rs) _ _ _ Hev I) as (e' & Hw & Hx). cbn [ways] in Hw.
  destruct (ref_derivation _ _ _ _ _ _ (self_name _ _ _ Hnm) Hw (cut_unique _ _ _ _ _ Hp)) as (inner & Hi & ->).
  eexists. split; [exists r, inner; split; [exact Hnm|split; [exact Hi|reflexivity]]|]. intros Ht. rewrite (Hx Ht (td_ref _ _)). apply filter_positions.
Qed.
Print Assumptions C73_derivation.
Theorem C73_viable : forall name s rs cfg g id m debug fuel rd e, parse_str name s = Ok rs -> parser_for rs cfg g id m -> reader rd -> ending_of rd = None ->
  no_forwarding cfg -> local_failures cfg -> productive (map cut_rule rs) cfg ->
  fst (parser_parse debug g fuel m rd) = Err e ->
  exists w s', goes (stand rd) w s' /\ e_loc e = p_at s' /\ viable (map cut_rule rs) cfg id w.
Proof.
  intros name s rs cfg g id m debug fuel rd e Hs Hp Hr He Hf Hl Hprod H. destruct (C73_cut _ _ _ _ _ _ _ Hs Hp) as (g' & m' & Hp' & K).
  destruct (K debug fuel rd Hr He) as ((f0 & A) & _); [rewrite H; discriminate|]. specialize (A f0 (le_n _)). rewrite H in A. cbn in A.
  destruct (fst (parser_parse debug g' f0 m' rd)) as [|e'| |] eqn:E; try contradiction.
  destruct (C68_viable _ _ _ _ _ _ _ _ _ Hp' Hr He Hf Hl Hprod (cut_groups_last rs) E) as (w & s' & G & L & V).
  exists w, s'. split; [exact G|]. split; [|exact V]. rewrite (sp_loc _ _ A). exact L.
Qed.
Print Assumptions C73_viable.
(** The case that refutes C32 as it stands. *)
Example C73_case : 
  map cut_rule (rules_of (txt "S=('a'|'b'),'c';")) = rules_of (txt "S=('a'|'b')    ;") /\
  (exists r, names (rules_of (txt "S=('a'|'b')    ;")) (txt "S") r /\ lang default_config (rules_of (txt "S=('a'|'b')    ;")) (NDefs (r_defs r)) (txt "a")) /\
  (exists evs, parse_case default_config (txt "S=('a'|'b'),'c';") (txt "S") true 100 (text_reader (txt "a")) = Some (Ok evs)) /\
  (exists evs, parse_case default_config (txt "S=('a'|'b')    ;") (txt "S") true 100 (text_reader (txt "a")) = Some (Ok evs)).
Proof.
  assert (E : map cut_rule (rules_of (txt "S=('a'|'b'),'c';")) = rules_of (txt "S=('a'|'b')    ;")) by (vm_compute; reflexivity).
  assert (P : exists evs, parse_case default_config (txt "S=('a'|'b'),'c';") (txt "S") true 100 (text_reader (txt "a")) = Some (Ok evs)) by (eexists; vm_compute; reflexivity).
  split; [exact E|]. split; [|split; [exact P|eexists; vm_compute; reflexivity]].
  assert (D : no_forwarding default_config) by (apply (library_scanners default_config); intros l c; exact I).
  destruct P as (evs & P). destruct (parse_case_ok _ _ _ _ _ _ _ P) as (g & m & Hm & K). destruct (text_reader_ok (txt "a")) as (R1 & R2 & R3).
  pose proof (C73_language _ _ _ _ _ _ _ _ _ Hm R1 D K) as L.
  rewrite E in L. change (unread (text_reader (txt "a"))) with (p_rest (stand (text_reader (txt "a")))) in L. rewrite R3 in L. exact L.
Qed.
