(** Property C86: exactly when a parse panics or stops with an error that is not about the text.

    [comes_to] (SpecHalt.v) says which constructs a parse comes to try, and where. *)
From Coq Require Import String List NArith Arith Bool Lia Relations.
From Verif Require Import Base Ident Tokenizer Ast Lex Syntax Io Graph Machine SpecText SpecSyntax SpecTree SpecIo TextFacts TreeFacts SyntaxFacts IoFacts SpecParse SpecMachine SpecEvents SpecHalt Pure ParseFacts CodeFacts EvFacts EventFacts MachineFacts HaltFacts TotalFacts PanicFacts FuelFacts GramFinal LawGlue PropSyntax PropParse PropEvents.
Import ListNotations.
Open Scope nat_scope.

Lemma stop_pf : forall rs cfg g id m debug rd n s' e, parser_for rs cfg g id m -> reader rd -> ending_of rd = None ->
  comes_to rs cfg id (stand rd) n s' -> stops_with rs cfg n s' e ->
  exists f0, forall fuel, f0 <= fuel -> fst (parser_parse debug g fuel m rd) = Err e.
Proof.
  intros rs cfg g id m debug rd n s' e Hp Hr He Hc Hs.
  assert (Hm : means rs cfg id (stand rd) (Halt (Failed e))) by (apply means_halt_iff; exists n, s'; auto).
  exact (parse_complete_api _ _ _ _ _ debug _ _ Hp Hr He Hm).
Qed.
Lemma error_pf : forall rs cfg g id m debug rd e, parser_for rs cfg g id m -> reader rd -> ending_of rd = None -> ~ expects e ->
  ((exists fuel, fst (parser_parse debug g fuel m rd) = Err e) <->
   exists n s', comes_to rs cfg id (stand rd) n s' /\ stops_with rs cfg n s' e).
Proof.
  intros rs cfg g id m debug rd e Hp Hr He Hx. split.
  - intros (fuel & H). pose proof (parse_sound_api rs cfg g id m debug fuel rd Hp Hr He) as K. rewrite H in K.
    destruct K as [(s' & raw & r & Hn & K)|[(s' & raw & _ & _ & ->)|K]].
    + destruct Hx. exact (no_expects rs cfg _ _ _ K _ _ _ eq_refl).
    + destruct Hx. eexists _, _. reflexivity.
    + apply means_halt_iff in K. exact K.
  - intros (n & s' & Hc & Hs). destruct (stop_pf rs cfg g id m debug rd n s' e Hp Hr He Hc Hs) as (f0 & Hf). exists f0. apply Hf. lia.
Qed.
Lemma panic_pf : forall name t rs cfg g id m debug rd, parse_str name t = Ok rs -> parser_for rs cfg g id m ->
  reader rd -> ending_of rd = None -> nesting_scanners cfg ->
  ((exists fuel p, fst (parser_parse debug g fuel m rd) = Panic p) <->
   exists n s', comes_to rs cfg id (stand rd) n s' /\ dangles rs n).
Proof.
  intros name t rs cfg g id m debug rd Ht Hp Hr He Hn.
  assert (Hf : Forall (fun r => filled_defs (r_defs r)) rs).
  { apply parse_wf in Ht. eapply Forall_impl; [|exact Ht]. intros r (_ & K). apply wf_filled. exact K. }
  split.
  - intros (fuel & p & H). pose proof (parse_sound_api rs cfg g id m debug fuel rd Hp Hr He) as K. rewrite H in K.
    destruct K as [K|(_ & s' & raw & K & L & _)].
    + apply means_halt_iff in K as (n & s' & Hc & [Hd|Hd]); [eauto|]. destruct (comes_filled rs cfg Hf _ _ _ _ Hc Hd).
    + rewrite (means_labels _ _ _ _ _ _ Hn K) in L. discriminate L.
  - intros (n & s' & Hc & Hd). assert (Hm : means rs cfg id (stand rd) (Halt Crashed)) by (apply means_halt_iff; exists n, s'; cbn; auto).
    destruct (parse_complete_api _ _ _ _ _ debug _ _ Hp Hr He Hm) as (f0 & K). exists f0. apply K. lia.
Qed.
(** The scanners of the library stop a parse in one way only. *)
Lemma library_stops : forall rs cfg n s e, library_config cfg -> stops_with rs cfg n s e ->
  spins rs cfg n s /\ e = Error_ (p_at s) MLivelock \/
  e = Error_ (p_at s) MRegexTooLong /\
  exists l c re find len, n = NPrim (PSpecial l c) /\ cfg l c = ScRegex re find /\
    find (window s) = Some (0, len) /\ 256 < length (firstn len (window s)).
Proof.
  intros rs cfg n s e Hl [H|[(l & c & id & s1 & -> & H & _)|(l & c & -> & H)]].
  - left. exact H.
  - specialize (Hl l c). inversion H as [| | | | | |sym prog def s0 r K Ec Ed Es Er]; subst. rewrite <- Ec in Hl. destruct Hl.
  - right. specialize (Hl l c). inversion H as [| | | |re find def s0 len K1 K2 Ec Ed Es Er| |sym prog def s0 r K Ec Ed Es Er]; subst.
    + split; [reflexivity|]. exists l, c, re, find, len. auto.
    + rewrite <- Ec in Hl. destruct Hl.
Qed.
Lemma livelock_pf : forall rs cfg g id m debug rd l, parser_for rs cfg g id m -> reader rd -> ending_of rd = None -> library_config cfg ->
  ((exists fuel, fst (parser_parse debug g fuel m rd) = Err (Error_ l MLivelock)) <->
   exists n s', comes_to rs cfg id (stand rd) n s' /\ spins rs cfg n s' /\ p_at s' = l).
Proof.
  intros rs cfg g id m debug rd l Hp Hr He Hl. rewrite (error_pf rs cfg g id m debug rd _ Hp Hr He) by (intros (a & b & H); discriminate H).
  split; intros (n & s' & Hc & H); exists n, s'; (split; [exact Hc|]).
  - apply (library_stops rs cfg n s' _ Hl) in H as [(H1 & H2)|(H2 & _)]; [|discriminate H2]. injection H2 as ->. auto.
  - destruct H as (H1 & <-). left. auto.
Qed.
Lemma regex_pf : forall rs cfg g id m debug rd l, parser_for rs cfg g id m -> reader rd -> ending_of rd = None -> library_config cfg ->
  ((exists fuel, fst (parser_parse debug g fuel m rd) = Err (Error_ l MRegexTooLong)) <->
   exists l' c re find len s', comes_to rs cfg id (stand rd) (NPrim (PSpecial l' c)) s' /\ cfg l' c = ScRegex re find /\
     find (window s') = Some (0, len) /\ 256 < length (firstn len (window s')) /\ p_at s' = l).
Proof.
  intros rs cfg g id m debug rd l Hp Hr He Hl. rewrite (error_pf rs cfg g id m debug rd _ Hp Hr He) by (intros (a & b & H); discriminate H).
  split.
  - intros (n & s' & Hc & H). apply (library_stops rs cfg n s' _ Hl) in H as [(_ & H2)|(H2 & l' & c & re & find & len & -> & H3 & H4 & H5)]; [discriminate H2|].
    injection H2 as ->. exists l', c, re, find, len, s'. auto.
  - intros (l' & c & re & find & len & s' & Hc & H1 & H2 & H3 & <-). exists (NPrim (PSpecial l' c)), s'. split; [exact Hc|]. right. right. exists l', c.
    split; [reflexivity|]. rewrite H1. eapply sn_regex_long; eauto.
Qed.
Lemma kinds_pf : forall rs cfg g id m debug fuel rd e, parser_for rs cfg g id m -> reader rd -> ending_of rd = None -> library_config cfg ->
  fst (parser_parse debug g fuel m rd) = Err e -> expects e \/ e_msg e = MLivelock \/ e_msg e = MRegexTooLong.
Proof.
  intros rs cfg g id m debug fuel rd e Hp Hr He Hl H.
  assert (D : expects e \/ ~ expects e) by (unfold expects; destruct (e_msg e); try (left; eexists _, _; reflexivity); right; intros (a & b & K); discriminate K).
  destruct D as [D|D]; [left; exact D|right].
  destruct (proj1 (error_pf rs cfg g id m debug rd e Hp Hr He D) (ex_intro _ fuel H)) as (n & s' & _ & K).
  apply (library_stops rs cfg n s' _ Hl) in K as [(_ & ->)|(-> & _)]; auto.
Qed.

(** A parse with rules that were read from a text panics if and only if it comes to a
    reference to a rule that does not exist. *)
Theorem C86_panics : forall name t rs cfg g id m debug rd, parse_str name t = Ok rs -> parser_for rs cfg g id m ->
  reader rd -> ending_of rd = None -> nesting_scanners cfg ->
  ((exists fuel p, fst (parser_parse debug g fuel m rd) = Panic p) <->
   exists n s', comes_to rs cfg id (stand rd) n s' /\ dangles rs n).
Proof. exact panic_pf. Qed.
Print Assumptions C86_panics.
(** It gives an error that is not about the text if and only if it comes to a construct that
    stops with this error. *)
Theorem C86_errors : forall rs cfg g id m debug rd e, parser_for rs cfg g id m -> reader rd -> ending_of rd = None ->
  ~ expects e ->
  ((exists fuel, fst (parser_parse debug g fuel m rd) = Err e) <->
   exists n s', comes_to rs cfg id (stand rd) n s' /\ stops_with rs cfg n s' e).
Proof. exact error_pf. Qed.
Print Assumptions C86_errors.
(** Nothing rescues a parse that comes to such a construct: no other definition, no option
    and no exception around it. *)
Theorem C86_stops : forall rs cfg g id m debug rd n s' e, parser_for rs cfg g id m -> reader rd -> ending_of rd = None ->
  comes_to rs cfg id (stand rd) n s' -> stops_with rs cfg n s' e ->
  exists f0, forall fuel, f0 <= fuel -> fst (parser_parse debug g fuel m rd) = Err e.
Proof. exact stop_pf. Qed.
Print Assumptions C86_stops.
(** With the scanners of the library: "infinite loop" at [l] is a round that matches without
    moving at [l]; the other error is a match of a regular expression of more than 256
    characters; every further error is about the text. *)
Theorem C86_livelock : forall rs cfg g id m debug rd l, parser_for rs cfg g id m -> reader rd -> ending_of rd = None ->
  library_config cfg ->
  ((exists fuel, fst (parser_parse debug g fuel m rd) = Err (Error_ l MLivelock)) <->
   exists n s', comes_to rs cfg id (stand rd) n s' /\ spins rs cfg n s' /\ p_at s' = l).
Proof. exact livelock_pf. Qed.
Print Assumptions C86_livelock.
Theorem C86_regex : forall rs cfg g id m debug rd l, parser_for rs cfg g id m -> reader rd -> ending_of rd = None ->
  library_config cfg ->
  ((exists fuel, fst (parser_parse debug g fuel m rd) = Err (Error_ l MRegexTooLong)) <->
   exists l' c re find len s', comes_to rs cfg id (stand rd) (NPrim (PSpecial l' c)) s' /\ cfg l' c = ScRegex re find /\
     find (window s') = Some (0, len) /\ 256 < length (firstn len (window s')) /\ p_at s' = l).
Proof. exact regex_pf. Qed.
Print Assumptions C86_regex.
Theorem C86_kinds : forall rs cfg g id m debug fuel rd e, parser_for rs cfg g id m -> reader rd -> ending_of rd = None ->
  library_config cfg -> fst (parser_parse debug g fuel m rd) = Err e ->
  expects e \/ e_msg e = MLivelock \/ e_msg e = MRegexTooLong.
Proof. exact kinds_pf. Qed.
Print Assumptions C86_kinds.

(** The same rules: a missing rule matters for the texts that lead to it only. *)
Definition gap : str := txt "S='a',[M]|'b',{['c']}|{'a'},'d';M='x',(N);".
Example C86_case :
  parse_case default_config gap (txt "S") true 200 (text_reader (txt "a")) = Some (Ok [bg 1 1 "S"; tk 3 1 "a"; en 1 2 "S"]) /\
  parse_case default_config gap (txt "S") true 200 (text_reader (txt "ax")) = Some (Panic PUnwrap) /\
  parse_case default_config gap (txt "S") true 200 (text_reader (txt "aad")) =
    Some (Err (Error_ (Loc [] 1 2) (MExpected (txt "EOF") (Base.AText (txt "ad") false)))) /\
  parse_case default_config gap (txt "S") true 200 (text_reader (txt "bcc")) = Some (Err (Error_ (Loc [] 1 4) MLivelock)).
Proof. vm_compute. repeat split. Qed.
Lemma gap_read : parse_str [] gap = Ok (rules_of gap).
Proof. vm_compute. reflexivity. Qed.
(** ... so the first of these parses comes to no missing rule, the second does, and the last
    comes to a round that stays at the fourth column. *)
Example C86_comes :
  (~ exists n s', comes_to (rules_of gap) default_config (txt "S") (Pst (txt "a") (loc_new [])) n s' /\ dangles (rules_of gap) n) /\
  (exists n s', comes_to (rules_of gap) default_config (txt "S") (Pst (txt "ax") (loc_new [])) n s' /\ dangles (rules_of gap) n) /\
  (exists n s', comes_to (rules_of gap) default_config (txt "S") (Pst (txt "bcc") (loc_new [])) n s' /\ spins (rules_of gap) default_config n s' /\ p_at s' = Loc [] 1 4).
Proof.
  destruct C86_case as (E1 & E2 & _ & E4).
  assert (Hl : library_config default_config) by (intros l c; exact I).
  assert (Hn : nesting_scanners default_config) by (apply (library_scanners _ Hl)).
  split; [|split].
  - destruct (text_reader_ok (txt "a")) as (H1 & H2 & H3). rewrite <- H3.
    apply parse_case_ok in E1 as (g & m & Hp & E). intros K.
    apply (panic_pf [] gap (rules_of gap) default_config g (txt "S") m true (text_reader (txt "a")) gap_read Hp H1 H2 Hn) in K as (fuel & p & K).
    assert (M1 : fst (parser_parse true g (fuel + 200) m (text_reader (txt "a"))) = Panic p).
    { rewrite <- K. f_equal. eapply parse_more_fuel; [lia|rewrite K; discriminate]. }
    assert (M2 : fst (parser_parse true g (fuel + 200) m (text_reader (txt "a"))) = Ok [bg 1 1 "S"; tk 3 1 "a"; en 1 2 "S"]).
    { rewrite <- E. f_equal. eapply parse_more_fuel; [lia|rewrite E; discriminate]. }
    rewrite M1 in M2. discriminate M2.
  - destruct (text_reader_ok (txt "ax")) as (H1 & H2 & H3). rewrite <- H3.
    apply parse_case_ok in E2 as (g & m & Hp & E).
    apply (panic_pf [] gap (rules_of gap) default_config g (txt "S") m true (text_reader (txt "ax")) gap_read Hp H1 H2 Hn).
    exists 200, PUnwrap. exact E.
  - destruct (text_reader_ok (txt "bcc")) as (H1 & H2 & H3). rewrite <- H3.
    apply parse_case_ok in E4 as (g & m & Hp & E).
    apply (livelock_pf (rules_of gap) default_config g (txt "S") m true (text_reader (txt "bcc")) (Loc [] 1 4) Hp H1 H2 Hl).
    exists 200. exact E.
Qed.
(** A regular expression that matches everything. *)
Definition all_config : config := fun _ _ => ScRegex (txt ".*") (fun w => Some (0, length w)).
Example C86_regex_case : exists e,
  parse_case all_config (txt "S=[?x?]|'a';") (txt "S") true 100 (text_reader (repeat 97%N 300)) = Some (Err e) /\ e_msg e = MRegexTooLong /\ library_config all_config.
Proof. eexists. split; [vm_compute; reflexivity|]. split; [reflexivity|]. intros l c. exact I. Qed.
