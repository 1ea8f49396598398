(** Property C84: rules whose choices never have to be undone are parsed exactly, whatever the
    length of the text that decides about a choice, and with exceptions.

    [determinate] (SpecExact.v) states the condition with the words of the language and the
    texts that may follow; LL(1) rules (C63) meet it. *)
From Coq Require Import String List NArith Arith Bool Lia.
From Verif Require Import Base Ident Tokenizer Ast Lex Syntax Io Graph Machine SpecText SpecSyntax SpecIo TextFacts SyntaxFacts IoFacts SpecParse SpecMachine SpecEvents SpecTotal SpecLL SpecExact Pure ParseFacts CodeFacts EvFacts EventFacts MachineFacts LangFacts TotalFacts LLFacts LLCheck ExactFacts ExactUse ExactCheck PropSyntax PropParse PropEvents PropTotal PropLL.
Import ListNotations.
Open Scope nat_scope.

(** [w] is a word of the rule named [id], the words of exceptions taken away. *)
Definition text_of (rs : list rule) (cfg : config) (id w : str) : Prop :=
  exists r, names rs id r /\ xlang rs cfg (NDefs (r_defs r)) w.

Lemma determinate_pf : forall rs cfg g id m debug rd, parser_for rs cfg g id m -> reader rd -> ending_of rd = None ->
  determinate rs cfg id -> nesting_scanners cfg -> (N.of_nat (length (unread rd)) <= max_count)%N ->
  exists f0, forall fuel, f0 <= fuel ->
    (exists evs, fst (parser_parse debug g fuel m rd) = Ok evs /\ text_of rs cfg id (unread rd)) \/
    (exists e, fst (parser_parse debug g fuel m rd) = Err e /\ ~ text_of rs cfg id (unread rd)).
Proof.
  intros rs cfg g id m debug rd Hp Hr He (Hfree & Ha & Hleft) Hn Hlen.
  destruct (parser_rule _ _ _ _ _ Hp) as (r & Hnm & _).
  destruct (ref_ends rs cfg Hleft (r_loc r) (r_id r) (stand rd)) as (o & Ho).
  assert (Hmn : means rs cfg id (stand rd) o) by (exists r; auto).
  destruct (parse_complete_api _ _ _ _ _ debug _ _ Hp Hr He Hmn) as (f0 & Hf). exists f0. intros fuel Hfu. specialize (Hf fuel Hfu).
  pose proof (parser_unique _ _ _ _ _ Hp) as Hu. pose proof (proj1 (proj2 Hp)) as Hdol.
  assert (Hnot : (forall s' raw, o = Match s' raw -> p_rest s' <> []) -> ~ text_of rs cfg id (unread rd)).
  { intros Hno (r' & Hr' & Hl). destruct (start_matched rs cfg Hfree Hleft id Ha Hu Hdol r' (stand rd) Hr' Hl Hlen) as (s' & e & (r2 & Hr2 & Hm) & Hs').
    rewrite (names_unique _ _ _ _ Hu Hr2 Hnm) in Hm. rewrite (ev_fun rs cfg Hu Hdol _ _ _ Ho _ Hm) in Hno. exact (Hno _ _ eq_refl Hs'). }
  destruct o as [s' raw|e s' raw|h].
  - inversion Ho; subst. match goal with X : names rs (r_id r) r0 |- _ => rename X into Hr0 end.
    match goal with X : SpecParse.ev _ _ (NDefs _) _ (Match _ _) |- _ => rename X into Hd end.
    destruct (p_rest s') as [|c rest] eqn:Er.
    + left. cbn [List.tl app] in Hf. rewrite (labels_app _ (ev_nested rs cfg Hn _ _ _ Hd)) in Hf. cbn in Hf. rewrite andb_false_r in Hf. eexists. split; [exact Hf|].
      exists r0. split; [split; [exact (proj1 Hr0)|apply same_name_keyed; transitivity (keyed (r_id r)); apply same_name_keyed; [exact (proj2 Hnm)|exact (proj2 Hr0)]]|].
      destruct (ev_xspeaks rs cfg Hfree Hleft id Ha Hu Hdol _ _ _ Hd (cs_rule rs _ (proj1 Hr0)) Hlen) as (w & (Hw & _) & Hl).
      rewrite Er, app_nil_r in Hw. cbn in Hw. rewrite Hw. exact Hl.
    + right. eexists. split; [exact Hf|]. apply Hnot. intros s2 raw2 E. injection E as <- _. rewrite Er. discriminate.
  - right. eexists. split; [exact Hf|]. apply Hnot. discriminate.
  - exfalso. eapply (ExactFacts.no_halt rs cfg Hfree); [exact Ho| |reflexivity]. exists r. split; [exact (proj1 Hnm)|apply same_name_keyed; reflexivity].
Qed.

(** Every parse returns; it accepts the words of the rule and nothing else. *)
Theorem C84_exactly_the_language : forall rs cfg g id m debug rd, parser_for rs cfg g id m ->
  reader rd -> ending_of rd = None -> determinate rs cfg id -> nesting_scanners cfg ->
  (N.of_nat (length (unread rd)) <= max_count)%N ->
  exists f0, forall fuel, f0 <= fuel ->
    (exists evs, fst (parser_parse debug g fuel m rd) = Ok evs /\ text_of rs cfg id (unread rd)) \/
    (exists e, fst (parser_parse debug g fuel m rd) = Err e /\ ~ text_of rs cfg id (unread rd)).
Proof. exact determinate_pf. Qed.
Print Assumptions C84_exactly_the_language.

(** The condition is met by all LL(1) rules. *)
Theorem C84_covers_ll1 : forall rs cfg id, predictive rs cfg id -> determinate rs cfg id.
Proof. exact predictive_determinate. Qed.
Print Assumptions C84_covers_ll1.

(** The condition can be computed where the next [k] characters decide ([n] rounds are made to
    find out which those may be), for special sequences that read one character of a class or as
    many as there are. *)
Theorem C84_checked : forall k class n rs cfg id, decided_ahead k class rs n id = true ->
  (forall l c rgs many, class c = Some (rgs, many) -> cfg l c = ScChars (has rgs) (Some 1%N) (if many then None else Some 1%N)) ->
  no_forwarding cfg -> determinate rs cfg id.
Proof. exact decided_determinate. Qed.
Print Assumptions C84_checked.

(** Rules that are not LL(1): two characters tell whether to go round again, three tell the
    words of [T] apart, and an exception ends the string. *)
Definition quoted : str := txt "S={'ab'},'ac',T,'/',{?c?-'/'},'/';T='for'|'four',[S];".
Definition all_chars : str -> option (ranges * bool) := fun c => if str_eqb c (txt "c") then Some ([(0, 1114111)]%N, false) else None.
Definition each_config : config := fun _ c =>
  match all_chars c with Some (rs, many) => ScChars (has rs) (Some 1%N) (if many then None else Some 1%N) | None => ScDefault c end.
Lemma each_library : library_config each_config.
Proof. intros l c. unfold each_config. destruct (all_chars c) as [[rs many]|]; exact I. Qed.
Example C84_case : ll1 all_chars (rules_of quoted) (txt "S") = false /\ decided_ahead 2 all_chars (rules_of quoted) 12 (txt "S") = false /\
  determinate (rules_of quoted) each_config (txt "S").
Proof.
  split; [vm_compute; reflexivity|]. split; [vm_compute; reflexivity|]. apply (C84_checked 3 all_chars 12); [vm_compute; reflexivity| |apply (library_scanners _ each_library)].
  intros l c rs many H. unfold each_config. rewrite H. reflexivity.
Qed.
Example C84_accepts : exists evs, parse_case each_config quoted (txt "S") true 1000 (text_reader (txt "ababacfourabacfor/x//ab'/")) = Some (Ok evs).
Proof. vm_compute. eexists. reflexivity. Qed.
(** The theorem at work: a text that is refused once is no word of the rule. *)
Example C84_not_a_word : ~ text_of (rules_of quoted) each_config (txt "S") (txt "abacfour/a/b/").
Proof.
  assert (K : exists e, parse_case each_config quoted (txt "S") true 1000 (text_reader (txt "abacfour/a/b/")) = Some (Err e)) by (vm_compute; eexists; reflexivity).
  destruct K as (e & K). apply parse_case_ok in K as (g & m & Hp & K). destruct (text_reader_ok (txt "abacfour/a/b/")) as (H1 & H2 & H3).
  assert (Hu : unread (text_reader (txt "abacfour/a/b/")) = txt "abacfour/a/b/") by (vm_compute; reflexivity).
  destruct (C84_exactly_the_language _ _ _ _ _ true _ Hp H1 H2 (proj2 (proj2 C84_case)) (proj1 (library_scanners _ each_library))) as (f0 & Hf); [vm_compute; discriminate|].
  destruct (Hf (f0 + 1000) ltac:(lia)) as [(evs & He & _)|(e' & _ & Hn)]; [|rewrite Hu in Hn; exact Hn]. exfalso.
  pose proof (C31_fuel true g 1000 (f0 + 1000) m (text_reader (txt "abacfour/a/b/")) ltac:(lia)) as F. rewrite K in F. specialize (F ltac:(discriminate)). rewrite F, K in He. discriminate.
Qed.
(** The condition is needed, for alternatives, options and repetitions: these rules refuse a
    word of theirs. *)
Lemma refused_word : forall cfg g w e, parse_case cfg g (txt "S") true 100 (text_reader w) = Some (Err e) -> unread (text_reader w) = w ->
  (N.of_nat (length w) <= max_count)%N -> nesting_scanners cfg -> text_of (rules_of g) cfg (txt "S") w -> ~ determinate (rules_of g) cfg (txt "S").
Proof.
  intros cfg G w e K Hu Hl Hn Hw Hd. apply parse_case_ok in K as (g & m & Hp & K). destruct (text_reader_ok w) as (H1 & H2 & H3).
  destruct (C84_exactly_the_language _ _ _ _ _ true _ Hp H1 H2 Hd Hn) as (f0 & Hf); [rewrite Hu; exact Hl|].
  destruct (Hf (f0 + 100) ltac:(lia)) as [(evs & He & _)|(e' & _ & Hnw)]; [|rewrite Hu in Hnw; exact (Hnw Hw)].
  pose proof (C31_fuel true g 100 (f0 + 100) m (text_reader w) ltac:(lia)) as F. rewrite K in F. specialize (F ltac:(discriminate)). rewrite F, K in He. discriminate.
Qed.
Example C84_condition_needed : forall g w, In (g, w) [("S='a'|'a','b';", "ab"); ("S=['a'],'a','b';", "ab"); ("S={'a'},'a';", "a")]%string ->
  text_of (rules_of (txt g)) default_config (txt "S") (txt w) /\
  (exists e, parse_case default_config (txt g) (txt "S") true 100 (text_reader (txt w)) = Some (Err e)) /\
  ~ determinate (rules_of (txt g)) default_config (txt "S").
Proof.
  assert (Hn : nesting_scanners default_config) by (refine (proj1 (library_scanners _ _)); intros l c; exact I).
  intros g w H.
  assert (K : text_of (rules_of (txt g)) default_config (txt "S") (txt w) /\ (exists e, parse_case default_config (txt g) (txt "S") true 100 (text_reader (txt w)) = Some (Err e)) /\
    unread (text_reader (txt w)) = txt w /\ (N.of_nat (length (txt w)) <= max_count)%N).
  { destruct H as [E|[E|[E|[]]]]; injection E as <- <-; (split; [|split; [vm_compute; eexists; reflexivity|split; [vm_compute; reflexivity|vm_compute; discriminate]]]).
    all: match goal with |- text_of (rules_of ?g) _ _ _ => destruct (rules_of g) as [|r [|]] eqn:E; [vm_compute in E; discriminate| |vm_compute in E; discriminate] end;
      vm_compute in E; injection E as <-; eexists; (split; [split; [left; reflexivity|apply same_name_keyed; vm_compute; reflexivity]|]); cbn [r_defs].
    - eapply xl_defs; [right; left; reflexivity|]. apply (xl_seq _ _ _ _ [97%N] [98%N]); [apply xl_term, xlang_one, xl_terminal|apply xlang_last, xl_term, xlang_one, xl_terminal].
    - eapply xl_defs; [left; reflexivity|]. apply (xl_seq _ _ _ _ [] [97%N; 98%N]); [apply xl_term, xlang_one, xl_none|].
      apply (xl_seq _ _ _ _ [97%N] [98%N]); [apply xl_term, xlang_one, xl_terminal|apply xlang_last, xl_term, xlang_one, xl_terminal].
    - eapply xl_defs; [left; reflexivity|]. apply (xl_seq _ _ _ _ [] [97%N]); [apply xl_term, xlang_one, xl_stop|apply xlang_last, xl_term, xlang_one, xl_terminal]. }
  destruct K as (K1 & (e & K2) & K3 & K4). split; [exact K1|]. split; [eauto|]. exact (refused_word _ _ _ _ K2 K3 K4 Hn K1).
Qed.
