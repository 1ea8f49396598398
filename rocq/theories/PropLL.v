(** Property C63: rules that can be parsed by looking one character ahead (LL(1)) are parsed
    exactly: a text is accepted if and only if it is in the language of the rule.

    [predictive] (SpecLL.v) is the textbook condition, stated with the words of the language;
    [ll1] (LLCheck.v) is a computation that implies it. *)
From Coq Require Import String List NArith Arith Bool Lia.
From Verif Require Import Base Ident Tokenizer Ast Lex Syntax Io Graph Machine SpecText SpecSyntax SpecIo TextFacts SyntaxFacts IoFacts SpecParse SpecMachine SpecEvents SpecTotal SpecLL Pure ParseFacts CodeFacts EvFacts EventFacts MachineFacts LangFacts TotalFacts LLFacts LLCheck PropSyntax PropParse PropEvents.
Import ListNotations.
Open Scope nat_scope.

(** [w] is a word of the rule named [id]. *)
Definition word_of (rs : list rule) (cfg : config) (id w : str) : Prop :=
  exists r, names rs id r /\ lang cfg rs (NDefs (r_defs r)) w.

Lemma exact_pf : forall rs cfg g id m debug rd, parser_for rs cfg g id m -> reader rd -> ending_of rd = None ->
  predictive rs cfg id -> nesting_scanners cfg -> (N.of_nat (length (unread rd)) <= max_count)%N ->
  exists f0, forall fuel, f0 <= fuel ->
    (exists evs, fst (parser_parse debug g fuel m rd) = Ok evs /\ word_of rs cfg id (unread rd)) \/
    (exists e, fst (parser_parse debug g fuel m rd) = Err e /\ ~ word_of rs cfg id (unread rd)).
Proof.
  intros rs cfg g id m debug rd Hp Hr He (Hcalm & Hst & Ha & Hleft) Hn Hlen.
  destruct (parser_rule _ _ _ _ _ Hp) as (r & Hnm & _).
  destruct (ref_ends rs cfg Hleft (r_loc r) (r_id r) (stand rd)) as (o & Ho).
  assert (Hmn : means rs cfg id (stand rd) o) by (exists r; auto).
  destruct (parse_complete_api _ _ _ _ _ debug _ _ Hp Hr He Hmn) as (f0 & Hf). exists f0. intros fuel Hfu. specialize (Hf fuel Hfu).
  pose proof (proj2 (proj2 (proj2 (proj2 (proj2 Hcalm))))) as Hfwd. pose proof (parser_unique _ _ _ _ _ Hp) as Hu.
  assert (Hnot : (forall s' raw, o = Match s' raw -> p_rest s' <> []) -> ~ word_of rs cfg id (unread rd)).
  { intros Hno (r' & Hr' & Hl). destruct (start_matched rs cfg Hst Hcalm id Ha Hleft r' (stand rd) Hr' Hl Hlen) as (s' & e & (r2 & Hr2 & Hm) & Hs').
    rewrite (names_unique _ _ _ _ Hu Hr2 Hnm) in Hm. rewrite (ev_fun rs cfg Hu (proj1 (proj2 Hp)) _ _ _ Ho _ Hm) in Hno. exact (Hno _ _ eq_refl Hs'). }
  destruct o as [s' raw|e s' raw|h].
  - inversion Ho; subst. match goal with X : names rs (r_id r) r0 |- _ => rename X into Hr0 end.
    match goal with X : SpecParse.ev _ _ (NDefs _) _ (Match _ _) |- _ => rename X into Hd end.
    destruct (p_rest s') as [|c rest] eqn:Er.
    + left. cbn [List.tl app] in Hf. rewrite (labels_app _ (ev_nested rs cfg Hn _ _ _ Hd)) in Hf. cbn in Hf. rewrite andb_false_r in Hf. eexists. split; [exact Hf|].
      exists r0. split; [split; [exact (proj1 Hr0)|apply same_name_keyed; transitivity (keyed (r_id r)); apply same_name_keyed; [exact (proj2 Hnm)|exact (proj2 Hr0)]]|].
      destruct (ev_speaks rs cfg Hfwd (rules_gl rs Hst) _ _ _ Hd) as (w & Hw & Hl); [exact (part_gl_defs rs Hst _ (pt_rule _ _ (proj1 Hr0)))|].
      destruct Hw as (Hw & _). rewrite Er, app_nil_r in Hw. cbn in Hw. rewrite Hw. exact Hl.
    + right. eexists. split; [exact Hf|]. apply Hnot. intros s2 raw2 E. injection E as <- _. rewrite Er. discriminate.
  - right. eexists. split; [exact Hf|]. apply Hnot. discriminate.
  - exfalso. eapply (no_halt rs cfg Hst Hcalm); [exact Ho| |reflexivity]. exists r. split; [exact (proj1 Hnm)|apply same_name_keyed; reflexivity].
Qed.

(** Every parse returns; it accepts the words of the rule and nothing else. *)
Theorem C63_exactly_the_language : forall rs cfg g id m debug rd, parser_for rs cfg g id m ->
  reader rd -> ending_of rd = None -> predictive rs cfg id -> nesting_scanners cfg ->
  (N.of_nat (length (unread rd)) <= max_count)%N ->
  exists f0, forall fuel, f0 <= fuel ->
    (exists evs, fst (parser_parse debug g fuel m rd) = Ok evs /\ word_of rs cfg id (unread rd)) \/
    (exists e, fst (parser_parse debug g fuel m rd) = Err e /\ ~ word_of rs cfg id (unread rd)).
Proof. exact exact_pf. Qed.
Print Assumptions C63_exactly_the_language.

(** The condition can be computed, for special sequences that read one character of a class
    or as many as there are. *)
Theorem C63_checked : forall class rs cfg id, ll1 class rs id = true ->
  (forall l c rgs many, class c = Some (rgs, many) -> cfg l c = ScChars (has rgs) (Some 1%N) (if many then None else Some 1%N)) ->
  no_forwarding cfg -> predictive rs cfg id.
Proof. exact ll1_predictive. Qed.
Print Assumptions C63_checked.

(** Sums and products of numbers in parentheses, with the usual rules. *)
Definition digits (c : str) : option (ranges * bool) := if str_eqb c (txt "n") then Some ([(48, 57)]%N, true) else None.
Definition number_config : config := fun _ c =>
  match digits c with Some (rs, many) => ScChars (has rs) (Some 1%N) (if many then None else Some 1%N) | None => ScDefault c end.
Definition calc : str := txt "E=T,R;R='+',T,R|;T=F,Q;Q='*',F,Q|;F=?n?|'(',E,')';".
Lemma number_library : library_config number_config.
Proof. intros l c. unfold number_config. destruct (digits c) as [[rs many]|]; exact I. Qed.
Example C63_calc : predictive (rules_of calc) number_config (txt "E").
Proof.
  apply (C63_checked digits); [vm_compute; reflexivity| |apply (library_scanners _ number_library)].
  intros l c rs many H. unfold number_config. rewrite H. reflexivity.
Qed.
Lemma calc_ready : exists g m, parser_for (rules_of calc) number_config g (txt "E") m.
Proof.
  destruct (prepare number_config calc (txt "E")) as [(g & m)|] eqn:E; [|vm_compute in E; discriminate]. exists g, m. apply prepare_ok. exact E.
Qed.
Example C63_accepts : exists evs, parse_case number_config calc (txt "E") true 1000 (text_reader (txt "1*(20+3)")) = Some (Ok evs).
Proof. vm_compute. eexists. reflexivity. Qed.
(** The theorem at work: a text that is refused once is no word of the rule. *)
Example C63_not_a_word : ~ word_of (rules_of calc) number_config (txt "E") (txt "1*(20+)").
Proof.
  assert (K : exists e, parse_case number_config calc (txt "E") true 1000 (text_reader (txt "1*(20+)")) = Some (Err e)) by (vm_compute; eexists; reflexivity).
  destruct K as (e & K). apply parse_case_ok in K as (g & m & Hp & K). destruct (text_reader_ok (txt "1*(20+)")) as (H1 & H2 & H3).
  assert (Hu : unread (text_reader (txt "1*(20+)")) = txt "1*(20+)") by (vm_compute; reflexivity).
  destruct (C63_exactly_the_language _ _ _ _ _ true _ Hp H1 H2 C63_calc (proj1 (library_scanners _ number_library))) as (f0 & Hf); [vm_compute; discriminate|].
  destruct (Hf (f0 + 1000) ltac:(lia)) as [(evs & He & _)|(e' & _ & Hn)]; [|rewrite Hu in Hn; exact Hn]. exfalso.
  pose proof (C31_fuel true g 1000 (f0 + 1000) m (text_reader (txt "1*(20+)")) ltac:(lia)) as F. rewrite K in F. specialize (F ltac:(discriminate)). rewrite F, K in He. discriminate.
Qed.
(** The condition is needed: here the first alternative is taken although only the second
    one leads to the end of the text. *)
Example C63_condition_needed :
  ll1 digits (rules_of (txt "S='a'|'a','b';")) (txt "S") = false /\
  word_of (rules_of (txt "S='a'|'a','b';")) default_config (txt "S") (txt "ab") /\
  exists e, parse_case default_config (txt "S='a'|'a','b';") (txt "S") true 100 (text_reader (txt "ab")) = Some (Err e).
Proof.
  split; [vm_compute; reflexivity|]. split; [|vm_compute; eexists; reflexivity].
  destruct (rules_of (txt "S='a'|'a','b';")) as [|r [|]] eqn:E; [vm_compute in E; discriminate| |vm_compute in E; discriminate].
  vm_compute in E. injection E as <-. eexists. split; [split; [left; reflexivity|apply same_name_keyed; vm_compute; reflexivity]|].
  cbn [r_defs]. eapply lg_defs; [right; left; reflexivity|]. apply (lg_seq _ _ _ _ [97%N] [98%N]).
  - apply lg_term, lang_one. apply lg_terminal.
  - apply lang_last. apply lg_term, lang_one. apply lg_terminal.
Qed.
