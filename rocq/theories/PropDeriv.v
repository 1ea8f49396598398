(** Properties C66, C67: the events of a parse describe a derivation of the text; with rules
    that can be parsed by looking one character ahead they describe the only one there is.

    [derivation] (SpecDeriv.v) is the textbook notion, with the events that describe it. *)
From Coq Require Import String List NArith Arith Bool Lia.
From Verif Require Import Base Ident Tokenizer Ast Lex Syntax Io Graph Machine SpecText SpecSyntax SpecIo TextFacts SyntaxFacts IoFacts SpecParse SpecMachine SpecEvents SpecTotal SpecLL SpecDeriv Pure ParseFacts CodeFacts EvFacts EventFacts MachineFacts LangFacts TotalFacts LLFacts DerivFacts LLCheck ProdCheck PropSyntax PropParse PropEvents PropLL.
Import ListNotations.
Open Scope nat_scope.

Lemma ref_derivation : forall rs cfg r s s' e, names rs (r_id r) r -> 
  derives rs cfg (NPrim (PMeta (r_loc r) (r_id r))) s e s' -> no_repeat rs ->
  exists inner, derives rs cfg (NDefs (r_defs r)) s inner s' /\ e = EvBegin (r_loc r) (p_at s) (r_id r) :: inner ++ [EvEnd (r_loc r) (p_at s') (r_id r)].
Proof.
  intros rs cfg r s s' e Hn H Hu. inversion H; subst. match goal with K : names rs (r_id r) ?r0 |- _ => rewrite (names_unique _ _ _ _ Hu K Hn) in * end. eauto.
Qed.
Lemma self_name : forall rs id r, names rs id r -> names rs (r_id r) r.
Proof. intros rs id r (H & _). split; [exact H|]. apply same_name_keyed. reflexivity. Qed.
Lemma raw_of : forall rs cfg g id m debug fuel rd evs, parser_for rs cfg g id m -> reader rd ->
  fst (parser_parse debug g fuel m rd) = Ok evs ->
  exists r raw, names rs id r /\ ev rs cfg (NRef (r_loc r) (r_id r)) (stand rd) (Match (stand (snd (parser_parse debug g fuel m rd))) raw) /\
    evs = remove_empty_pairs raw /\ unread (snd (parser_parse debug g fuel m rd)) = [].
Proof.
  intros rs cfg g id m debug fuel rd evs Hp Hr H. destruct (parse_all_read _ _ _ _ _ _ Hr H) as (He & Hu).
  pose proof (parse_sound_api rs cfg g id m debug fuel rd Hp Hr He) as K. rewrite H in K. destruct K as (raw & (r & Hnm & Hev) & ->). exists r, raw. auto.
Qed.

Lemma derivation_pf : forall rs cfg g id m debug fuel rd evs, parser_for rs cfg g id m -> reader rd ->
  no_forwarding cfg -> Forall (fun r => groups_last (NDefs (r_defs r))) rs ->
  fst (parser_parse debug g fuel m rd) = Ok evs ->
  exists raw, derivation rs cfg id (stand rd) raw (stand (snd (parser_parse debug g fuel m rd))) /\
    (Forall (fun r => tidy (NDefs (r_defs r))) rs -> evs = without_pairs raw).
Proof.
  intros rs cfg g id m debug fuel rd evs Hp Hr Hf Hg H. destruct (raw_of _ _ _ _ _ _ _ _ _ Hp Hr H) as (r & raw & Hnm & Hev & -> & _).
  destruct (ev_derived rs cfg Hf Hg _ _ _ Hev I) as (e' & Hw & Hx). cbn [ways] in Hw.
  destruct (ref_derivation _ _ _ _ _ _ (self_name _ _ _ Hnm) Hw (parser_unique _ _ _ _ _ Hp)) as (inner & Hi & ->).
  eexists. split; [exists r, inner; split; [exact Hnm|split; [exact Hi|reflexivity]]|]. intros Ht. rewrite (Hx Ht (td_ref _ _)). apply filter_positions.
Qed.
(** C66: an accepted text has a derivation; the events are those of the derivation, without
    empty pairs, if no body of brackets leaves events behind when it fails. *)
Theorem C66_derivation : forall rs cfg g id m debug fuel rd evs, parser_for rs cfg g id m ->
  reader rd -> no_forwarding cfg -> Forall (fun r => groups_last (NDefs (r_defs r))) rs ->
  fst (parser_parse debug g fuel m rd) = Ok evs ->
  exists raw, derivation rs cfg id (stand rd) raw (stand (snd (parser_parse debug g fuel m rd))) /\
    (Forall (fun r => tidy (NDefs (r_defs r))) rs -> evs = without_pairs raw).
Proof. exact derivation_pf. Qed.
Print Assumptions C66_derivation.

Lemma goes_end : forall s w1 s1 w2 s2, goes s w1 s1 -> goes s w2 s2 -> p_rest s1 = [] -> p_rest s2 = [] -> s1 = s2.
Proof.
  intros s w1 s1 w2 s2 H1 H2 E1 E2. pose proof (proj1 H1) as K1. pose proof (proj1 H2) as K2. rewrite E1, app_nil_r in K1. rewrite E2, app_nil_r in K2.
  subst w1. rewrite K2 in H1. exact (goes_fun _ _ _ _ H1 H2).
Qed.
Lemma only_pf : forall rs cfg g id m debug fuel rd evs, parser_for rs cfg g id m -> reader rd ->
  predictive rs cfg id -> productive rs cfg -> spelling_scanners cfg -> nesting_scanners cfg ->
  (N.of_nat (length (unread rd)) <= max_count)%N -> fst (parser_parse debug g fuel m rd) = Ok evs ->
  tokens evs = unread rd /\ trail (stand rd) evs (stand (snd (parser_parse debug g fuel m rd))) /\
  (exists raw, derivation rs cfg id (stand rd) raw (stand (snd (parser_parse debug g fuel m rd)))) /\
  forall raw s', derivation rs cfg id (stand rd) raw s' -> p_rest s' = [] -> solid evs = solid raw.
Proof.
  intros rs cfg g id m debug fuel rd evs Hp Hr (Hcalm & Hst & Ha & Hleft) Hprod Hsp Hns Hlen H. set (s' := stand (snd (parser_parse debug g fuel m rd))).
  destruct (raw_of _ _ _ _ _ _ _ _ _ Hp Hr H) as (r & raw & Hnm & Hev & -> & Hu). fold s' in Hev.
  pose proof (parser_unique _ _ _ _ _ Hp) as Hun. pose proof (proj2 (proj2 (proj2 (proj2 (proj2 Hcalm))))) as Hfwd.
  assert (Hend : p_rest s' = []) by exact Hu.
  assert (K : forall raw', derivation rs cfg id (stand rd) raw' s' -> trail (stand rd) raw s' /\ solid raw = solid raw').
  { intros raw' (r' & inner & Hr' & Hd & ->). rewrite (names_unique _ _ _ _ Hun Hr' Hnm) in *. clear r' Hr'.
    destruct (all_followed rs cfg Hst Hcalm id Ha Hleft Hsp Hns Hprod _ _ _ _ Hd) as (e & He & Ht & Es); [rewrite Hend; exact (af_start _ _ _ _ Hnm)|exact Hlen|].
    pose proof (ev_ref rs cfg (r_loc r) (r_id r) r _ _ _ (self_name _ _ _ Hnm) He) as He2.
    pose proof (ev_fun rs cfg Hun (proj1 (proj2 Hp)) _ _ _ Hev _ He2) as E. injection E as ->.
    split; [cbn; apply tr_begin; eapply trail_app; [exact Ht|]; repeat constructor|].
    apply solid_wrap; [exact (ev_nested rs cfg Hns _ _ _ He)|eapply derives_nested; eauto|exact Es]. }
  assert (D : exists raw', derivation rs cfg id (stand rd) raw' s').
  { destruct (ev_derived rs cfg Hfwd (rules_gl rs Hst) _ _ _ Hev I) as (e' & Hw & _). cbn [ways] in Hw.
    destruct (ref_derivation _ _ _ _ _ _ (self_name _ _ _ Hnm) Hw Hun) as (inner & Hi & ->). eexists. exists r, inner. split; [exact Hnm|split; [exact Hi|reflexivity]]. }
  destruct D as (raw0 & D). pose proof (proj1 (K _ D)) as T.
  split; [rewrite tokens_filter; apply trail_tokens in T; destruct T as (T & _); rewrite Hend, app_nil_r in T; symmetry; exact T|].
  split; [apply trail_filter; exact T|]. split; [exists raw0; exact D|]. intros raw' s2 D' Hs2. rewrite solid_filter. apply K.
  assert (E : s2 = s'); [|rewrite <- E; exact D']. pose proof D' as (r2 & e2 & _ & He2 & _). destruct (derives_lang _ _ _ _ _ _ He2) as (w2 & Hw2 & _).
  apply trail_tokens in T. exact (goes_end _ _ _ _ _ Hw2 T Hs2 Hend).
Qed.
(** C67: with rules that can be parsed by looking one character ahead the tokens spell the
    text, and the events are those of every derivation of it, up to tokens without text
    and rules without tokens. *)
Theorem C67_the_derivation : forall rs cfg g id m debug fuel rd evs, parser_for rs cfg g id m ->
  reader rd -> predictive rs cfg id -> productive rs cfg -> spelling_scanners cfg -> nesting_scanners cfg ->
  (N.of_nat (length (unread rd)) <= max_count)%N -> fst (parser_parse debug g fuel m rd) = Ok evs ->
  tokens evs = unread rd /\ trail (stand rd) evs (stand (snd (parser_parse debug g fuel m rd))) /\
  (exists raw, derivation rs cfg id (stand rd) raw (stand (snd (parser_parse debug g fuel m rd)))) /\
  forall raw s', derivation rs cfg id (stand rd) raw s' -> p_rest s' = [] -> solid evs = solid raw.
Proof. exact only_pf. Qed.
Print Assumptions C67_the_derivation.
(** Whether every construct has a word can be computed. *)
Theorem C67_checked : forall (class : str -> option (ranges * bool)) rs cfg,
  (forall l c rgs many, class c = Some (rgs, many) -> cfg l c = ScChars (has rgs) (Some 1%N) (if many then None else Some 1%N)) ->
  fruitful class rs = true -> productive rs cfg.
Proof. exact fruitful_productive. Qed.
Print Assumptions C67_checked.

(** The rules of PropEvents.v meet the conditions of C66, and so the events listed there in
    [small_parse] are those of a derivation. *)
Example C66_case : exists raw s', derivation (rules_of small_text) any_config (txt "S") (Pst (txt "xdxd,eeab") (loc_new [])) raw s' /\
  without_pairs raw = [bg 1 1 "S"; tk 6 1 "x"; bg 10 2 "D"; tk 39 2 "d"; en 10 3 "D"; tk 6 3 "x";
            bg 14 4 "D"; tk 39 4 "d"; en 14 5 "D"; tk 17 5 ",";
            bg 14 6 "D"; tk 43 6 "ee"; en 14 8 "D"; tk 23 8 "ab"; en 1 10 "S"].
Proof.
  destruct (parse_case_ok _ _ _ _ _ _ _ small_parse) as (g & m & Hp & K). destruct (text_reader_ok (txt "xdxd,eeab")) as (H1 & _ & H3).
  destruct (C66_derivation _ _ _ _ _ _ _ _ _ Hp H1 (proj2 (proj2 (proj2 (library_scanners _ (proj1 library_case))))) small_groups_last K) as (raw & Hd & Hx).
  rewrite H3 in Hd. eexists. eexists. split; [exact Hd|]. symmetry. exact (Hx small_tidy).
Qed.
(** Sums and products: the rules meet the conditions ... *)
Example C67_calc : predictive (rules_of calc) number_config (txt "E") /\ productive (rules_of calc) number_config.
Proof.
  split; [exact C63_calc|]. apply (C67_checked digits); [|vm_compute; reflexivity]. intros l c rs many H. unfold number_config. rewrite H. reflexivity.
Qed.
(** ... and so every derivation of a sum describes it as the parser does. *)
Example C67_sum : forall raw s', p_rest s' = [] ->
  derivation (rules_of calc) number_config (txt "E") (Pst (txt "1+2") (loc_new [])) raw s' ->
  solid raw = [bg 1 1 "E"; bg 3 1 "T"; bg 20 1 "F"; tk 37 1 "1"; en 20 2 "F"; en 3 2 "T"; bg 5 2 "R"; tk 9 2 "+";
               bg 13 3 "T"; bg 20 3 "F"; tk 37 3 "2"; en 20 4 "F"; en 13 4 "T"; en 5 4 "R"; en 1 4 "E"].
Proof.
  intros raw s' Hs' Hd.
  assert (K : parse_case number_config calc (txt "E") true 1000 (text_reader (txt "1+2")) = Some (Ok
    [bg 1 1 "E"; bg 3 1 "T"; bg 20 1 "F"; tk 37 1 "1"; en 20 2 "F"; en 3 2 "T"; bg 5 2 "R"; tk 9 2 "+";
     bg 13 3 "T"; bg 20 3 "F"; tk 37 3 "2"; en 20 4 "F"; en 13 4 "T"; en 5 4 "R"; en 1 4 "E"])) by (vm_compute; reflexivity).
  destruct (parse_case_ok _ _ _ _ _ _ _ K) as (g & m & Hp & H). destruct (text_reader_ok (txt "1+2")) as (H1 & _ & H3).
  destruct (library_scanners _ number_library) as (L1 & _ & L3 & _).
  destruct (C67_the_derivation _ _ _ _ _ _ _ _ _ Hp H1 (proj1 C67_calc) (proj2 C67_calc) L3 L1 ltac:(vm_compute; discriminate) H) as (_ & _ & _ & Ha).
  rewrite H3 in Ha. rewrite <- (Ha raw s' Hd Hs'). vm_compute. reflexivity.
Qed.
(** Brackets whose body can fail half-way are no trouble when one character tells whether
    to go in ... *)
Definition listed : str := txt "L={'a',B},'c';B='b'|'(',L,')';".
Example C67_brackets : predictive (rules_of listed) default_config (txt "L") /\ productive (rules_of listed) default_config /\
  parse_case default_config listed (txt "L") true 100 (text_reader (txt "ababc")) =
    Some (Ok [bg 1 1 "L"; tk 4 1 "a"; bg 8 2 "B"; tk 17 2 "b"; en 8 3 "B"; tk 4 3 "a"; bg 8 4 "B"; tk 17 4 "b"; en 8 5 "B"; tk 11 5 "c"; en 1 6 "L"]).
Proof.
  split; [|split; [|vm_compute; reflexivity]].
  - apply (C63_checked (fun _ => None)); [vm_compute; reflexivity|discriminate|apply (library_scanners _ (proj2 library_case))].
  - apply (C67_checked (fun _ => None)); [discriminate|vm_compute; reflexivity].
Qed.
(** ... unless there is no way to get through them: [X] has no words. *)
Example C67_productive_needed :
  fruitful digits (rules_of (txt "S=['a',X],'a';X='x',X;")) = false /\
  exists evs, parse_case default_config (txt "S=['a',X],'a';X='x',X;") (txt "S") true 100 (text_reader (txt "a")) = Some (Ok evs) /\ tokens evs = txt "aa".
Proof. split; [vm_compute; reflexivity|]. eexists. split; [vm_compute; reflexivity|vm_compute; reflexivity]. Qed.
