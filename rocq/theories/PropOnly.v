(** Property C101: with rules whose choices never have to be undone (C84), and whose
    alternatives have no words in common but the empty one, a text has one derivation, exceptions included, and
    the events of a parse describe it.

    [xderivation] and [distinct] are in SpecOnly.v, [solid] in SpecDeriv.v. *)
From Coq Require Import String List NArith Arith Bool Lia.
From Verif Require Import Base Ident Tokenizer Ast Lex Syntax Io Graph Machine SpecText SpecSyntax SpecIo TextFacts SyntaxFacts IoFacts SpecParse SpecMachine SpecEvents SpecTotal SpecLL SpecExact SpecDeriv SpecOnly Pure ParseFacts CodeFacts EvFacts EventFacts MachineFacts LangFacts TotalFacts LLFacts LLCheck ExactFacts ExactUse ExactCheck DerivFacts OnlyFacts TidyCheck PropSyntax PropParse PropEvents PropTotal PropLL PropDeriv PropExact.
Import ListNotations.
Open Scope nat_scope.

Lemma one_pf : forall rs cfg id s raw1 s1 raw2 s2, no_repeat rs -> no_dollar rs -> determinate rs cfg id -> distinct rs cfg id ->
  nesting_scanners cfg -> spelling_scanners cfg -> (N.of_nat (length (p_rest s)) <= max_count)%N ->
  xderivation rs cfg id s raw1 s1 -> xderivation rs cfg id s raw2 s2 -> p_rest s1 = [] -> p_rest s2 = [] -> solid raw1 = solid raw2.
Proof.
  intros rs cfg id s raw1 s1 raw2 s2 Hu Hd (Hfree & Ha & Hleft) Hx Hn Hsp Hs (r & e & Hr & H1 & ->) (r2 & e2 & Hr2 & H2 & ->) E1 E2.
  pose proof (names_unique _ _ _ _ Hu Hr2 Hr) as ->.
  destruct (derives_goes _ _ _ _ _ _ H1) as (w1 & G1). destruct (derives_goes _ _ _ _ _ _ H2) as (w2 & G2). pose proof (goes_end _ _ _ _ _ G1 G2 E1 E2) as <-.
  apply solid_wrap; [eapply xnested; eauto|eapply xnested; eauto|].
  refine (all_only rs cfg Hfree Hleft id Ha Hu Hd Hn Hsp Hx _ _ _ _ H1 _ Hs _ H2). rewrite E1. exact (ah_start _ _ _ _ Hr).
Qed.
(** All derivations of a text have the same events, up to tokens without text and rules
    without tokens. *)
Theorem C101_one_derivation : forall rs cfg id s raw1 s1 raw2 s2, no_repeat rs -> no_dollar rs ->
  determinate rs cfg id -> distinct rs cfg id -> nesting_scanners cfg -> spelling_scanners cfg ->
  (N.of_nat (length (p_rest s)) <= max_count)%N ->
  xderivation rs cfg id s raw1 s1 -> xderivation rs cfg id s raw2 s2 -> p_rest s1 = [] -> p_rest s2 = [] ->
  solid raw1 = solid raw2.
Proof. exact one_pf. Qed.
Print Assumptions C101_one_derivation.

Lemma events_pf : forall rs cfg g id m debug fuel rd evs, parser_for rs cfg g id m -> reader rd -> determinate rs cfg id ->
  (N.of_nat (length (unread rd)) <= max_count)%N -> fst (parser_parse debug g fuel m rd) = Ok evs ->
  exists raw s', xderivation rs cfg id (stand rd) raw s' /\ p_rest s' = [] /\
    (Forall (fun r => tidy (NDefs (r_defs r))) rs -> evs = without_pairs raw).
Proof.
  intros rs cfg g id m debug fuel rd evs Hp Hr (Hfree & Ha & Hleft) Hlen H. destruct (raw_of _ _ _ _ _ _ _ _ _ Hp Hr H) as (r & raw & Hnm & Hev & -> & Hu).
  set (s' := stand (snd (parser_parse debug g fuel m rd))) in *.
  pose proof (parser_unique _ _ _ _ _ Hp) as Hun. pose proof (proj1 (proj2 Hp)) as Hdol.
  destruct (ev_xderived rs cfg Hfree Hleft id Ha Hun Hdol _ _ _ Hev I Hlen) as (e' & Hw & Hx). cbn [xways] in Hw.
  inversion Hw as [| | |l1 i1 r1 a1 b1 a2 K1 K2| | | | | | | | | | | |]; subst. pose proof (names_unique _ _ _ _ Hun K1 (self_name _ _ _ Hnm)) as ->.
  eexists. exists s'. split; [exists r, b1; split; [exact Hnm|split; [exact K2|reflexivity]]|]. split; [exact Hu|].
  intros Ht. rewrite (Hx Ht (td_ref _ _)). apply filter_positions.
Qed.
(** An accepted text has a derivation; if no body of brackets leaves events behind when it
    fails, the events are those of the derivation, without empty pairs, and so those of every
    derivation, up to tokens without text and rules without tokens. *)
Theorem C101_events : forall rs cfg g id m debug fuel rd evs, parser_for rs cfg g id m -> reader rd ->
  determinate rs cfg id -> distinct rs cfg id -> nesting_scanners cfg -> spelling_scanners cfg ->
  (N.of_nat (length (unread rd)) <= max_count)%N -> fst (parser_parse debug g fuel m rd) = Ok evs ->
  exists raw s', xderivation rs cfg id (stand rd) raw s' /\ p_rest s' = [] /\
    (Forall (fun r => tidy (NDefs (r_defs r))) rs -> evs = without_pairs raw /\
      forall raw2 s2, xderivation rs cfg id (stand rd) raw2 s2 -> p_rest s2 = [] -> solid evs = solid raw2).
Proof.
  intros rs cfg g id m debug fuel rd evs Hp Hr Hd Hx Hn Hsp Hlen H.
  destruct (events_pf _ _ _ _ _ _ _ _ _ Hp Hr Hd Hlen H) as (raw & s' & D & E & T). exists raw, s'. split; [exact D|]. split; [exact E|].
  intros Ht. specialize (T Ht). split; [exact T|]. intros raw2 s2 D2 E2. rewrite T, <- filter_positions, solid_filter.
  exact (one_pf _ _ _ (stand rd) _ _ _ _ (parser_unique _ _ _ _ _ Hp) (proj1 (proj2 Hp)) Hd Hx Hn Hsp Hlen D D2 E E2).
Qed.
Print Assumptions C101_events.

(** The conditions can be computed: the one on the alternatives as [determinate] in C84, and
    whether rules are tidy, exactly. *)
Theorem C101_checked : forall k class n rs cfg id, decided_ahead k class rs n id = true ->
  (forall l c rgs many, class c = Some (rgs, many) -> cfg l c = ScChars (has rgs) (Some 1%N) (if many then None else Some 1%N)) ->
  no_forwarding cfg -> distinct rs cfg id.
Proof. exact decided_distinct. Qed.
Print Assumptions C101_checked.
Theorem C101_tidy_checked : forall rs, tidies rs = true <-> Forall (fun r => tidy (NDefs (r_defs r))) rs.
Proof. exact tidies_ok. Qed.
Print Assumptions C101_tidy_checked.

(** The rules of PropExact.v, which are not LL(1) and have an exception, meet all conditions ... *)
Example C101_case : determinate (rules_of quoted) each_config (txt "S") /\ distinct (rules_of quoted) each_config (txt "S") /\
  Forall (fun r => tidy (NDefs (r_defs r))) (rules_of quoted).
Proof.
  split; [exact (proj2 (proj2 C84_case))|]. split; [|apply C101_tidy_checked; vm_compute; reflexivity].
  apply (C101_checked 3 all_chars 12); [vm_compute; reflexivity| |apply (library_scanners _ each_library)].
  intros l c rs many H. unfold each_config. rewrite H. reflexivity.
Qed.
(** ... and so every derivation of this text has the events that the parser tells. *)
Example C101_quoted : forall raw s', p_rest s' = [] ->
  xderivation (rules_of quoted) each_config (txt "S") (Pst (txt "abacfor/x/") (loc_new [])) raw s' ->
  solid raw = [bg 1 1 "S"; tk 4 1 "ab"; tk 10 3 "ac"; bg 15 5 "T"; tk 37 5 "for"; en 15 8 "T"; tk 17 8 "/"; tk 22 9 "x"; tk 31 10 "/"; en 1 11 "S"].
Proof.
  intros raw s' Hs' Hd.
  assert (K : parse_case each_config quoted (txt "S") true 1000 (text_reader (txt "abacfor/x/")) = Some (Ok
    [bg 1 1 "S"; tk 4 1 "ab"; tk 10 3 "ac"; bg 15 5 "T"; tk 37 5 "for"; en 15 8 "T"; tk 17 8 "/"; tk 22 9 "x"; tk 31 10 "/"; en 1 11 "S"])) by (vm_compute; reflexivity).
  destruct (parse_case_ok _ _ _ _ _ _ _ K) as (g & m & Hp & H). destruct (text_reader_ok (txt "abacfor/x/")) as (H1 & _ & H3).
  destruct (library_scanners _ each_library) as (L1 & _ & L3 & _). destruct C101_case as (C1 & C2 & C3).
  destruct (C101_events _ _ _ _ _ _ _ _ _ Hp H1 C1 C2 L1 L3 ltac:(vm_compute; discriminate) H) as (raw0 & s0 & _ & _ & T).
  destruct (T C3) as (_ & A). rewrite H3 in A. rewrite <- (A raw s' Hd Hs'). vm_compute. reflexivity.
Qed.
(** Without the condition on the alternatives a text has more derivations than one: the parser
    tells the first. *)
Example C101_distinct_needed :
  (exists raw1 raw2 s', xderivation (rules_of (txt "S='a'|'a';")) default_config (txt "S") (Pst (txt "a") (loc_new [])) raw1 s' /\
     xderivation (rules_of (txt "S='a'|'a';")) default_config (txt "S") (Pst (txt "a") (loc_new [])) raw2 s' /\ p_rest s' = [] /\ solid raw1 <> solid raw2) /\
  parse_case default_config (txt "S='a'|'a';") (txt "S") true 100 (text_reader (txt "a")) = Some (Ok [bg 1 1 "S"; tk 3 1 "a"; en 1 2 "S"]).
Proof.
  split; [|vm_compute; reflexivity].
  assert (E : exists r p1 p2, rules_of (txt "S='a'|'a';") = [r] /\ r_id r = txt "S" /\ r_defs r = [[Term (Factor 1 (PTerminal p1 (txt "a"))) None]; [Term (Factor 1 (PTerminal p2 (txt "a"))) None]] /\
    p1 = Loc [] 1 3 /\ p2 = Loc [] 1 7).
  { eexists. eexists. eexists. split; [vm_compute; reflexivity|]. split; [vm_compute; reflexivity|]. split; [vm_compute; reflexivity|]. split; reflexivity. }
  destruct E as (r & p1 & p2 & -> & E1 & E2 & -> & ->). set (s := Pst (txt "a") (loc_new [])). set (s' := Pst [] (Loc [] 1 2)).
  assert (G : goes s (txt "a") s') by (split; [vm_compute; reflexivity|exact (push_str_reaches (loc_new []) (txt "a"))]).
  assert (D : forall p, xderives [r] default_config (NSeq [Term (Factor 1 (PTerminal p (txt "a"))) None]) s ((([EvToken p (p_at s) (txt "a")]) ++ []) ++ []) s').
  { intros p. eapply xd_seq; [|apply xd_nil]. apply xd_term. eapply (xd_times _ _ 0%N); [|apply xd_zero]. apply xd_terminal. exact G. }
  exists (EvBegin (r_loc r) (p_at s) (r_id r) :: ((([EvToken (Loc [] 1 3) (p_at s) (txt "a")]) ++ []) ++ []) ++ [EvEnd (r_loc r) (p_at s') (r_id r)]).
  exists (EvBegin (r_loc r) (p_at s) (r_id r) :: ((([EvToken (Loc [] 1 7) (p_at s) (txt "a")]) ++ []) ++ []) ++ [EvEnd (r_loc r) (p_at s') (r_id r)]).
  exists s'. assert (Hn : names [r] (txt "S") r) by (split; [now left|rewrite E1; now apply same_name_keyed]).
  split; [|split; [|split; [reflexivity|]]].
  - exists r. eexists. split; [exact Hn|]. split; [|reflexivity]. rewrite E2. eapply xd_defs; [|apply D]. now left.
  - exists r. eexists. split; [exact Hn|]. split; [|reflexivity]. rewrite E2. eapply xd_defs; [|apply D]. right. now left.
  - cbn. discriminate.
Qed.
