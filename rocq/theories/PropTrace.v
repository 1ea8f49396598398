(** C90: the events of a parse, exactly. *)
From Coq Require Import String List NArith Arith Bool Lia.
From Verif Require Import Base Ident Tokenizer Ast Lex Syntax Io Graph Machine SpecText SpecSyntax SpecIo TextFacts SyntaxFacts IoFacts SpecParse SpecMachine SpecEvents SpecTotal SpecLL SpecDeriv Pure ParseFacts CodeFacts EvFacts EventFacts MachineFacts LangFacts TotalFacts LLFacts DerivFacts SpecTrace TraceFacts PropSyntax PropParse PropEvents PropDeriv.
Import ListNotations.
Open Scope nat_scope.

(** The events of a successful parse are those of a trace, without empty pairs. *)
Lemma trace_pf : forall rs cfg g id m debug fuel rd evs, parser_for rs cfg g id m -> reader rd -> no_forwarding cfg ->
  fst (parser_parse debug g fuel m rd) = Ok evs ->
  exists ps, trace rs cfg id (stand rd) ps (stand (snd (parser_parse debug g fuel m rd))) /\ evs = without_pairs (events_of ps).
Proof.
  intros rs cfg g id m debug fuel rd evs Hp Hr Hf H. destruct (raw_of _ _ _ _ _ _ _ _ _ Hp Hr H) as (r & raw & Hn & Hev & -> & _).
  destruct (ev_traced rs cfg Hf _ _ _ Hev I) as (ps & A & B). exists ps. split; [exists r; split; [exact Hn|exact A]|]. rewrite B. apply filter_positions.
Qed.
Theorem C90_trace : forall rs cfg g id m debug fuel rd evs, parser_for rs cfg g id m -> reader rd -> no_forwarding cfg ->
  fst (parser_parse debug g fuel m rd) = Ok evs ->
  exists ps, trace rs cfg id (stand rd) ps (stand (snd (parser_parse debug g fuel m rd))) /\ evs = without_pairs (events_of ps).
Proof. exact trace_pf. Qed.
Print Assumptions C90_trace.

(** ... and every trace of the whole text is one of a successful parse. *)
Lemma complete_pf : forall rs cfg g id m rd ps s', parser_for rs cfg g id m -> reader rd -> ending_of rd = None ->
  trace rs cfg id (stand rd) ps s' -> p_rest s' = [] ->
  exists f0, forall fuel, f0 <= fuel -> fst (parser_parse false g fuel m rd) = Ok (without_pairs (events_of ps)).
Proof.
  intros rs cfg g id m rd ps s' Hp Hr He (r & Hn & Ht) Hs.
  assert (Hm : means rs cfg id (stand rd) (Match s' (events_of ps))) by (exists r; split; [exact Hn|apply traces_ev; exact Ht]).
  destruct (parse_complete_api rs cfg g id m false rd _ Hp Hr He Hm) as (f0 & Hf). exists f0. intros fuel Hfu. specialize (Hf fuel Hfu). cbv iota in Hf.
  rewrite Hs in Hf. cbn [andb] in Hf. rewrite Hf. f_equal. apply filter_positions.
Qed.
Theorem C90_complete : forall rs cfg g id m rd ps s', parser_for rs cfg g id m -> reader rd -> ending_of rd = None ->
  trace rs cfg id (stand rd) ps s' -> p_rest s' = [] ->
  exists f0, forall fuel, f0 <= fuel -> fst (parser_parse false g fuel m rd) = Ok (without_pairs (events_of ps)).
Proof. exact complete_pf. Qed.
Print Assumptions C90_complete.

(** What is kept spells the text, token by token at its place, and is a derivation of it. *)
Lemma kept_pf : forall rs cfg id s ps s', spelling_scanners cfg -> trace rs cfg id s ps s' ->
  goes s (tokens (kept ps)) s' /\ trail s (kept ps) s'.
Proof.
  intros rs cfg id s ps s' Hs (r & Hn & Ht). pose proof (traces_trail rs cfg Hs _ _ _ _ Ht) as K. split; [apply trail_tokens; exact K|exact K].
Qed.
Theorem C90_kept : forall rs cfg id s ps s', spelling_scanners cfg -> trace rs cfg id s ps s' ->
  goes s (tokens (kept ps)) s' /\ trail s (kept ps) s'.
Proof. exact kept_pf. Qed.
Print Assumptions C90_kept.
Lemma kept_derivation_pf : forall rs cfg id s ps s', no_repeat rs -> Forall (fun r => groups_last (NDefs (r_defs r))) rs ->
  trace rs cfg id s ps s' -> derivation rs cfg id s (kept ps) s'.
Proof.
  intros rs cfg id s ps s' Hu Hg (r & Hn & Ht). pose proof (traces_ways rs cfg Hg _ _ _ _ Ht I) as K. cbn [ways] in K.
  destruct (ref_derivation _ _ _ _ _ _ (self_name _ _ _ Hn) K Hu) as (inner & Hi & E). exists r, inner. auto.
Qed.
Theorem C90_derivation : forall rs cfg id s ps s', no_repeat rs -> Forall (fun r => groups_last (NDefs (r_defs r))) rs ->
  trace rs cfg id s ps s' -> derivation rs cfg id s (kept ps) s'.
Proof. exact kept_derivation_pf. Qed.
Print Assumptions C90_derivation.

(** So the tokens of a parse are those that spell the text and those that were lost, and they
    spell the text exactly when no token with a text was lost. *)
Lemma trace_raw : forall rs cfg g id m debug fuel rd evs ps s', parser_for rs cfg g id m -> reader rd ->
  fst (parser_parse debug g fuel m rd) = Ok evs -> trace rs cfg id (stand rd) ps s' ->
  s' = stand (snd (parser_parse debug g fuel m rd)) /\ evs = remove_empty_pairs (events_of ps) /\ p_rest s' = [].
Proof.
  intros rs cfg g id m debug fuel rd evs ps s' Hp Hr H (r & Hn & Ht).
  destruct (raw_of _ _ _ _ _ _ _ _ _ Hp Hr H) as (r2 & raw & Hn2 & Hev & -> & Hu).
  rewrite (names_unique _ _ _ _ (parser_unique _ _ _ _ _ Hp) Hn2 Hn) in Hev.
  pose proof (ev_fun rs cfg (parser_unique _ _ _ _ _ Hp) (proj1 (proj2 Hp)) _ _ _ Hev _ (traces_ev _ _ _ _ _ _ Ht)) as E. injection E as <- <-.
  split; [reflexivity|]. split; [reflexivity|]. exact Hu.
Qed.
Lemma tokens_pf : forall rs cfg g id m debug fuel rd evs ps s', parser_for rs cfg g id m -> reader rd -> spelling_scanners cfg ->
  fst (parser_parse debug g fuel m rd) = Ok evs -> trace rs cfg id (stand rd) ps s' ->
  tokens (kept ps) = unread rd /\ length (tokens evs) = length (unread rd) + length (tokens (lost ps)) /\
  (tokens evs = unread rd <-> tokens (lost ps) = []).
Proof.
  intros rs cfg g id m debug fuel rd evs ps s' Hp Hr Hs H Ht.
  destruct (trace_raw _ _ _ _ _ _ _ _ _ _ _ Hp Hr H Ht) as (_ & -> & Hu).
  destruct (kept_pf _ _ _ _ _ _ Hs Ht) as ((K & _) & _). change (p_rest (stand rd)) with (unread rd) in K. rewrite Hu, app_nil_r in K.
  rewrite tokens_filter. pose proof (token_count ps) as C. rewrite <- K in C. split; [symmetry; exact K|]. split; [exact C|]. split; intros E.
  - rewrite E in C. destruct (tokens (lost ps)); [reflexivity|cbn in C; lia].
  - rewrite K. clear - E. unfold events_of. induction ps as [|[[]|[]] ps IH]; cbn in *; try reflexivity; try (apply IH; exact E).
    + f_equal. apply IH. exact E.
    + apply app_eq_nil in E as (-> & E). apply IH. exact E.
Qed.
Theorem C90_tokens : forall rs cfg g id m debug fuel rd evs ps s', parser_for rs cfg g id m -> reader rd -> spelling_scanners cfg ->
  fst (parser_parse debug g fuel m rd) = Ok evs -> trace rs cfg id (stand rd) ps s' ->
  tokens (kept ps) = unread rd /\ length (tokens evs) = length (unread rd) + length (tokens (lost ps)) /\
  (tokens evs = unread rd <-> tokens (lost ps) = []).
Proof. exact tokens_pf. Qed.
Print Assumptions C90_tokens.

(** An empty pair is left exactly where the events of the match have, behind the first one, a
    rule that holds empty pairs only, and at least one. *)
Lemma remove_at_begin : forall n a d l b r, length a <= n -> remove_pairs (a ++ EvBegin d l b :: r) = remove_pairs a ++ remove_pairs (EvBegin d l b :: r).
Proof.
  induction n as [|n IH]; intros a d l b r Hn; (destruct a as [|x a]; [reflexivity|]); cbn in Hn; [lia|].
  destruct x as [dx lx tx|dx lx bx|dx lx bx].
  - change (EvToken dx lx tx :: remove_pairs (a ++ EvBegin d l b :: r) = EvToken dx lx tx :: remove_pairs a ++ remove_pairs (EvBegin d l b :: r)). rewrite IH by lia. reflexivity.
  - destruct a as [|[dy ly ty|dy ly ty|dy ly ty] a].
    + reflexivity.
    + change (EvBegin dx lx bx :: remove_pairs ((EvToken dy ly ty :: a) ++ EvBegin d l b :: r) = EvBegin dx lx bx :: remove_pairs (EvToken dy ly ty :: a) ++ remove_pairs (EvBegin d l b :: r)). rewrite IH by (cbn in *; lia). reflexivity.
    + change (EvBegin dx lx bx :: remove_pairs ((EvBegin dy ly ty :: a) ++ EvBegin d l b :: r) = EvBegin dx lx bx :: remove_pairs (EvBegin dy ly ty :: a) ++ remove_pairs (EvBegin d l b :: r)). rewrite IH by (cbn in *; lia). reflexivity.
    + change (remove_pairs (a ++ EvBegin d l b :: r) = remove_pairs a ++ remove_pairs (EvBegin d l b :: r)). apply IH. cbn in Hn. lia.
  - change (EvEnd dx lx bx :: remove_pairs (a ++ EvBegin d l b :: r) = EvEnd dx lx bx :: remove_pairs a ++ remove_pairs (EvBegin d l b :: r)). rewrite IH by lia. reflexivity.
Qed.
Lemma remove_all_pairs : forall mid r, pairs mid -> remove_pairs (mid ++ r) = remove_pairs r.
Proof. intros mid r H. induction H; [reflexivity|]. exact IHpairs. Qed.
Lemma hollow_left : forall pre d l b mid d2 l2 b2 post, mid <> [] -> pairs mid -> exists i,
  nth_error (remove_pairs (pre ++ EvBegin d l b :: mid ++ EvEnd d2 l2 b2 :: post)) i = Some (EvBegin d l b) /\
  nth_error (remove_pairs (pre ++ EvBegin d l b :: mid ++ EvEnd d2 l2 b2 :: post)) (S i) = Some (EvEnd d2 l2 b2).
Proof.
  intros pre d l b mid d2 l2 b2 post Hne Hp. rewrite (remove_at_begin _ _ _ _ _ _ (le_n _)).
  assert (K : remove_pairs (EvBegin d l b :: mid ++ EvEnd d2 l2 b2 :: post) = EvBegin d l b :: EvEnd d2 l2 b2 :: remove_pairs post).
  { inversion Hp as [|d3 l3 b3 d4 l4 b4 r Hr]; subst; [contradiction|]. cbn [app].
    change (EvBegin d l b :: remove_pairs ((EvBegin d3 l3 b3 :: EvEnd d4 l4 b4 :: r) ++ EvEnd d2 l2 b2 :: post) = EvBegin d l b :: EvEnd d2 l2 b2 :: remove_pairs post).
    f_equal. rewrite remove_all_pairs by exact Hp. reflexivity. }
  exists (length (remove_pairs pre)). rewrite K. rewrite !nth_error_app2 by lia. rewrite Nat.sub_diag. replace (S (length (remove_pairs pre)) - length (remove_pairs pre)) with 1 by lia. auto.
Qed.
Lemma pairs_pf : forall rs cfg g id m debug fuel rd evs d l b d2 l2 b2 s' raw, parser_for rs cfg g id m -> reader rd ->
  fst (parser_parse debug g fuel m rd) = Ok evs -> means rs cfg id (stand rd) (Match s' raw) ->
  (exists i, 1 <= i /\ nth_error evs i = Some (EvBegin d l b) /\ nth_error evs (S i) = Some (EvEnd d2 l2 b2)) <->
  (exists pre mid post, pre <> [] /\ raw = pre ++ EvBegin d l b :: mid ++ EvEnd d2 l2 b2 :: post /\ mid <> [] /\ pairs mid).
Proof.
  intros rs cfg g id m debug fuel rd evs d l b d2 l2 b2 s' raw Hp Hr H (r & Hn & Hev0).
  destruct (raw_of _ _ _ _ _ _ _ _ _ Hp Hr H) as (r2 & raw2 & Hn2 & Hev & -> & Hu).
  rewrite (names_unique _ _ _ _ (parser_unique _ _ _ _ _ Hp) Hn2 Hn) in Hev.
  pose proof (ev_fun rs cfg (parser_unique _ _ _ _ _ Hp) (proj1 (proj2 Hp)) _ _ _ Hev _ Hev0) as E. injection E as <- <-. clear Hev Hev0 H. split.
  - intros (i & Hi & H1 & H2). destruct i as [|i]; [lia|]. destruct raw2 as [|e raw]; [discriminate|]. cbn [remove_empty_pairs nth_error] in H1, H2.
    destruct (hollow_source _ _ _ _ _ _ _ _ _ (le_n _) H1 H2) as (pre & mid & post & -> & Hne & Hpa). exists (e :: pre), mid, post. split; [discriminate|]. auto.
  - intros (pre & mid & post & Hne & -> & Hm & Hpa). destruct pre as [|e pre]; [contradiction|]. cbn [app remove_empty_pairs].
    destruct (hollow_left pre d l b mid d2 l2 b2 post Hm Hpa) as (i & A & B). exists (S i). split; [lia|]. cbn [nth_error]. auto.
Qed.
Theorem C90_pairs : forall rs cfg g id m debug fuel rd evs d l b d2 l2 b2 s' raw, parser_for rs cfg g id m -> reader rd ->
  fst (parser_parse debug g fuel m rd) = Ok evs -> means rs cfg id (stand rd) (Match s' raw) ->
  (exists i, 1 <= i /\ nth_error evs i = Some (EvBegin d l b) /\ nth_error evs (S i) = Some (EvEnd d2 l2 b2)) <->
  (exists pre mid post, pre <> [] /\ raw = pre ++ EvBegin d l b :: mid ++ EvEnd d2 l2 b2 :: post /\ mid <> [] /\ pairs mid).
Proof. exact pairs_pf. Qed.
Print Assumptions C90_pairs.

(** The parse of C35 whose tokens do not spell the text: one token was lost. *)
Lemma C90_setting : library_config default_config.
Proof. intros l c. exact I. Qed.
Example C90_lost : exists ps s', trace (rules_of (txt "A=['a','b'],'a','c';")) default_config (txt "A") (Pst (txt "ac") (loc_new [])) ps s' /\
  tokens (kept ps) = txt "ac" /\ length (tokens (lost ps)) = 1.
Proof.
  assert (K0 : parse_case default_config (txt "A=['a','b'],'a','c';") (txt "A") true 100 (text_reader (txt "ac")) =
    Some (Ok [bg 1 1 "A"; tk 4 1 "a"; tk 13 1 "a"; tk 17 2 "c"; en 1 3 "A"])) by (vm_compute; reflexivity).
  destruct (parse_case_ok _ _ _ _ _ _ _ K0) as (g & m & Hp & K). destruct (text_reader_ok (txt "ac")) as (H1 & _ & H3).
  destruct (library_scanners _ C90_setting) as (_ & _ & Hs & Hf).
  destruct (C90_trace _ _ _ _ _ _ _ _ _ Hp H1 Hf K) as (ps & Ht & _). destruct (C90_tokens _ _ _ _ _ _ _ _ _ _ _ Hp H1 Hs K Ht) as (E1 & E2 & _).
  rewrite H3 in Ht. eexists ps, _. split; [exact Ht|]. split; [exact E1|].
  change (length (tokens [bg 1 1 "A"; tk 4 1 "a"; tk 13 1 "a"; tk 17 2 "c"; en 1 3 "A"])) with 3 in E2. change (length (unread (text_reader (txt "ac")))) with 2 in E2. lia.
Qed.
(** The parse of C36 that leaves an empty pair: the rule F held the empty pair of E. *)
Example C90_hollow : exists s' raw, means (rules_of (txt "E=;F=E;S='a',F;")) default_config (txt "S") (Pst (txt "a") (loc_new [])) (Match s' raw) /\
  exists pre mid post, pre <> [] /\ raw = pre ++ bg 14 2 "F" :: mid ++ en 14 2 "F" :: post /\ mid <> [] /\ pairs mid.
Proof.
  assert (K0 : parse_case default_config (txt "E=;F=E;S='a',F;") (txt "S") true 100 (text_reader (txt "a")) =
    Some (Ok [bg 8 1 "S"; tk 10 1 "a"; bg 14 2 "F"; en 14 2 "F"; en 8 2 "S"])) by (vm_compute; reflexivity).
  destruct (parse_case_ok _ _ _ _ _ _ _ K0) as (g & m & Hp & K). destruct (text_reader_ok (txt "a")) as (H1 & _ & H3).
  destruct (raw_of _ _ _ _ _ _ _ _ _ Hp H1 K) as (r & raw & Hn & Hev & _ & _).
  assert (Hm : means (rules_of (txt "E=;F=E;S='a',F;")) default_config (txt "S") (stand (text_reader (txt "a"))) (Match (stand (snd (parser_parse true g 100 m (text_reader (txt "a"))))) raw)) by (exists r; auto).
  pose proof (proj1 (C90_pairs _ _ _ _ _ _ _ _ _ (Loc [] 1 14) (Loc [] 1 2) (of_string "F") (Loc [] 1 14) (Loc [] 1 2) (of_string "F") _ _ Hp H1 K Hm)) as Q. rewrite H3 in Hm. eexists _, raw. split; [exact Hm|].
  unfold bg, en. apply Q. exists 2. split; [lia|]. split; reflexivity.
Qed.
