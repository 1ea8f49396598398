(** Property C107: a part of a parse is the parse of that part; a list of texts is parsed as the
    texts one after the other.  For rules whose choices never have to be undone (C84).

    [encloses], [tells_words] and [in_turn] are in SpecPart.v, [determinate] in SpecExact.v,
    [distinct] in SpecOnly.v, [solid] in SpecDeriv.v, [seen] in SpecGrow.v. *)
From Coq Require Import String List NArith Arith Bool Lia.
From Verif Require Import Base Ident Tokenizer Ast Lex Syntax Io Graph Machine SpecText SpecSyntax SpecIo TextFacts SyntaxFacts IoFacts SpecParse SpecMachine SpecEvents SpecTotal SpecLL SpecExact SpecDeriv SpecOnly Pure ParseFacts CodeFacts EvFacts EventFacts MachineFacts LangFacts TotalFacts LLFacts LLCheck ExactFacts ExactUse ExactCheck DerivFacts OnlyFacts TidyCheck PropSyntax PropParse PropEvents PropTotal PropLL PropDeriv PropExact PropOnly SpecGrow GrowFacts PropGrow SpecPart PartFacts.
Import ListNotations.
Open Scope nat_scope.

(** The scanners of the library tell words. *)
Lemma library_words_pf : forall cfg, library_config cfg -> tells_words cfg.
Proof.
  intros cfg Hl. split.
  - intros l c s s' e H. specialize (Hl l c). inversion H; subst; try (constructor; [exact I|constructor]); [constructor|].
    match goal with X : _ = cfg l c |- _ => rewrite <- X in Hl end. destruct Hl.
  - intros l c s s' e t t' e' w H K G G' E. specialize (Hl l c). destruct (cfg l c) as [x|pred min max|re find|sym prog]; [| | |destruct Hl].
    + inversion H; inversion K; subst. reflexivity.
    + inversion H as [|p1 m1 x1 d1 s1 w1 s1' R1| | | | |]; inversion K as [|p2 m2 x2 d2 s2 w2 s2' R2| | | | |]; subst.
      rewrite (goes_word _ _ _ _ (proj1 R1) G), (goes_word _ _ _ _ (proj1 R2) G'), E. reflexivity.
    + inversion H as [| | |a1 b1 c1 d1 n1 f1 g1 R1| | |]; inversion K as [| | |a2 b2 c2 d2 n2 f2 g2 R2| | |]; subst.
      rewrite (goes_word _ _ _ _ R1 G), (goes_word _ _ _ _ R2 G'), E. reflexivity.
Qed.
Theorem C107_library : forall cfg, library_config cfg -> tells_words cfg.
Proof. exact library_words_pf. Qed.
Print Assumptions C107_library.

Lemma keyed_self : forall rs r, In r rs -> names rs (r_id r) r.
Proof. intros rs r H. split; [exact H|now apply same_name_keyed]. Qed.
Lemma enc_length : forall d l b inner l2 es, encloses d l b inner l2 es -> length (tokens inner) <= length (tokens es).
Proof. intros d l b inner l2 es H. induction H; cbn; rewrite ?tokens_app, ?app_length; cbn; rewrite ?app_length; lia. Qed.
(** The events of a parse, as the filter leaves them. *)
Lemma filtered_raw : forall d l b e d2 l2 b2, nested e ->
  remove_empty_pairs (EvBegin d l b :: e ++ [EvEnd d2 l2 b2]) = EvBegin d l b :: remove_pairs e ++ [EvEnd d2 l2 b2].
Proof. intros d l b e d2 l2 b2 H. cbn. rewrite (filter_app _ H). reflexivity. Qed.
(** A derivation of a rule from [s1] to [s2] is one of the text between them by itself. *)
Lemma alone : forall rs cfg r s1 e s2 b, tells_words cfg -> spelling_scanners cfg -> committed rs cfg b -> names rs b r ->
  xderives rs cfg (NDefs (r_defs r)) s1 e s2 ->
  xderivation rs cfg b (Pst (tokens e) (p_at s1)) (EvBegin (r_loc r) (p_at s1) (r_id r) :: e ++ [EvEnd (r_loc r) (p_at s2) (r_id r)]) (Pst [] (p_at s2)).
Proof.
  intros rs cfg r s1 e s2 b Hw Hsp Hc Hn Hd. pose proof (trail_tokens _ _ _ (derives_trail rs cfg Hsp _ _ _ _ (xderives_derives _ _ _ _ _ _ Hd))) as G.
  exists r, e. split; [exact Hn|]. split; [|reflexivity].
  apply (carried rs cfg Hw b Hc _ _ _ _ Hd _ _ (tokens e) G); [split; [cbn; rewrite app_nil_r; reflexivity|exact (proj2 G)]|reflexivity|]. cbn. apply ah_start. exact Hn.
Qed.
Lemma part_pf : forall rs cfg g id m debug fuel rd evs d l b inner l2 g' m' debug' rd', parser_for rs cfg g id m -> reader rd ->
  determinate rs cfg id -> Forall (fun r => tidy (NDefs (r_defs r))) rs -> tells_words cfg -> nesting_scanners cfg -> spelling_scanners cfg ->
  (N.of_nat (length (unread rd)) <= max_count)%N -> fst (parser_parse debug g fuel m rd) = Ok evs ->
  encloses d l b inner l2 evs ->
  parser_for rs cfg g' b m' -> determinate rs cfg b -> distinct rs cfg b ->
  reader rd' -> ending_of rd' = None -> stand rd' = Pst (tokens inner) l ->
  exists f0, forall fuel', f0 <= fuel' -> exists evs', fst (parser_parse debug' g' fuel' m' rd') = Ok evs' /\
    map seen (solid evs') = map seen (solid (EvBegin d l b :: inner ++ [EvEnd d l2 b])).
Proof.
  intros rs cfg g id m debug fuel rd evs d l b inner l2 g' m' debug' rd' Hp Hr Hd Ht Hw Hn Hsp Hlen H He Hp' Hd' Hx Hr' He' Hs.
  pose proof (proj2 (proj2 (proj2 (proj2 (proj2 (proj2 (proj2 (proj1 Hd)))))))) as Hf.
  destruct (events_pf _ _ _ _ _ _ _ _ _ Hp Hr Hd Hlen H) as (raw & s' & (r0 & e0 & Hn0 & D0 & ->) & _ & T). specialize (T Ht).
  rewrite <- filter_positions, filtered_raw in T by exact (xnested rs cfg Hn _ _ _ _ D0).
  assert (Hlen' : (N.of_nat (length (unread rd')) <= max_count)%N).
  { change (unread rd') with (p_rest (stand rd')). rewrite Hs. cbn. pose proof (enc_length _ _ _ _ _ _ He) as L.
    rewrite (proj1 (C35_tokens_spell _ _ _ _ _ _ _ _ _ Hp Hr Hsp Hf Ht H)) in L. lia. }
  assert (K : exists r s1 s2 inner0, In r rs /\ b = r_id r /\ l = p_at s1 /\ l2 = p_at s2 /\ xderives rs cfg (NDefs (r_defs r)) s1 inner0 s2 /\ inner = remove_pairs inner0).
  { rewrite T in He. destruct (enc_pair _ _ _ _ _ _ _ _ _ _ _ (filter_nested _ (xnested rs cfg Hn _ _ _ _ D0)) He) as [(-> & -> & -> & -> & ->)|[E|E]].
    - exists r0, (stand rd), s', e0. destruct Hn0. auto 8.
    - destruct (enc_filtered _ _ _ _ _ _ (xnested rs cfg Hn _ _ _ _ D0) E) as (i0 & A & _ & B).
      destruct (enc_derived rs cfg Hw Hn _ _ _ _ D0 _ _ _ _ _ A) as (r & s1 & s2 & K1 & K2 & K3 & K4 & K5). exists r, s1, s2, i0. auto 8.
    - destruct (enc_nil _ _ _ _ _ E). }
  destruct K as (r & s1 & s2 & i0 & Hi & -> & -> & -> & D & ->).
  rewrite (tokens_remove _ _ (le_n _)) in Hs.
  pose proof (alone _ _ _ _ _ _ (r_id r) Hw Hsp (proj1 (proj2 Hd')) (keyed_self _ _ Hi) D) as A. rewrite <- Hs in A.
  destruct (C84_exactly_the_language _ _ _ _ _ debug' _ Hp' Hr' He' Hd' Hn Hlen') as (f0 & L). exists f0. intros fuel' Hfu.
  destruct (L fuel' Hfu) as [(evs' & H' & _)|(e & _ & H')]; [|exfalso; exact (H' (text_derived _ _ _ _ _ _ A eq_refl))].
  exists evs'. split; [exact H'|]. destruct (C101_events _ _ _ _ _ _ _ _ _ Hp' Hr' Hd' Hx Hn Hsp Hlen' H') as (raw2 & s3 & _ & _ & U).
  destruct (U Ht) as (_ & V). rewrite (V _ _ A eq_refl). pose proof (xnested rs cfg Hn _ _ _ _ D) as N0.
  rewrite (solid_wrap d _ _ _ (remove_pairs i0) i0 (filter_nested _ N0) N0 (solid_remove _ _ (le_n _))).
  apply solid_seen. cbn. rewrite !map_app. reflexivity.
Qed.
(** What a rule encloses in the events of a parse is what parsing the enclosed text with the rule
    gives (but for tokens without text, rules without tokens, and the place of the reference in
    the rules). *)
Theorem C107_part : forall rs cfg g id m debug fuel rd evs d l b inner l2 g' m' debug' rd', parser_for rs cfg g id m -> reader rd ->
  determinate rs cfg id -> Forall (fun r => tidy (NDefs (r_defs r))) rs -> tells_words cfg -> nesting_scanners cfg -> spelling_scanners cfg ->
  (N.of_nat (length (unread rd)) <= max_count)%N -> fst (parser_parse debug g fuel m rd) = Ok evs ->
  encloses d l b inner l2 evs ->
  parser_for rs cfg g' b m' -> determinate rs cfg b -> distinct rs cfg b ->
  reader rd' -> ending_of rd' = None -> stand rd' = Pst (tokens inner) l ->
  exists f0, forall fuel', f0 <= fuel' -> exists evs', fst (parser_parse debug' g' fuel' m' rd') = Ok evs' /\
    map seen (solid evs') = map seen (solid (EvBegin d l b :: inner ++ [EvEnd d l2 b])).
Proof. exact part_pf. Qed.
Print Assumptions C107_part.

(** ** Lists *)
(** The rule is [{ item }]. *)
Definition lists (item : str) (r : rule) : Prop :=
  exists l1 l2, r_defs r = [[Term (Factor 1 (PRepeated l1 [[Term (Factor 1 (PMeta l2 item)) None]])) None]].
(** The parser finds these events for the text [w] at [l], if there is nothing else. *)
Definition alone_gives (g : graph) (m : machine) (l : location) (w : str) (es : list event) : Prop :=
  exists debug fuel rd, reader rd /\ ending_of rd = None /\ stand rd = Pst w l /\ fst (parser_parse debug g fuel m rd) = Ok es.

Lemma list_ahead : forall rs cfg lst r item l1 l2 w, names rs lst r ->
  r_defs r = [[Term (Factor 1 (PRepeated l1 [[Term (Factor 1 (PMeta l2 item)) None]])) None]] ->
  xlang rs cfg (NPrim (PRepeated l1 [[Term (Factor 1 (PMeta l2 item)) None]])) w ->
  ahead rs cfg lst (NPrim (PMeta l2 item)) w.
Proof.
  intros rs cfg lst r item l1 l2 w Hn E L.
  assert (A : ahead rs cfg lst (NPrim (PRepeated l1 [[Term (Factor 1 (PMeta l2 item)) None]])) []).
  { change (@nil N) with (@nil N ++ []). eapply ah_factor with (n := 1%N) (i := 0%N); [|reflexivity|constructor].
    eapply ah_term with (e := None). change (@nil N) with (@nil N ++ []). eapply ah_head with (ts := []); [|constructor].
    eapply ah_defs with (ds := r_defs r); [apply ah_start; exact Hn|]. rewrite E. now left. }
  pose proof (ah_repeated _ _ _ _ _ _ _ A L) as B. rewrite app_nil_r in B.
  change w with ([] ++ w). eapply ah_factor with (n := 1%N) (i := 0%N); [|reflexivity|constructor].
  eapply ah_term with (e := None). change w with ([] ++ w). eapply ah_head with (ts := []); [|constructor].
  eapply ah_defs; [exact B|]. now left.
Qed.
Lemma one_of_list : forall rs cfg l2 item ri s e s', names rs item ri -> xderives rs cfg (NDefs (r_defs ri)) s e s' ->
  xderives rs cfg (NDefs [[Term (Factor 1 (PMeta l2 item)) None]]) s (EvBegin l2 (p_at s) (r_id ri) :: e ++ [EvEnd l2 (p_at s') (r_id ri)]) s'.
Proof.
  intros rs cfg l2 item ri s e s' Hn H. eapply xd_defs; [now left|]. apply xderives_last, xd_term, xderives_once. econstructor; eassumption.
Qed.
Lemma list_derived : forall rs cfg g item mi lst r l1 l2, parser_for rs cfg g item mi -> names rs lst r ->
  r_defs r = [[Term (Factor 1 (PRepeated l1 [[Term (Factor 1 (PMeta l2 item)) None]])) None]] ->
  determinate rs cfg lst -> determinate rs cfg item -> Forall (fun r => tidy (NDefs (r_defs r))) rs ->
  tells_words cfg -> nesting_scanners cfg ->
  forall l ws ess, in_turn (alone_gives g mi) l ws ess -> (N.of_nat (length (concat ws)) <= max_count)%N ->
  forall t, p_rest t = concat ws -> p_at t = l ->
  exists e t', xderives rs cfg (NPrim (PRepeated l1 [[Term (Factor 1 (PMeta l2 item)) None]])) t e t' /\ p_rest t' = [] /\
    nested (concat ess) /\ map seen (solid e) = map seen (solid (concat ess)).
Proof.
  intros rs cfg g item mi lst r l1 l2 Hp Hn E Hd Hd' Ht Hw Hne l ws ess H.
  induction H as [l|l w lw ws es ess (debug & fuel & rd & Hr & He & Hs & H) Hl Hi IH]; intros Hlen t Hrest Hat.
  - exists [], t. split; [constructor|]. split; [exact Hrest|]. split; [constructor|reflexivity].
  - cbn [concat] in Hlen, Hrest. rewrite app_length in Hlen. set (t1 := Pst (concat ws) lw).
    assert (G : goes t w t1) by (split; [exact Hrest|rewrite Hat; exact Hl]).
    destruct (IH ltac:(lia) t1 eq_refl eq_refl) as (e2 & t' & D2 & R2 & N2 & S2).
    assert (Hlen' : (N.of_nat (length (unread rd)) <= max_count)%N).
    { change (unread rd) with (p_rest (stand rd)). rewrite Hs. cbn. lia. }
    destruct (events_pf _ _ _ _ _ _ _ _ _ Hp Hr Hd' Hlen' H) as (raw & s' & (ri & e0 & Hni & D0 & ->) & R0 & T). specialize (T Ht).
    destruct (xderives_xlang _ _ _ _ _ _ D0) as (w0 & G0 & _). destruct (xderives_xlang _ _ _ _ _ _ D2) as (w2 & G2 & L2).
    assert (w0 = w) as ->. { destruct G0 as (A & _). rewrite Hs, R0, app_nil_r in A. cbn in A. congruence. }
    assert (w2 = concat ws) as ->. { destruct G2 as (A & _). rewrite R2, app_nil_r in A. cbn in A. congruence. }
    assert (D1 : xderives rs cfg (NDefs (r_defs ri)) t e0 t1).
    { apply (carried rs cfg Hw lst (proj1 (proj2 Hd)) _ _ _ _ D0 _ _ w G0 G); [rewrite Hs; exact Hat|]. cbn.
      eapply ah_meta; [|exact Hni]. eapply list_ahead; eassumption. }
    exists ((EvBegin l2 (p_at t) (r_id ri) :: e0 ++ [EvEnd l2 (p_at t1) (r_id ri)]) ++ e2), t'.
    pose proof (xnested rs cfg Hne _ _ _ _ D0) as N0. pose proof (filter_nested _ N0) as NF.
    rewrite <- filter_positions, (filtered_raw _ _ _ _ _ _ _ N0) in T.
    assert (Nes : nested es) by (rewrite T; apply (ne_pair _ _ _ _ _ [] NF ne_nil)).
    split; [eapply xd_repeated; [apply one_of_list; eassumption|exact D2]|]. split; [exact R2|]. split; [cbn [concat]; apply nested_app; assumption|].
    cbn [concat]. rewrite (solid_app es _ Nes). rewrite (solid_app (EvBegin _ _ _ :: _)) by apply (ne_pair _ _ _ _ _ [] N0 ne_nil). rewrite !map_app. f_equal; [|exact S2].
    rewrite T, (solid_wrap _ _ _ _ (remove_pairs e0) e0 NF N0 (solid_remove _ _ (le_n _))). apply solid_seen. cbn. rewrite !map_app. cbn.
    change (ub_loc (mr_ub rd)) with (p_at (stand rd)). rewrite Hs. cbn [p_at]. rewrite Hat. destruct G0 as (_ & A). rewrite Hs in A. cbn in A.
    rewrite (reaches_unique _ _ _ _ A Hl). reflexivity.
Qed.
Lemma list_pf : forall rs cfg g lst m gi item mi r debug rd ws ess, parser_for rs cfg g lst m -> parser_for rs cfg gi item mi -> names rs lst r -> lists item r ->
  determinate rs cfg lst -> distinct rs cfg lst -> determinate rs cfg item -> Forall (fun r => tidy (NDefs (r_defs r))) rs ->
  tells_words cfg -> nesting_scanners cfg -> spelling_scanners cfg ->
  reader rd -> ending_of rd = None -> (N.of_nat (length (unread rd)) <= max_count)%N ->
  unread rd = concat ws -> in_turn (alone_gives gi mi) (p_at (stand rd)) ws ess ->
  exists f0 le, reaches (p_at (stand rd)) (unread rd) le /\ forall fuel, f0 <= fuel -> exists evs, fst (parser_parse debug g fuel m rd) = Ok evs /\
    map seen (solid evs) = map seen (solid (EvBegin (r_loc r) (p_at (stand rd)) (r_id r) :: concat ess ++ [EvEnd (r_loc r) le (r_id r)])).
Proof.
  intros rs cfg g lst m gi item mi r debug rd ws ess Hp Hpi Hnm (l1 & l2 & E) Hd Hx Hdi Ht Hw Hn Hsp Hr He Hlen Hu Hi.
  destruct (list_derived _ _ _ _ _ _ _ _ _ Hpi Hnm E Hd Hdi Ht Hw Hn _ _ _ Hi ltac:(rewrite <- Hu; exact Hlen) (stand rd) Hu eq_refl) as (e & t' & D & R & N & S).
  assert (A : xderivation rs cfg lst (stand rd) (EvBegin (r_loc r) (p_at (stand rd)) (r_id r) :: e ++ [EvEnd (r_loc r) (p_at t') (r_id r)]) t').
  { exists r, e. split; [exact Hnm|]. split; [|reflexivity]. rewrite E. eapply xd_defs; [now left|]. apply xderives_last, xd_term, xderives_once. exact D. }
  destruct (C84_exactly_the_language _ _ _ _ _ debug _ Hp Hr He Hd Hn Hlen) as (f0 & L). exists f0, (p_at t').
  split. { destruct (xderives_xlang _ _ _ _ _ _ D) as (w & (G1 & G2) & _). rewrite R, app_nil_r in G1. change (unread rd) with (p_rest (stand rd)). rewrite G1. exact G2. }
  intros fuel Hfu. destruct (L fuel Hfu) as [(evs & H & _)|(x & _ & H)]; [|exfalso; exact (H (text_derived _ _ _ _ _ _ A R))].
  exists evs. split; [exact H|]. destruct (C101_events _ _ _ _ _ _ _ _ _ Hp Hr Hd Hx Hn Hsp Hlen H) as (raw2 & s3 & _ & _ & U).
  destruct (U Ht) as (_ & V). rewrite (V _ _ A R). pose proof (xnested rs cfg Hn _ _ _ _ D) as N0.
  change (solid (EvBegin (r_loc r) (p_at (stand rd)) (r_id r) :: e ++ [EvEnd (r_loc r) (p_at t') (r_id r)]))
    with (solid_step (EvBegin (r_loc r) (p_at (stand rd)) (r_id r)) (solid (e ++ [EvEnd (r_loc r) (p_at t') (r_id r)]))).
  change (solid (EvBegin (r_loc r) (p_at (stand rd)) (r_id r) :: concat ess ++ [EvEnd (r_loc r) (p_at t') (r_id r)]))
    with (solid_step (EvBegin (r_loc r) (p_at (stand rd)) (r_id r)) (solid (concat ess ++ [EvEnd (r_loc r) (p_at t') (r_id r)]))).
  rewrite (solid_app _ _ N0), (solid_app _ _ N). cbn [solid fold_right]. fold (solid e). fold (solid (concat ess)).
  destruct (solid e) as [|x xs], (solid (concat ess)) as [|y ys]; try discriminate S; [reflexivity|].
  cbn [map] in S. injection S as S1 S2. cbn [app]. destruct x, y; try discriminate S1; cbn in *; rewrite ?map_app, ?S2; cbn; try (injection S1; intros; subst; reflexivity).
Qed.
(** A text made of texts of the item is a text of the list, and its events are those of the items
    one after the other (but for what is said above). *)
Theorem C107_list : forall rs cfg g lst m gi item mi r debug rd ws ess, parser_for rs cfg g lst m -> parser_for rs cfg gi item mi -> names rs lst r -> lists item r ->
  determinate rs cfg lst -> distinct rs cfg lst -> determinate rs cfg item -> Forall (fun r => tidy (NDefs (r_defs r))) rs ->
  tells_words cfg -> nesting_scanners cfg -> spelling_scanners cfg ->
  reader rd -> ending_of rd = None -> (N.of_nat (length (unread rd)) <= max_count)%N ->
  unread rd = concat ws -> in_turn (alone_gives gi mi) (p_at (stand rd)) ws ess ->
  exists f0 le, reaches (p_at (stand rd)) (unread rd) le /\ forall fuel, f0 <= fuel -> exists evs, fst (parser_parse debug g fuel m rd) = Ok evs /\
    map seen (solid evs) = map seen (solid (EvBegin (r_loc r) (p_at (stand rd)) (r_id r) :: concat ess ++ [EvEnd (r_loc r) le (r_id r)])).
Proof. exact list_pf. Qed.
Print Assumptions C107_list.

Lemma last_word : forall rs cfg t w, xlang rs cfg (NSeq [t]) w -> xlang rs cfg (NTerm t) w.
Proof. intros rs cfg t w H. inversion H as [| | | | | | | | | | | | | |t0 ts w1 w2 H1 H2|]; subst. inversion H2; subst. rewrite app_nil_r. exact H1. Qed.
Lemma once_word : forall rs cfg p w, xlang rs cfg (NTerm (Term (Factor 1 p) None)) w -> xlang rs cfg (NPrim p) w.
Proof.
  intros rs cfg p w H. inversion H as [| | | | | | | | | | |f0 w0 H0| | | |]; subst. inversion H0 as [| | | | | | | | | |n p0 w1 w2 H1 H2 E| | | | |]; subst.
  assert (n = 0%N) by lia. subst n. inversion H2 as [| | | | | | | | | |m p0 w3 w4 H3 H4 E2| | | | |]; subst; [rewrite app_nil_r; exact H1|lia].
Qed.
Lemma alone_word : forall rs cfg t w, xlang rs cfg (NDefs [[t]]) w -> xlang rs cfg (NTerm t) w.
Proof. intros rs cfg t w H. inversion H as [| | | | | | | | | | | | | | |ds d w0 Hi H0]; subst. destruct Hi as [<-|[]]. apply last_word. exact H0. Qed.
Lemma repeated_words : forall rs cfg l d w, xlang rs cfg (NPrim (PRepeated l d)) w -> exists ws, w = concat ws /\ Forall (xlang rs cfg (NDefs d)) ws.
Proof.
  intros rs cfg l d w H. remember (NPrim (PRepeated l d)) as n eqn:E. induction H; try discriminate E.
  - exists []. auto.
  - injection E as -> ->. destruct (IHxlang2 eq_refl) as (ws & -> & Hf). exists (w1 :: ws). auto.
Qed.
Lemma back_pf : forall rs cfg g lst m gi item mi r debug fuel rd evs, parser_for rs cfg g lst m -> parser_for rs cfg gi item mi -> names rs lst r -> lists item r ->
  determinate rs cfg lst -> determinate rs cfg item -> nesting_scanners cfg ->
  reader rd -> (N.of_nat (length (unread rd)) <= max_count)%N -> fst (parser_parse debug g fuel m rd) = Ok evs ->
  exists ws ess, unread rd = concat ws /\ in_turn (alone_gives gi mi) (p_at (stand rd)) ws ess.
Proof.
  intros rs cfg g lst m gi item mi r debug fuel rd evs Hp Hpi Hnm (l1 & l2 & E) Hd Hdi Hn Hr Hlen H.
  destruct (events_pf _ _ _ _ _ _ _ _ _ Hp Hr Hd Hlen H) as (raw & s' & D & R & _). destruct (text_derived _ _ _ _ _ _ D R) as (r' & Hnm' & L).
  rewrite (names_unique _ _ _ _ (parser_unique _ _ _ _ _ Hp) Hnm' Hnm), E in L. apply alone_word, once_word, repeated_words in L as (ws & Hws & Hf).
  change (p_rest (stand rd)) with (unread rd) in Hws. rewrite Hws in Hlen. clear - Hpi Hdi Hn Hlen Hf Hws.
  assert (K : forall l, exists ess, in_turn (alone_gives gi mi) l ws ess); [|destruct (K (p_at (stand rd))) as (ess & J); exists ws, ess; auto].
  clear Hws. revert Hlen. induction Hf as [|w ws Hw Hf IH]; intros Hlen l; [exists []; constructor|]. cbn [concat] in Hlen. rewrite app_length in Hlen.
  destruct (IH ltac:(lia) (loc_push_str l w)) as (ess & J).
  assert (T : text_of rs cfg item w).
  { apply alone_word, once_word in Hw. inversion Hw as [| | |l3 i3 r3 w3 H3 H4| | | | | | | | | | | |]; subst. exists r3. auto. }
  set (rd' := mr_of_text l w). assert (Hs : stand rd' = Pst w l) by (unfold stand, unread; cbn; rewrite app_nil_r; reflexivity).
  assert (Hu : unread rd' = w) by (change (unread rd') with (p_rest (stand rd')); rewrite Hs; reflexivity).
  destruct (C84_exactly_the_language _ _ _ _ _ true rd' Hpi (rd_new _ _ _) eq_refl Hdi Hn ltac:(rewrite Hu; lia)) as (f0 & L).
  destruct (L f0 (le_n _)) as [(es & H & _)|(x & _ & H)]; [|exfalso; apply H; rewrite Hu; exact T].
  exists (es :: ess). apply it_more with (loc_push_str l w); [|apply push_str_reaches|exact J].
  exists true, f0, rd'. split; [apply rd_new|]. split; [reflexivity|]. split; [exact Hs|exact H].
Qed.
(** And every text of the list is made of texts of the item. *)
Theorem C107_list_back : forall rs cfg g lst m gi item mi r debug fuel rd evs, parser_for rs cfg g lst m -> parser_for rs cfg gi item mi -> names rs lst r -> lists item r ->
  determinate rs cfg lst -> determinate rs cfg item -> nesting_scanners cfg ->
  reader rd -> (N.of_nat (length (unread rd)) <= max_count)%N -> fst (parser_parse debug g fuel m rd) = Ok evs ->
  exists ws ess, unread rd = concat ws /\ in_turn (alone_gives gi mi) (p_at (stand rd)) ws ess.
Proof. exact back_pf. Qed.
Print Assumptions C107_list_back.

(** Settings, one after the other: none of the choices has to be undone, in the list or in what it
    consists of. *)
Definition settings : str := txt "L={R};R=K,'=',{?c?-';'},';';K='size'|'side';".
Example C107_case : (forall id, In id [txt "L"; txt "R"; txt "K"] ->
    determinate (rules_of settings) each_config id /\ distinct (rules_of settings) each_config id) /\
  Forall (fun r => tidy (NDefs (r_defs r))) (rules_of settings) /\ tells_words each_config /\
  (exists r, names (rules_of settings) (txt "L") r /\ lists (txt "R") r).
Proof.
  split.
  - intros id Hi. assert (D : decided_ahead 4 all_chars (rules_of settings) 20 id = true) by (destruct Hi as [<-|[<-|[<-|[]]]]; vm_compute; reflexivity).
    split; [apply (C84_checked 4 all_chars 20)|apply (C101_checked 4 all_chars 20)]; try exact D; try apply (library_scanners _ each_library);
      intros l c rs many H; unfold each_config; rewrite H; reflexivity.
  - split; [apply C101_tidy_checked; vm_compute; reflexivity|]. split; [exact (C107_library _ each_library)|].
    exists (nth 0 (rules_of settings) (Rule (loc_new []) [] [])). split; [split; [left; vm_compute; reflexivity|apply same_name_keyed; vm_compute; reflexivity]|].
    exists (Loc [] 1 3), (Loc [] 1 4). vm_compute. reflexivity.
Qed.
(** Both settings by themselves, each where it stands, and the list of them: the list is parsed as
    the settings one after the other, and so is the part of the events that a setting encloses. *)
Definition first_setting : list event :=
  [bg 7 1 "R"; bg 9 1 "K"; tk 31 1 "size"; en 9 5 "K"; tk 11 5 "="; tk 16 6 "1"; tk 25 7 ";"; en 7 8 "R"].
Definition second_setting : list event :=
  [bg 7 8 "R"; bg 9 8 "K"; tk 38 8 "side"; en 9 12 "K"; tk 11 12 "="; tk 25 13 ";"; en 7 14 "R"].
Definition told_in (id : string) (l : location) (w : str) : option (res (list event)) := parse_case each_config settings (txt id) true 300 (mr_of_text l w).
Example C107_list_case :
  told_in "R" (loc_new []) (txt "size=1;") = Some (Ok first_setting) /\
  told_in "R" (Loc [] 1 8) (txt "side=;") = Some (Ok second_setting) /\
  exists evs, told_in "L" (loc_new []) (txt "size=1;side=;") = Some (Ok evs) /\
    map seen (solid evs) = map seen (solid (bg 1 1 "L" :: (first_setting ++ second_setting) ++ [en 1 14 "L"])) /\
    exists d inner, encloses d (Loc [] 1 8) (txt "K") inner (Loc [] 1 12) evs /\ tokens inner = txt "side".
Proof.
  split; [vm_compute; reflexivity|]. split; [vm_compute; reflexivity|].
  exists ([bg 1 1 "L"; bg 4 1 "R"; bg 9 1 "K"; tk 31 1 "size"; en 9 5 "K"; tk 11 5 "="; tk 16 6 "1"; tk 25 7 ";"; en 4 8 "R"] ++
          [bg 4 8 "R"; bg 9 8 "K"; tk 38 8 "side"; en 9 12 "K"; tk 11 12 "="; tk 25 13 ";"; en 4 14 "R"; en 1 14 "L"]).
  split; [vm_compute; reflexivity|]. split; [vm_compute; reflexivity|].
  exists (Loc [] 1 9), [tk 38 8 "side"]. split; [|vm_compute; reflexivity].
  assert (Nt : forall d c s, nested [tk d c s]) by (intros; repeat constructor).
  assert (N1 : nested [bg 9 1 "K"; tk 31 1 "size"; en 9 5 "K"; tk 11 5 "="; tk 16 6 "1"; tk 25 7 ";"]).
  { apply (ne_pair _ _ _ _ [tk 31 1 "size"]); [apply Nt|repeat constructor]. }
  assert (N2 : nested [bg 9 8 "K"; tk 38 8 "side"; en 9 12 "K"; tk 11 12 "="; tk 25 13 ";"]).
  { apply (ne_pair _ _ _ _ [tk 38 8 "side"]); [apply Nt|repeat constructor]. }
  assert (N3 : nested [bg 4 8 "R"; bg 9 8 "K"; tk 38 8 "side"; en 9 12 "K"; tk 11 12 "="; tk 25 13 ";"; en 4 14 "R"]).
  { apply (ne_pair _ _ _ _ [bg 9 8 "K"; tk 38 8 "side"; en 9 12 "K"; tk 11 12 "="; tk 25 13 ";"] []); [exact N2|constructor]. }
  set (inR := [bg 9 1 "K"; tk 31 1 "size"; en 9 5 "K"; tk 11 5 "="; tk 16 6 "1"; tk 25 7 ";"]) in *.
  set (inR2 := [bg 9 8 "K"; tk 38 8 "side"; en 9 12 "K"; tk 11 12 "="; tk 25 13 ";"]) in *.
  change (encloses (Loc [] 1 9) (Loc [] 1 8) (txt "K") [tk 38 8 "side"] (Loc [] 1 12)
    (bg 1 1 "L" :: (bg 4 1 "R" :: inR ++ en 4 8 "R" :: (bg 4 8 "R" :: inR2 ++ [en 4 14 "R"])) ++ en 1 14 "L" :: [])).
  apply en_inside; [|apply ne_pair; assumption|constructor].
  apply en_behind; [|exact N1|exact N3]. apply en_inside; [|exact N2|constructor].
  refine (en_here (Loc [] 1 9) (Loc [] 1 8) (txt "K") [tk 38 8 "side"] (Loc [] 1 12) [tk 11 12 "="; tk 25 13 ";"] _ _); repeat constructor.
Qed.
(** Where choices are undone, the text of a part may be parsed differently by itself: here [X] takes
    all letters, and is given up if that makes 'aa'. *)
Definition run_config : config := fun _ c => if str_eqb c (txt "run") then ScChars (fun x => N.eqb x 97) (Some 1%N) None else ScDefault c.
Example C107_condition_needed : exists ebnf part evs evs', ebnf = txt "S=R,'a';R=X-'aa'|'a';X=?run?;" /\
  parse_case run_config ebnf (txt "S") true 300 (text_reader (txt "aa")) = Some (Ok evs) /\
  encloses (Loc [] 1 3) (loc_new []) (txt "R") part (Loc [] 1 2) evs /\ tokens part = txt "a" /\
  parse_case run_config ebnf (txt "R") true 300 (text_reader (txt "a")) = Some (Ok evs') /\
  map seen (solid evs') <> map seen (solid (bg 3 1 "R" :: part ++ [en 3 2 "R"])).
Proof.
  exists (txt "S=R,'a';R=X-'aa'|'a';X=?run?;"), [tk 18 1 "a"], [bg 1 1 "S"; bg 3 1 "R"; tk 18 1 "a"; en 3 2 "R"; tk 5 2 "a"; en 1 3 "S"],
    [bg 9 1 "R"; bg 11 1 "X"; tk 24 1 "a"; en 11 2 "X"; en 9 2 "R"].
  split; [reflexivity|]. split; [vm_compute; reflexivity|]. split.
  - refine (en_inside (Loc [] 1 3) (loc_new []) (txt "R") [tk 18 1 "a"] (Loc [] 1 2) (loc_new []) (loc_new []) (txt "S") [bg 3 1 "R"; tk 18 1 "a"; en 3 2 "R"; tk 5 2 "a"] (Loc [] 1 3) [] _ _ _); [|apply (ne_pair _ _ _ _ [tk 18 1 "a"]); repeat constructor|constructor].
    refine (en_here (Loc [] 1 3) (loc_new []) (txt "R") [tk 18 1 "a"] (Loc [] 1 2) [tk 5 2 "a"] _ _); repeat constructor.
  - split; [reflexivity|]. split; [vm_compute; reflexivity|vm_compute; discriminate].
Qed.
