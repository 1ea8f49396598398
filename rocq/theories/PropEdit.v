(** Property C108: a part of a text may be exchanged for another text of its rule, and the events
    change there only.  For rules whose choices never have to be undone (C84).

    [around], [said], [says_words] and [free_references] are in SpecEdit.v, [determinate] in
    SpecExact.v, [distinct] in SpecOnly.v, [solid] in SpecDeriv.v. *)
From Coq Require Import String List NArith Arith Bool Lia.
From Verif Require Import Base Ident Tokenizer Ast Lex Syntax Io Graph Machine SpecText SpecSyntax SpecIo TextFacts SyntaxFacts IoFacts SpecParse SpecMachine SpecEvents SpecTotal SpecLL SpecExact SpecDeriv SpecOnly Pure ParseFacts CodeFacts EvFacts EventFacts MachineFacts LangFacts TotalFacts LLFacts LLCheck ExactFacts ExactUse ExactCheck DerivFacts OnlyFacts TidyCheck PropSyntax PropParse PropEvents PropTotal PropLL PropDeriv PropExact PropOnly SpecGrow GrowFacts PropGrow SpecPart PartFacts PropPart SpecEdit EditFacts.
Import ListNotations.
Open Scope nat_scope.

(** The scanners of the library say words. *)
Lemma library_says_pf : forall cfg, library_config cfg -> says_words cfg.
Proof.
  intros cfg Hl. split; [exact (proj1 (C107_library cfg Hl))|].
  intros l c s s' e t t' e' w H K G G'. specialize (Hl l c). destruct (cfg l c) as [x|pred min max|re find|sym prog]; [| | |destruct Hl].
  - inversion H; inversion K; subst. reflexivity.
  - inversion H as [|p1 m1 x1 d1 s1 w1 s1' R1| | | | |]; inversion K as [|p2 m2 x2 d2 s2 w2 s2' R2| | | | |]; subst.
    rewrite (goes_word _ _ _ _ (proj1 R1) G), (goes_word _ _ _ _ (proj1 R2) G'). reflexivity.
  - inversion H as [| | |a1 b1 c1 d1 n1 f1 g1 R1| | |]; inversion K as [| | |a2 b2 c2 d2 n2 f2 g2 R2| | |]; subst.
    rewrite (goes_word _ _ _ _ R1 G), (goes_word _ _ _ _ R2 G'). reflexivity.
Qed.
Theorem C108_library : forall cfg, library_config cfg -> says_words cfg.
Proof. exact library_says_pf. Qed.
Print Assumptions C108_library.

Lemma solid_said : forall a b, map said a = map said b -> map said (solid a) = map said (solid b).
Proof.
  unfold solid. induction a as [|x a IH]; intros [|y b] H; try discriminate; [reflexivity|]. cbn [map] in H. injection H as Hxy Hab.
  specialize (IH _ Hab). cbn [fold_right]. destruct (fold_right solid_step [] a) as [|p a'], (fold_right solid_step [] b) as [|q b']; try discriminate IH;
    destruct x as [? ? [|]| |], y as [? ? [|]| |]; try discriminate Hxy; cbn in *; try congruence; injection IH as Hpq Hr;
    destruct p, q; try discriminate Hpq; cbn in *; congruence.
Qed.
Lemma solid_room : forall a y y' z, nested y -> nested y' -> solid y = solid y' -> solid (a ++ y ++ z) = solid (a ++ y' ++ z).
Proof.
  intros a y y' z H H' E. assert (K : forall x, solid (a ++ x) = fold_right solid_step (solid x) a) by (intros x; apply fold_right_app).
  rewrite !K, (solid_app _ _ H), (solid_app _ _ H'), E. reflexivity.
Qed.
Lemma edit_pf : forall rs cfg g id m debug fuel rd evs a z d l b inner l2 g' m' debug' fuel' rd' evs',
  parser_for rs cfg g id m -> determinate rs cfg id -> distinct rs cfg id -> Forall (fun r => tidy (NDefs (r_defs r))) rs ->
  free_references rs -> says_words cfg -> nesting_scanners cfg -> spelling_scanners cfg ->
  reader rd -> (N.of_nat (length (unread rd)) <= max_count)%N -> fst (parser_parse debug g fuel m rd) = Ok evs ->
  evs = a ++ (EvBegin d l b :: inner ++ [EvEnd d l2 b]) ++ z -> around a z -> nested inner -> a <> [] ->
  parser_for rs cfg g' b m' -> determinate rs cfg b ->
  reader rd' -> (N.of_nat (length (unread rd')) <= max_count)%N -> fst (parser_parse debug' g' fuel' m' rd') = Ok evs' ->
  exists u v, unread rd = u ++ tokens inner ++ v /\ reaches (p_at (stand rd)) u l /\
    forall debug2 rd2, reader rd2 -> ending_of rd2 = None -> unread rd2 = u ++ unread rd' ++ v -> (N.of_nat (length (unread rd2)) <= max_count)%N ->
    exists f0, forall fuel2, f0 <= fuel2 -> exists evs2, fst (parser_parse debug2 g fuel2 m rd2) = Ok evs2 /\
      map said (solid evs2) = map said (solid (a ++ evs' ++ z)).
Proof.
  intros rs cfg g id m debug fuel rd evs a z d l b inner l2 g' m' debug' fuel' rd' evs' Hp Hd Hx Ht Hfree Hsay Hn Hsp Hr Hlen H Eev Har Hin Ha Hp' Hd' Hr' Hlen' H'.
  destruct (events_pf _ _ _ _ _ _ _ _ _ Hp Hr Hd Hlen H) as (raw & s' & (r0 & e0 & Hn0 & D0 & ->) & R0 & T). specialize (T Ht).
  pose proof (xnested rs cfg Hn _ _ _ _ D0) as Ne0. rewrite <- filter_positions, (filtered_raw _ _ _ _ _ _ _ Ne0) in T.
  change (EvBegin d l b :: inner ++ [EvEnd d l2 b]) with (block d l b inner l2) in Eev. rewrite T in Eev.
  destruct (around_pair _ _ _ _ _ _ _ Har Hin _ _ _ _ _ _ (filter_nested _ Ne0) (eq_sym Eev)) as [(-> & _)|[(a' & z' & -> & -> & F & K)|(a' & _ & F & K)]];
    [destruct (Ha eq_refl)| |exfalso; destruct K; discriminate F].
  destruct (around_filtered _ _ _ _ _ Hin _ Ne0 _ _ K F) as (a0 & z0 & i0 & -> & K1 & K2 & -> & K4).
  destruct (all_edits rs cfg Hsay Hn id (proj1 (proj2 Hd)) Hfree _ _ _ _ D0 ltac:(exists r0; split; [exact (proj1 Hn0)|apply us_self]) _ _ _ _ _ _ _ K1 K2 eq_refl)
    as (r & s1 & s2 & u & v & J1 & -> & -> & -> & J5 & J6 & J7 & J8).
  pose proof (trail_tokens _ _ _ (derives_trail rs cfg Hsp _ _ _ _ (xderives_derives _ _ _ _ _ _ J5))) as G5.
  rewrite (tokens_remove _ _ (le_n _)). exists u, v. split.
  { destruct J6 as (A1 & _), G5 as (A2 & _), J7 as (A3 & _). change (unread rd) with (p_rest (stand rd)). rewrite A1, A2, A3, R0, app_nil_r. reflexivity. }
  split; [exact (proj2 J6)|]. intros debug2 rd2 Hr2 He2 Hu2 Hlen2.
  destruct (events_pf _ _ _ _ _ _ _ _ _ Hp' Hr' Hd' Hlen' H') as (raw' & s3 & (r' & e' & Hnr & D' & ->) & R3 & T'). specialize (T' Ht).
  pose proof (names_unique _ _ _ _ (parser_unique _ _ _ _ _ Hp) Hnr (keyed_self _ _ J1)) as ->.
  pose proof (xnested rs cfg Hn _ _ _ _ D') as Ne'. rewrite <- filter_positions, (filtered_raw _ _ _ _ _ _ _ Ne') in T'.
  destruct (xderives_xlang _ _ _ _ _ _ D') as (w' & G' & L'). assert (w' = unread rd') as ->. { destruct G' as (A & _). rewrite R3, app_nil_r in A. exact (eq_sym A). }
  destruct (J8 _ L') as (X & Y). set (t' := Pst [] (loc_push_str (p_at (stand rd2)) (unread rd2))).
  assert (G2 : goes (stand rd2) (u ++ unread rd' ++ v) t') by (rewrite <- Hu2; split; [cbn; symmetry; apply app_nil_r|apply push_str_reaches]).
  destruct (Y (map said e') (stand rd2) t') as (e2 & D2 & S2); [|exact G2|cbn; apply ah_start; exact Hn0|].
  { intros t1 t2 G A. exact (moved_said rs cfg Hsay id (proj1 (proj2 Hd)) _ _ _ _ D' _ _ _ G' G A). }
  set (raw2 := EvBegin (r_loc r0) (p_at (stand rd2)) (r_id r0) :: e2 ++ [EvEnd (r_loc r0) (p_at t') (r_id r0)]).
  assert (A : xderivation rs cfg id (stand rd2) raw2 t') by (exists r0, e2; split; [exact Hn0|]; split; [exact D2|reflexivity]).
  destruct (C84_exactly_the_language _ _ _ _ _ debug2 _ Hp Hr2 He2 Hd Hn Hlen2) as (f0 & L). exists f0. intros fuel2 Hfu.
  destruct (L fuel2 Hfu) as [(evs2 & H2 & _)|(e & _ & H2)]; [|exfalso; exact (H2 (text_derived _ _ _ _ _ _ A eq_refl))].
  exists evs2. split; [exact H2|]. destruct (C101_events _ _ _ _ _ _ _ _ _ Hp Hr2 Hd Hx Hn Hsp Hlen2 H2) as (raw3 & s4 & _ & _ & U).
  destruct (U Ht) as (_ & V). rewrite (V _ _ A eq_refl). clear V U L.
  set (y0 := block (r_loc r) (p_at (stand rd')) (r_id r) e' (p_at s3)). set (B0 := EvBegin (r_loc r0) (p_at (stand rd)) (r_id r0)) in *. set (E0 := EvEnd (r_loc r0) (p_at s') (r_id r0)) in *.
  assert (Ny0 : nested y0) by (apply block_nested; exact Ne').
  assert (Ny : nested evs') by (rewrite T'; apply (block_nested _ _ _ _ _ (filter_nested _ Ne'))).
  assert (Ey : solid y0 = solid evs') by (rewrite T'; apply solid_wrap; [exact Ne'|apply filter_nested; exact Ne'|symmetry; apply (solid_remove _ _ (le_n _))]).
  transitivity (map said (solid (B0 :: (a0 ++ y0 ++ z0) ++ E0 :: []))).
  - apply solid_said. unfold raw2, B0, E0, y0, block. cbn [map said]. rewrite !map_app, S2. cbn [map said app]. rewrite !map_app. cbn [map said app]. rewrite <- !app_assoc. cbn [app]. rewrite <- ?app_assoc. reflexivity.
  - f_equal. replace ((B0 :: a') ++ evs' ++ z' ++ [E0]) with (B0 :: (a' ++ evs' ++ z') ++ E0 :: []) by (cbn [app]; rewrite <- !app_assoc; reflexivity).
    unfold B0, E0. rewrite !solid_pair by (apply around_nested; assumption). rewrite (K4 _ Ny0), (solid_room a' y0 evs' z' Ny0 Ny Ey). reflexivity.
Qed.
(** In a text that was accepted, what a rule encloses is replaced by another text that its parser
    accepts: the whole is accepted, and in its events the part is replaced by the events of the
    other text (but for locations, tokens without text and rules without tokens). *)
Theorem C108_edit : forall rs cfg g id m debug fuel rd evs a z d l b inner l2 g' m' debug' fuel' rd' evs',
  parser_for rs cfg g id m -> determinate rs cfg id -> distinct rs cfg id -> Forall (fun r => tidy (NDefs (r_defs r))) rs ->
  free_references rs -> says_words cfg -> nesting_scanners cfg -> spelling_scanners cfg ->
  reader rd -> (N.of_nat (length (unread rd)) <= max_count)%N -> fst (parser_parse debug g fuel m rd) = Ok evs ->
  evs = a ++ (EvBegin d l b :: inner ++ [EvEnd d l2 b]) ++ z -> around a z -> nested inner -> a <> [] ->
  parser_for rs cfg g' b m' -> determinate rs cfg b ->
  reader rd' -> (N.of_nat (length (unread rd')) <= max_count)%N -> fst (parser_parse debug' g' fuel' m' rd') = Ok evs' ->
  exists u v, unread rd = u ++ tokens inner ++ v /\ reaches (p_at (stand rd)) u l /\
    forall debug2 rd2, reader rd2 -> ending_of rd2 = None -> unread rd2 = u ++ unread rd' ++ v -> (N.of_nat (length (unread rd2)) <= max_count)%N ->
    exists f0, forall fuel2, f0 <= fuel2 -> exists evs2, fst (parser_parse debug2 g fuel2 m rd2) = Ok evs2 /\
      map said (solid evs2) = map said (solid (a ++ evs' ++ z)).
Proof. exact edit_pf. Qed.
Print Assumptions C108_edit.

(** Whether nothing is taken away from what refers to rules can be computed. *)
Definition node_no_meta (n : node) : bool :=
  match n with
  | NDefs d => forallb (forallb no_meta_term) d | NSeq ts => forallb no_meta_term ts | NTerm t => no_meta_term t
  | NFactor (Factor _ p) | NPrim p => no_meta p | _ => true
  end.
Definition node_free (n : node) : bool :=
  match n with
  | NDefs d => forallb (forallb free_term) d | NSeq ts => forallb free_term ts | NTerm t => free_term t
  | NFactor (Factor _ p) | NPrim p => free_prim p | _ => true
  end.
Lemma no_meta_down : forall rs n m, node_no_meta n = true -> SpecExact.uses rs n m -> node_no_meta m = true.
Proof.
  intros rs n m H K. induction K as [|l id r K IH Hn|ds d K IH Hi|t ts K IH|t ts K IH|[i p] e K IH|[i p] [j q] K IH|k p K IH|l d K IH|l d K IH|l d K IH]; cbn in *;
    try exact H; try exact IH; try discriminate; try (apply andb_true_iff in IH as (A & B); assumption).
  - rewrite forallb_forall in IH. exact (IH _ Hi).
Qed.
Lemma free_down : forall rs n m, references_free rs = true -> node_free n = true -> SpecExact.uses rs n m -> node_free m = true.
Proof.
  intros rs n m Hr H K. induction K as [|l id r K IH Hn|ds d K IH Hi|t ts K IH|t ts K IH|[i p] e K IH|[i p] [j q] K IH|k p K IH|l d K IH|l d K IH|l d K IH]; cbn in *;
    try exact H; try exact IH; try (apply andb_true_iff in IH as (A & B); try assumption).
  - unfold references_free in Hr. rewrite forallb_forall in Hr. exact (Hr _ (proj1 Hn)).
  - rewrite forallb_forall in IH. exact (IH _ Hi).
  - apply andb_true_iff in B as (_ & B). exact B.
Qed.
Lemma checked_pf : forall rs, references_free rs = true -> free_references rs.
Proof.
  intros rs Hr [i p] [j q] l id (r & Hi & U) K.
  assert (F : node_free (NTerm (Term (Factor i p) (Some (Factor j q)))) = true).
  { eapply free_down; [exact Hr| |exact U]. unfold references_free in Hr. rewrite forallb_forall in Hr. exact (Hr _ Hi). }
  cbn in F. apply andb_true_iff in F as (_ & F). apply andb_true_iff in F as (F & _).
  pose proof (no_meta_down rs (NFactor (Factor i p)) _ F K) as N. discriminate N.
Qed.
Theorem C108_checked : forall rs, references_free rs = true -> free_references rs.
Proof. exact checked_pf. Qed.
Print Assumptions C108_checked.

(** The settings of PropPart.v: the value is taken from all characters but the semicolon, which
    refers to no rule.  In the second setting the name is exchanged; all that changes are its
    events, and locations. *)
Definition before_name : list event :=
  [bg 1 1 "L"; bg 4 1 "R"; bg 9 1 "K"; tk 31 1 "size"; en 9 5 "K"; tk 11 5 "="; tk 16 6 "1"; tk 25 7 ";"; en 4 8 "R"; bg 4 8 "R"].
Definition behind_name : list event := [tk 11 12 "="; tk 25 13 ";"; en 4 14 "R"; en 1 14 "L"].
Example C108_case : free_references (rules_of settings) /\ says_words each_config /\ around before_name behind_name /\
  told_in "L" (loc_new []) (txt "size=1;side=;") = Some (Ok (before_name ++ (bg 9 8 "K" :: [tk 38 8 "side"] ++ [en 9 12 "K"]) ++ behind_name)) /\
  exists evs' evs2, told_in "K" (loc_new []) (txt "size") = Some (Ok evs') /\
    told_in "L" (loc_new []) (txt "size=1;size=;") = Some (Ok evs2) /\ map said evs2 = map said (before_name ++ evs' ++ behind_name).
Proof.
  split; [apply C108_checked; vm_compute; reflexivity|]. split; [exact (C108_library _ each_library)|]. split.
  - refine (ar_inside (loc_new []) (loc_new []) (txt "L") (List.tl before_name) [tk 11 12 "="; tk 25 13 ";"; en 4 14 "R"] (Loc [] 1 14) [] _ _); [|constructor].
    refine (ar_behind (Loc [] 1 4) (loc_new []) (txt "R") [bg 9 1 "K"; tk 31 1 "size"; en 9 5 "K"; tk 11 5 "="; tk 16 6 "1"; tk 25 7 ";"] (Loc [] 1 8) [bg 4 8 "R"] _ _ _).
    + apply (ne_pair _ _ _ _ [tk 31 1 "size"]); repeat constructor.
    + refine (ar_inside (Loc [] 1 4) (Loc [] 1 8) (txt "R") [] [tk 11 12 "="; tk 25 13 ";"] (Loc [] 1 14) [] _ _); [|constructor]. apply ar_here. repeat constructor.
  - split; [vm_compute; reflexivity|]. eexists. eexists. split; [vm_compute; reflexivity|]. split; vm_compute; reflexivity.
Qed.
(** The condition on exceptions is needed: what takes the place of a part may be what is taken away
    around it. *)
Example C108_condition_needed : exists ebnf, ebnf = txt "S=(R-'no');R='yes'|'no';" /\
  (forall id, In id [txt "S"; txt "R"] -> determinate (rules_of ebnf) default_config id) /\ references_free (rules_of ebnf) = false /\
  (exists evs, parse_case default_config ebnf (txt "S") true 300 (text_reader (txt "yes")) = Some (Ok evs)) /\
  (exists evs, parse_case default_config ebnf (txt "R") true 300 (text_reader (txt "no")) = Some (Ok evs)) /\
  (exists e, parse_case default_config ebnf (txt "S") true 300 (text_reader (txt "no")) = Some (Err e)).
Proof.
  exists (txt "S=(R-'no');R='yes'|'no';"). split; [reflexivity|]. split.
  - intros id Hi. apply (C84_checked 3 (fun _ => None) 20); [destruct Hi as [<-|[<-|[]]]; vm_compute; reflexivity|discriminate|apply (library_scanners _ (proj2 library_case))].
  - split; [vm_compute; reflexivity|]. split; [|split]; eexists; vm_compute; reflexivity.
Qed.
