(** Proofs about laws of the notation: chains of rewriting, and cutting. *)
From Coq Require Import String List NArith Arith Bool Lia Relations.
From Verif Require Import Base Ident Tokenizer Ast Lex Syntax Io Graph Machine SpecText SpecSyntax SpecIo TextFacts SyntaxFacts IoFacts SpecGram SpecParse SpecMachine SpecEvents SpecLaws Pure ParseFacts CodeFacts EvFacts MachineFacts FuelFacts EventFacts LawFacts LawUse.
Import ListNotations.
Open Scope nat_scope.

(** ** The names stay *)
Lemma step_names : forall law rs rs', rewrites_rules law rs rs' -> map r_id rs = map r_id rs'.
Proof. intros law rs rs' (b & l & id & d & d' & a & -> & -> & _). rewrite !map_app. reflexivity. Qed.
Lemma chain_names : forall law rs rs', rewritten law rs rs' -> map r_id rs = map r_id rs'.
Proof. intros law rs rs' H. induction H; [eapply step_names; eassumption|reflexivity|congruence]. Qed.
Lemma nth_names : forall rs rs' i r', map r_id rs = map r_id rs' -> nth_error rs' i = Some r' -> exists r, nth_error rs i = Some r /\ r_id r = r_id r'.
Proof.
  intros rs rs' i r' E H. pose proof (map_nth_error r_id _ _ H) as K. rewrite <- E in K.
  rewrite nth_error_map in K. destruct (nth_error rs i) as [r|]; [|discriminate]. exists r. split; [reflexivity|]. cbn in K. congruence.
Qed.
Lemma names_no_repeat : forall rs rs', map r_id rs = map r_id rs' -> no_repeat rs -> no_repeat rs'.
Proof.
  intros rs rs' E H i j r d (Hlt & Hi & Hj & Hs). destruct (nth_names _ _ _ _ E Hi) as (r1 & A & A'). destruct (nth_names _ _ _ _ E Hj) as (d1 & B & B').
  apply (H i j r1 d1). split; [exact Hlt|]. split; [exact A|]. split; [exact B|]. rewrite A', B'. exact Hs.
Qed.
Lemma names_no_dollar : forall rs rs', map r_id rs = map r_id rs' -> no_dollar rs -> no_dollar rs'.
Proof.
  intros rs rs' E H r w Hin. apply (in_map r_id) in Hin. rewrite <- E in Hin. apply in_map_iff in Hin as (r1 & <- & Hin). apply H. exact Hin.
Qed.

(** ** Chains *)
Lemma law_shape : forall n n', law n n' ->
  match n, n' with
  | NPrim p, NPrim p' => ~ grouped p /\ ~ grouped p'
  | NTerm t, NTerm t' => bare_group t = None /\ bare_group t' = None
  | _, _ => True
  end.
Proof.
  intros n n' H. destruct H as [l d ts|l ts|l ts|p ts|l d|l d a b Hd Hab|ts a b c Hne|l a b Ha|l l' d|l p n x Hnx|l p n f]; try exact I.
  - split; intros (a & b & K); discriminate.
  - split.
    + cbn. destruct x; [reflexivity|]. destruct (N.eqb_spec n 1); [subst; destruct Hnx; congruence|reflexivity].
    + cbn. destruct p; try reflexivity. destruct x; [reflexivity|]. destruct (N.eqb_spec n 1); [subst; destruct Hnx; congruence|reflexivity].
  - destruct f as [m q]. split; cbn; destruct q; reflexivity.
Qed.
Lemma loose_shape : forall n n', loose_law n n' ->
  match n, n' with
  | NPrim p, NPrim p' => ~ grouped p /\ ~ grouped p'
  | NTerm t, NTerm t' => bare_group t = None /\ bare_group t' = None
  | _, _ => True
  end.
Proof.
  intros n n' H. destruct H as [n n' H|n m p ts Hn Hm Hnm Hg|l l' l2 d Hd|l l' d Hd]; try exact I.
  - apply law_shape. exact H.
  - split; intros (a & b & K); discriminate.
Qed.
Section Chain.
Variable cfg : config.
Lemma means_law : forall rs rs', rewritten law rs rs' -> no_repeat rs -> no_dollar rs -> forall id s o, means rs cfg id s o ->
  exists o', means rs' cfg id s o' /\ same_outcome eq o o'.
Proof.
  intros rs rs' H. induction H as [rs rs' H|rs|rs rs1 rs2 H1 IH1 H2 IH2]; intros Hn Hd id s o Ho.
  - pose proof (step_names _ _ _ H) as E.
    refine (sim_means rs rs' cfg eq (lw law) _ _ _ _ (rules_sim law law_shape rs rs' H) id s o Ho).
    + reflexivity.
    + intros; congruence.
    + intros; congruence.
    + intros n n' s0 o0 [K|K] Hev; destruct (law_ok rs' cfg (names_no_repeat _ _ E Hn) (names_no_dollar _ _ E Hd) _ _ K) as (G & B); auto.
  - exists o. split; [exact Ho|]. apply so_refl. reflexivity.
  - destruct (IH1 Hn Hd id s o Ho) as (o1 & M1 & S1). pose proof (chain_names _ _ _ H1) as E.
    destruct (IH2 (names_no_repeat _ _ E Hn) (names_no_dollar _ _ E Hd) id s o1 M1) as (o2 & M2 & S2). exists o2. split; [exact M2|].
    eapply so_trans; [|exact S1|exact S2]. intros; congruence.
Qed.
Lemma means_loose : forall rs rs', rewritten loose_law rs rs' -> no_repeat rs -> no_dollar rs -> forall id s o, means rs cfg id s o ->
  exists o', means rs' cfg id s o' /\ same_outcome whatever o o'.
Proof.
  intros rs rs' H. induction H as [rs rs' H|rs|rs rs1 rs2 H1 IH1 H2 IH2]; intros Hn Hd id s o Ho.
  - pose proof (step_names _ _ _ H) as E.
    refine (sim_means rs rs' cfg whatever (lw loose_law) _ _ _ _ (rules_sim loose_law loose_shape rs rs' H) id s o Ho).
    + intros; exact I.
    + intros; exact I.
    + intros; exact I.
    + intros n n' s0 o0 [K|K] Hev; destruct (loose_ok rs' cfg (names_no_repeat _ _ E Hn) (names_no_dollar _ _ E Hd) _ _ K) as (G & B); auto.
  - exists o. split; [exact Ho|]. apply so_refl. intros; exact I.
  - destruct (IH1 Hn Hd id s o Ho) as (o1 & M1 & S1). pose proof (chain_names _ _ _ H1) as E.
    destruct (IH2 (names_no_repeat _ _ E Hn) (names_no_dollar _ _ E Hd) id s o1 M1) as (o2 & M2 & S2). exists o2. split; [exact M2|].
    eapply so_trans; [|exact S1|exact S2]. intros; exact I.
Qed.
End Chain.

(** ** Parses *)
Lemma parse_law : forall rs rs' cfg g g' id m m' debug fuel rd, rewritten law rs rs' ->
  parser_for rs cfg g id m -> parser_for rs' cfg g' id m' -> reader rd -> ending_of rd = None ->
  fst (parser_parse debug g fuel m rd) <> OutOfFuel ->
  exists f0, forall fuel', f0 <= fuel' -> agrees (fst (parser_parse debug g fuel m rd)) (fst (parser_parse debug g' fuel' m' rd)).
Proof.
  intros rs rs' cfg g g' id m m' debug fuel rd H Hp Hp' Hr He Hf.
  refine (parse_sim rs rs' cfg eq id (means_law cfg rs rs' H (parser_unique _ _ _ _ _ Hp) (proj1 (proj2 Hp)) id) debug _ _ g g' m m' fuel rd Hp Hp' Hr He Hf).
  - intros; congruence.
  - intros; congruence.
Qed.
Lemma means_labels : forall rs cfg id s s' a, nesting_scanners cfg -> means rs cfg id s (Match s' a) -> removed_labels_agree (List.tl a) = true.
Proof.
  intros rs cfg id s s' a Hn (r & _ & Hev). inversion Hev; subst.
  match goal with K : ev _ _ (NDefs _) _ _ |- _ => pose proof (ev_nested rs cfg Hn _ _ _ K) as N end. cbn in N.
  cbn [app List.tl]. rewrite labels_app by exact N. reflexivity.
Qed.
Lemma parse_loose : forall rs rs' cfg g g' id m m' debug fuel rd, rewritten loose_law rs rs' ->
  (debug = true -> nesting_scanners cfg) ->
  parser_for rs cfg g id m -> parser_for rs' cfg g' id m' -> reader rd -> ending_of rd = None ->
  fst (parser_parse debug g fuel m rd) <> OutOfFuel ->
  exists f0, forall fuel', f0 <= fuel' -> accepts_alike (fst (parser_parse debug g fuel m rd)) (fst (parser_parse debug g' fuel' m' rd)).
Proof.
  intros rs rs' cfg g g' id m m' debug fuel rd H Hn Hp Hp' Hr He Hf.
  refine (parse_sim rs rs' cfg whatever id (means_loose cfg rs rs' H (parser_unique _ _ _ _ _ Hp) (proj1 (proj2 Hp)) id) debug _ _ g g' m m' fuel rd Hp Hp' Hr He Hf).
  - intros; exact I.
  - intros s s' a b D M1 M2 _. rewrite (means_labels _ _ _ _ _ _ (Hn D) M1), (means_labels _ _ _ _ _ _ (Hn D) M2). reflexivity.
Qed.

(** ** Cutting is rewriting *)
Section Stars.
Variable law : node -> node -> Prop.
Definition star {A} (f : A -> node) : A -> A -> Prop := clos_refl_trans A (fun x y => rewrites law (f x) (f y)).
Lemma star_map : forall A B (f : A -> node) (g : B -> node) (h : A -> B), (forall x y, rewrites law (f x) (f y) -> rewrites law (g (h x)) (g (h y))) ->
  forall x y, star f x y -> star g (h x) (h y).
Proof.
  intros A B f g h H x y K. induction K as [x y K|x|x y z K1 IH1 K2 IH2]; [apply rt_step, H, K|apply rt_refl|eapply rt_trans; eassumption].
Qed.
Lemma star_defs : forall d d', Forall2 (star NSeq) d d' -> forall a, star NDefs (a ++ d) (a ++ d').
Proof.
  intros d d' H. induction H as [|x y d d' Hxy H IH]; intros a; [apply rt_refl|]. eapply rt_trans.
  - apply (star_map _ _ NSeq NDefs (fun z => a ++ [z] ++ d)) with (2 := Hxy). intros u v K. apply rw_alternative. exact K.
  - specialize (IH (a ++ [y])). rewrite <- !app_assoc in IH. exact IH.
Qed.
Definition star_rules : list rule -> list rule -> Prop := rewritten law.
Lemma star_rule : forall b l id d d' a, star NDefs d d' -> rewritten law (b ++ Rule l id d :: a) (b ++ Rule l id d' :: a).
Proof.
  intros b l id d d' a K. induction K as [x y K|x|x y z K1 IH1 K2 IH2]; [|apply rt_refl|eapply rt_trans; eassumption].
  apply rt_step. exists b, l, id, x, y, a. auto.
Qed.
End Stars.

Lemma cut_optional : forall l d, cut (POptional l d) = POptional l (map cut_seq d).
Proof. reflexivity. Qed.
Lemma cut_repeated : forall l d, cut (PRepeated l d) = PRepeated l (map cut_seq d).
Proof. reflexivity. Qed.
Lemma cut_grouped : forall l d, cut (PGrouped l d) = PGrouped l (map cut_seq d).
Proof. reflexivity. Qed.
Lemma bare_just : forall t d, bare_group t = Some d -> exists l, t = just (PGrouped l d).
Proof.
  intros [[n p] x] d H. destruct p; try discriminate. cbn in H. destruct x; [discriminate|].
  destruct (N.eqb_spec n 1); [|discriminate]. injection H as ->. subst n. eexists. reflexivity.
Qed.
Lemma cut_bare : forall t, bare_group (cut_term t) = match bare_group t with Some d => Some (map cut_seq d) | None => None end.
Proof.
  intros [[n p] [[m q]|]]; destruct p; try reflexivity. cbn [cut_term]. rewrite cut_grouped. cbn. destruct (N.eqb n 1); reflexivity.
Qed.
Definition cuts (p : primary) : Prop := star law NPrim p (cut p).
Lemma cuts_term : forall t, P_term cuts t -> star law NTerm t (cut_term t).
Proof.
  intros [[n p] x] (H & K). cbn in H, K. destruct x as [[m q]|]; cbn [cut_term].
  - eapply rt_trans.
    + apply (star_map law _ _ NPrim NTerm (fun z => Term (Factor n z) (Some (Factor m q)))) with (2 := H). intros; apply rw_factor; assumption.
    + apply (star_map law _ _ NPrim NTerm (fun z => Term (Factor n (cut p)) (Some (Factor m z)))) with (2 := K). intros; apply rw_except; assumption.
  - apply (star_map law _ _ NPrim NTerm (fun z => Term (Factor n z) None)) with (2 := H). intros; apply rw_factor; assumption.
Qed.
Lemma cuts_seq : forall ts, Forall (P_term cuts) ts -> star law NSeq ts (cut_seq ts).
Proof.
  intros ts H. induction H as [|t ts Ht H IH]; [apply rt_refl|]. cbn [cut_seq].
  destruct (bare_group t) as [d|] eqn:E.
  - destruct (bare_just t d E) as (l & ->). eapply rt_trans; [apply rt_step, rw_law, law_cut|].
    apply (star_map law _ _ NTerm NSeq (fun z => [z])) with (2 := cuts_term _ Ht). intros; apply rw_head; assumption.
  - eapply rt_trans.
    + apply (star_map law _ _ NTerm NSeq (fun z => z :: ts)) with (2 := cuts_term _ Ht). intros; apply rw_head; assumption.
    + apply (star_map law _ _ NSeq NSeq (fun z => cut_term t :: z)) with (2 := IH). intros; apply rw_tail; assumption.
Qed.
Lemma cuts_defs : forall d, Forall (Forall (P_term cuts)) d -> star law NDefs d (map cut_seq d).
Proof.
  intros d H. apply (star_defs law d (map cut_seq d)) with (a := []). induction H; constructor; [apply cuts_seq; assumption|assumption].
Qed.
Lemma cuts_prim : forall p, cuts p.
Proof.
  intros p. induction p as [l d IH|l d IH|l d IH|l id|l w|l w|l] using primary_nested; try apply rt_refl; unfold cuts.
  - rewrite cut_optional. apply (star_map law _ _ NDefs NPrim (POptional l)) with (2 := cuts_defs _ IH). intros; apply rw_optional; assumption.
  - rewrite cut_repeated. apply (star_map law _ _ NDefs NPrim (PRepeated l)) with (2 := cuts_defs _ IH). intros; apply rw_repeated; assumption.
  - rewrite cut_grouped. apply (star_map law _ _ NDefs NPrim (PGrouped l)) with (2 := cuts_defs _ IH). intros; apply rw_grouped; assumption.
Qed.
Lemma cuts_all : forall d, star law NDefs d (map cut_seq d).
Proof.
  intros d. apply cuts_defs. apply Forall_forall. intros ts _. apply Forall_forall. intros [[n p] x] _. split; [apply cuts_prim|].
  destruct x; [apply cuts_prim|exact I].
Qed.
Lemma cut_rewritten : forall rs, rewritten law rs (map cut_rule rs).
Proof.
  assert (G : forall rs b, rewritten law (b ++ rs) (b ++ map cut_rule rs)).
  { intros rs. induction rs as [|[l id d] rs IH]; intros b; [apply rt_refl|]. eapply rt_trans; [apply (star_rule law b l id d (map cut_seq d) rs), cuts_all|].
    specialize (IH (b ++ [cut_rule (Rule l id d)])). rewrite <- !app_assoc in IH. exact IH. }
  intros rs. apply (G rs []).
Qed.

(** After cutting, groups come last. *)
Definition tail_groups (p : primary) : Prop := groups_last (NPrim (cut p)).
Lemma tg_term : forall t, P_term tail_groups t -> groups_last (NTerm (cut_term t)).
Proof. intros [[n p] [[m q]|]] (H & _); cbn [cut_term]; constructor; constructor; exact H. Qed.
Lemma tg_seq : forall ts, Forall (P_term tail_groups) ts -> groups_last (NSeq (cut_seq ts)).
Proof.
  intros ts H. induction H as [|t ts Ht H IH]; [constructor|]. cbn [cut_seq]. destruct (bare_group t) as [d|] eqn:E.
  - apply gl_last, tg_term, Ht.
  - apply gl_seq; [rewrite cut_bare, E; reflexivity|apply tg_term, Ht|exact IH].
Qed.
Lemma tg_defs : forall d, Forall (Forall (P_term tail_groups)) d -> groups_last (NDefs (map cut_seq d)).
Proof. intros d H. constructor. induction H; constructor; [apply tg_seq; assumption|assumption]. Qed.
Lemma tg_prim : forall p, tail_groups p.
Proof.
  intros p. induction p as [l d IH|l d IH|l d IH|l id|l w|l w|l] using primary_nested; unfold tail_groups; try constructor.
  all: apply tg_defs; exact IH.
Qed.
Lemma cut_groups_last : forall rs, Forall (fun r => groups_last (NDefs (r_defs r))) (map cut_rule rs).
Proof.
  intros rs. apply Forall_forall. intros r Hr. apply in_map_iff in Hr as (r0 & <- & _). cbn [cut_rule r_defs]. apply tg_defs.
  apply Forall_forall. intros ts _. apply Forall_forall. intros [[n p] x] _. split; [apply tg_prim|]. destruct x; [apply tg_prim|exact I].
Qed.
