(** Proofs about refactoring. *)
From Coq Require Import String List NArith Arith Bool Lia Relations Permutation.
From Verif Require Import Base Ident Tokenizer Ast Lex Syntax Io Graph Machine SpecText SpecSyntax SpecIo TextFacts SyntaxFacts IoFacts SpecGram SpecParse SpecMachine SpecEvents SpecLike SpecLaws SpecInline Pure ParseFacts CodeFacts EvFacts MachineFacts FuelFacts EventFacts LikeFacts LikeUse LawFacts LawUse LawGlue.
Import ListNotations.
Open Scope nat_scope.
Notation alike_outcome := (same_outcome whatever).

(** ** The laws *)
Section Laws.
Variable rules known : list rule.
Variable cfg : config.
Notation ev := (ev rules cfg).
Hypothesis Hnr : no_repeat rules.
Hypothesis Hnd : no_dollar rules.
Hypothesis Hknown : forall r, In r known -> In r rules.
Lemma known_names : forall id r, names known id r -> names rules id r.
Proof. intros id r (H & K). split; [apply Hknown; exact H|exact K]. Qed.
Definition alike (n n' : node) : Prop :=
  (forall s o, ev n s o -> exists o', ev n' s o' /\ alike_outcome o o') /\ (forall s o, ev n' s o -> exists o', ev n s o' /\ alike_outcome o o').
Lemma meta_alike : forall id r l l', names rules id r -> alike (NPrim (PMeta l id)) (NPrim (PGrouped l' (r_defs r))).
Proof.
  intros id r l l' Hn. split; intros s o H.
  - inversion H; subst. match goal with K : ev (NRef _ _) _ _ |- _ => inversion K; subst end;
      try match goal with K : names rules id ?r0 |- _ => rewrite (names_unique _ _ _ _ Hnr K Hn) in * end.
    + eexists. split; [apply ev_grouped; eassumption|]. constructor. exact I.
    + eexists. split; [apply ev_grouped; eassumption|]. constructor; [apply sp_refl|exact I].
    + eexists. split; [apply ev_grouped; eassumption|]. apply any_refl.
    + exfalso. match goal with K : ~ defined rules id |- _ => apply K end. exists r. exact Hn.
  - inversion H; subst. destruct o as [s' e|x s' e|h].
    + eexists. split; [apply ev_meta; eapply ev_ref; eassumption|]. constructor. exact I.
    + eexists. split; [apply ev_meta; eapply ev_ref_no; eassumption|]. constructor; [apply sp_refl|exact I].
    + eexists. split; [apply ev_meta; eapply ev_ref_halt; eassumption|]. apply any_refl.
Qed.
(** Replacing one primary in a term. *)
Definition single (a b : node) (n n' : node) : Prop := n = a /\ n' = b.
Lemma no_shape : forall n n', (fun _ _ : node => False) n n' ->
  match n, n' with
  | NPrim p, NPrim p' => ~ grouped p /\ ~ grouped p'
  | NTerm t, NTerm t' => bare_group t = None /\ bare_group t' = None
  | _, _ => True
  end.
Proof. intros n n' []. Qed.
Lemma sim_mono : forall (l1 l2 : node -> node -> Prop), (forall a b, l1 a b -> l2 a b) -> forall n n', sim l1 n n' -> sim l2 n n'.
Proof. intros l1 l2 H n n' K. induction K; try (constructor; assumption); [eapply sm_law; [eassumption|apply H; assumption]|eapply sm_seq_group; eassumption]. Qed.
Lemma sim_self : forall lw n, sim lw n n.
Proof. intros lw0 n. eapply sim_mono; [|apply (sim_refl (fun _ _ => False))]. intros a b [[]|[]]. Qed.
Lemma sim_alike : forall p p' n n', alike (NPrim p) (NPrim p') -> sim (single (NPrim p) (NPrim p')) n n' ->
  forall s o, ev n s o -> exists o', ev n' s o' /\ alike_outcome o o'.
Proof.
  intros p p' n n' (G & _) H s o Ho.
  refine (sim_ev rules rules cfg whatever (single (NPrim p) (NPrim p')) _ _ _ _ _ n s o Ho n' H).
  - intros; exact I.
  - intros; exact I.
  - intros; exact I.
  - intros a b s0 o0 (-> & ->) K. apply G. exact K.
  - clear. induction rules as [|r rs IH]; constructor; [|exact IH]. split; [reflexivity|]. split; [reflexivity|]. apply sim_self.
Qed.
Lemma alike_sym : forall a b, alike a b -> alike b a.
Proof. intros a b (G & B). split; assumption. Qed.
Lemma alike_by : forall p p' n n', alike (NPrim p) (NPrim p') -> sim (single (NPrim p) (NPrim p')) n n' -> sim (single (NPrim p') (NPrim p)) n' n -> alike n n'.
Proof. intros p p' n n' H S1 S2. split; [apply (sim_alike p p'); assumption|apply (sim_alike p' p); [apply alike_sym; exact H|assumption]]. Qed.
Lemma sim_single : forall p p', sim (single (NPrim p) (NPrim p')) (NPrim p) (NPrim p').
Proof. intros p p'. eapply sm_law; [apply sim_self|]. split; reflexivity. Qed.
Lemma term_alike : forall p p' n x, alike (NPrim p) (NPrim p') -> alike (NTerm (Term (Factor n p) x)) (NTerm (Term (Factor n p') x)).
Proof.
  intros p p' n x H. apply (alike_by p p'); [exact H| |]; destruct x as [e|]; constructor; try (constructor; apply sim_single); apply sim_self.
Qed.
Lemma except_alike : forall p p' n f, alike (NPrim p) (NPrim p') -> alike (NTerm (Term f (Some (Factor n p)))) (NTerm (Term f (Some (Factor n p')))).
Proof.
  intros p p' n f H. apply (alike_by p p'); [exact H| |]; constructor; try (constructor; apply sim_single); apply sim_self.
Qed.
Lemma alike_trans : forall a b c, alike a b -> alike b c -> alike a c.
Proof.
  intros a b c (G1 & B1) (G2 & B2). split; intros s o H.
  - destruct (G1 s o H) as (o1 & H1 & S1). destruct (G2 s o1 H1) as (o2 & H2 & S2). exists o2. split; [exact H2|eapply any_trans; eassumption].
  - destruct (B2 s o H) as (o1 & H1 & S1). destruct (B1 s o1 H1) as (o2 & H2 & S2). exists o2. split; [exact H2|eapply any_trans; eassumption].
Qed.
Lemma exactly_alike : forall a b, exactly rules cfg a b -> alike a b.
Proof. intros a b H. split; intros s o K; exists o; (split; [apply H; exact K|apply any_refl]). Qed.
(** Sequences one after the other. *)
Lemma seq_app : forall d ts s o, Forall (fun t => bare_group t = None) d -> ev (NSeq (d ++ ts)) s o ->
  (exists s' e o1, ev (NSeq d) s (Match s' e) /\ ev (NSeq ts) s' o1 /\ o = before e o1) \/
  (exists x s' e, ev (NSeq d) s (No x s' e) /\ o = No x s' e) \/ (exists h, ev (NSeq d) s (Halt h) /\ o = Halt h).
Proof.
  intros d ts s o H. revert s o. induction H as [|t d Ht H IH]; intros s o K.
  - left. exists s, [], o. split; [constructor|]. split; [exact K|]. destruct o; reflexivity.
  - cbn [app] in K. destruct (seq_cases _ _ _ _ _ _ Ht K) as [(s' & e & o1 & H1 & H2 & ->)|[(x & s' & e & H1 & ->)|(h & H1 & ->)]].
    + destruct (IH _ _ H2) as [(s2 & e2 & o2 & A & B & ->)|[(x & s2 & e2 & A & ->)|(h & A & ->)]].
      * left. exists s2, (e ++ e2), o2. split; [exact (ev_seq _ _ _ _ _ _ _ _ Ht H1 A)|]. split; [exact B|]. destruct o2; cbn; rewrite ?app_assoc; reflexivity.
      * right. left. eexists _, _, _. split; [exact (ev_seq _ _ _ _ _ _ _ _ Ht H1 A)|reflexivity].
      * right. right. exists h. split; [exact (ev_seq _ _ _ _ _ _ _ _ Ht H1 A)|reflexivity].
    + right. left. exists x, s', e. split; [apply ev_seq_no; assumption|reflexivity].
    + right. right. exists h. split; [apply ev_seq_halt; assumption|reflexivity].
Qed.
Lemma seq_join : forall d ts, Forall (fun t => bare_group t = None) d -> forall s o, ev (NSeq d) s o ->
  match o with
  | Match s' e => forall o1, ev (NSeq ts) s' o1 -> ev (NSeq (d ++ ts)) s (before e o1)
  | _ => ev (NSeq (d ++ ts)) s o
  end.
Proof.
  intros d ts H. induction H as [|t d Ht H IH]; intros s o K.
  - inversion K; subst. intros o1 H1. destruct o1; exact H1.
  - cbn [app]. destruct (seq_cases _ _ _ _ _ _ Ht K) as [(s' & e & o1 & H1 & H2 & ->)|[(x & s' & e & H1 & ->)|(h & H1 & ->)]].
    + specialize (IH _ _ H2). destruct o1 as [s2 e2|x s2 e2|h]; cbn [before].
      * intros o2 H3. pose proof (ev_seq _ _ _ _ _ _ _ _ Ht H1 (IH _ H3)) as G. destruct o2; cbn in *; rewrite ?app_assoc in G; exact G.
      * exact (ev_seq _ _ _ _ _ _ _ _ Ht H1 IH).
      * exact (ev_seq _ _ _ _ _ _ _ _ Ht H1 IH).
    + apply ev_seq_no; assumption.
    + apply ev_seq_halt; assumption.
Qed.
Lemma meta_seq : forall id r l d, names rules id r -> r_defs r = [d] -> alike (NTerm (just (PMeta l id))) (NSeq d).
Proof.
  intros id r l d Hn Hd. eapply alike_trans; [apply exactly_alike, term_factor|]. eapply alike_trans; [apply exactly_alike, factor_one|].
  eapply alike_trans; [apply (meta_alike id r l l Hn)|]. rewrite Hd. apply exactly_alike. eapply exactly_trans; [apply group_defs|apply defs_one].
Qed.
Lemma sequence_alike : forall id r l d ts, names rules id r -> r_defs r = [d] -> Forall (fun t => bare_group t = None) d ->
  alike (NSeq (just (PMeta l id) :: ts)) (NSeq (d ++ ts)).
Proof.
  intros id r l d ts Hn Hd Hg. destruct (meta_seq id r l d Hn Hd) as (G & B). split; intros s o H.
  - destruct (seq_cases rules cfg (just (PMeta l id)) ts s o eq_refl H) as [(s' & e & o1 & H1 & H2 & ->)|[(x & s' & e & H1 & ->)|(h & H1 & ->)]];
      destruct (G _ _ H1) as (o' & K & S); pose proof (seq_join d ts Hg _ _ K) as J.
    + apply so_match_inv in S as (e' & -> & _). exists (before e' o1). split; [apply J; exact H2|]. apply before_any, any_refl.
    + apply so_no_inv in S as (x' & e' & -> & P & _). eexists. split; [exact J|]. constructor; [exact P|exact I].
    + apply so_halt_inv in S as (h' & -> & P). eexists. split; [exact J|]. apply so_halt_intro. exact P.
  - destruct (seq_app d ts s o Hg H) as [(s' & e & o1 & H1 & H2 & ->)|[(x & s' & e & H1 & ->)|(h & H1 & ->)]]; destruct (B _ _ H1) as (o' & K & S).
    + apply so_match_inv in S as (e' & -> & _). exists (before e' o1). split; [eapply ev_seq; [reflexivity|exact K|exact H2]|]. apply before_any, any_refl.
    + apply so_no_inv in S as (x' & e' & -> & P & _). eexists. split; [eapply ev_seq_no; [reflexivity|exact K]|]. constructor; [exact P|exact I].
    + apply so_halt_inv in S as (h' & -> & P). eexists. split; [eapply ev_seq_halt; [reflexivity|exact K]|]. apply so_halt_intro. exact P.
Qed.
Lemma inline_ok : forall n n', inline_law known n n' -> alike n n'.
Proof.
  intros n n' H. destruct H as [n n' H|id r l l' H|id r l l' n x H Hx|id r l l' n f H|id r l d ts H Hd Hg].
  - exact (loose_ok rules cfg Hnr Hnd n n' H).
  - eapply alike_trans; [apply exactly_alike, seq_just|]. eapply alike_trans; [apply (meta_alike id r l l' (known_names _ _ H))|]. apply exactly_alike, exactly_sym, seq_just.
  - apply term_alike, meta_alike, known_names, H.
  - apply except_alike, meta_alike, known_names, H.
  - apply (sequence_alike id r); [apply known_names, H|exact Hd|exact Hg].
Qed.
End Laws.

Lemma inline_shape : forall known n n', inline_law known n n' ->
  match n, n' with
  | NPrim p, NPrim p' => ~ grouped p /\ ~ grouped p'
  | NTerm t, NTerm t' => bare_group t = None /\ bare_group t' = None
  | _, _ => True
  end.
Proof.
  intros known n n' H. destruct H as [n n' H|id r l l' H|id r l l' n x H Hx|id r l l' n f H|id r l d ts H Hd Hg]; try exact I.
  - exact (loose_shape n n' H).
  - split; [reflexivity|]. cbn. destruct x; [reflexivity|]. destruct (N.eqb_spec n 1); [subst; destruct Hx; congruence|reflexivity].
  - destruct f as [m q]. split; cbn; destruct q; reflexivity.
Qed.

(** ** Chains *)
Section Chain.
Variable cfg : config.
Variable id : str.
Hypothesis Hcfg : no_forwarding cfg.
Lemma means_reached : forall rs1 rs2, no_repeat rs1 -> (forall r, reached rs1 id r -> In r rs2) ->
  (forall r l x, reached rs1 id r -> refers_deep r l x -> defined rs2 x -> defined rs1 x) ->
  forall s o, means rs1 cfg id s o -> exists o', means rs2 cfg id s o' /\ alike_outcome o o'.
Proof.
  intros rs1 rs2 Hone Hrs Hdef s o Ho.
  enough (K : exists o', means rs2 cfg id s o' /\ like_outcome eq eq eq none o o').
  { destruct K as (o' & K & S). exists o'. split; [exact K|]. inversion S; subst; constructor; try exact I.
    all: match goal with J : SpecLike.like_error _ _ _ _ _ |- _ => inversion J; subst end; try apply sp_refl; match goal with J : none _ _ |- _ => destruct J end. }
  refine (means_like eq (kept_name rs1 id) eq eq none rs1 rs2 cfg cfg _ _ _ _ _ _ _ _ _ _ id id s o _ Ho).
  - intros x y r (<- & Hx) K. pose proof (reached_names _ _ Hone _ _ Hx K) as Hre. exists r. split; [|split; [apply reached_like; assumption|reflexivity]].
    split; [apply Hrs; exact Hre|apply K].
  - intros x y (<- & r & Hre & [E|(l & Hl)]) Hd; [|eapply Hdef; eassumption]. exists r. split; [eapply reached_in; exact Hre|]. rewrite E. apply same_name_keyed. reflexivity.
  - intros x y r [].
  - intros x y r [].
  - intros x y [].
  - intros x y r [].
  - intros l l' c s0 a <- K. exists a. split; [exact K|]. apply sres_refl; auto. intros x s' ->. exact (Hcfg _ _ _ _ _ K).
  - intros l l' c <-. reflexivity.
  - intros t t'. apply term_show_like. intros a b (E & _). exact E.
  - intros d d'. apply defs_name_like; [intros a b (E & _); exact E|]. intros l l' c <-. reflexivity.
  - intros r K. exists r. assert (Hre : reached rs1 id r) by (apply rc_start; exact K). split; [|apply reached_like; assumption]. split; [apply Hrs; exact Hre|apply K].
Qed.
Lemma defined_more : forall rs more x, defined rs x -> defined (rs ++ more) x.
Proof. intros rs more x (r & A & B). exists r. split; [apply in_or_app; left; exact A|exact B]. Qed.
Lemma reached_front : forall rs more, no_repeat (rs ++ more) -> closed_rules rs -> defined rs id -> forall r, reached (rs ++ more) id r -> In r rs.
Proof.
  intros rs more Hn Hc Hd r H. assert (F : forall x r0, defined rs x -> names (rs ++ more) x r0 -> In r0 rs).
  { intros x r0 (r1 & A & B) K. replace r0 with r1; [exact A|]. apply (names_unique (rs ++ more) x); [exact Hn| |exact K]. split; [apply in_or_app; left; exact A|exact B]. }
  induction H as [r H|r l x r' H IH Hx K]; [exact (F _ _ Hd H)|]. exact (F _ _ (Hc r l x IH Hx) K).
Qed.
Lemma no_repeat_front : forall rs more, no_repeat (rs ++ more) -> no_repeat rs.
Proof.
  intros rs more H i j r d (A & B & C & D). apply (H i j r d). split; [exact A|].
  split; [rewrite nth_error_app1; [exact B|]; apply nth_error_Some; congruence|].
  split; [rewrite nth_error_app1; [exact C|]; apply nth_error_Some; congruence|exact D].
Qed.
Lemma no_dollar_front : forall rs more, no_dollar (rs ++ more) -> no_dollar rs.
Proof. intros rs more H r w Hr. apply H. apply in_or_app. left. exact Hr. Qed.
Lemma place_names : forall (a : list rule) l x d d' b, map r_id (a ++ Rule l x d :: b) = map r_id (a ++ Rule l x d' :: b).
Proof. intros. rewrite !map_app. reflexivity. Qed.
Lemma means_refactored : forall rs rs', refactored id rs rs' -> no_repeat rs -> no_dollar rs ->
  no_repeat rs' /\ no_dollar rs' /\ forall s o, means rs cfg id s o -> exists o', means rs' cfg id s o' /\ alike_outcome o o'.
Proof.
  intros rs rs' H. induction H as [rs|a b c H1 IH1 H2 IH2|a l x d d' b H|rs rs' H|rs more Hc Hi Hn Hd|rs more Hc Hi]; intros Hnr Hnd.
  - split; [exact Hnr|]. split; [exact Hnd|]. intros s o Ho. exists o. split; [exact Ho|apply any_refl].
  - destruct (IH1 Hnr Hnd) as (R1 & D1 & M1). destruct (IH2 R1 D1) as (R2 & D2 & M2). split; [exact R2|]. split; [exact D2|]. intros s o Ho.
    destruct (M1 s o Ho) as (o1 & K1 & S1). destruct (M2 s o1 K1) as (o2 & K2 & S2). exists o2. split; [exact K2|eapply any_trans; eassumption].
  - pose proof (place_names a l x d d' b) as E. pose proof (names_no_repeat _ _ E Hnr) as R. pose proof (names_no_dollar _ _ E Hnd) as D.
    split; [exact R|]. split; [exact D|]. intros s o Ho.
    assert (Hs : rewrites_rules (inline_law (a ++ b)) (a ++ Rule l x d :: b) (a ++ Rule l x d' :: b)) by (exists a, l, x, d, d', b; auto).
    refine (sim_means _ _ cfg whatever (lw (inline_law (a ++ b))) _ _ _ _ (rules_sim _ (inline_shape (a ++ b)) _ _ Hs) id s o Ho).
    + intros; exact I.
    + intros; exact I.
    + intros; exact I.
    + intros n n' s0 o0 K Hev. assert (Kn : forall r, In r (a ++ b) -> In r (a ++ Rule l x d' :: b)).
      { intros r Hr. apply in_app_or in Hr as [Hr|Hr]; apply in_or_app; [left|right; right]; exact Hr. }
      destruct K as [K|K]; destruct (inline_ok _ (a ++ b) cfg R D Kn _ _ K) as (G & B); auto.
  - assert (R : no_repeat rs') by (apply no_repeat_keys; apply no_repeat_keys in Hnr; eapply Permutation_NoDup; [|exact Hnr]; apply Permutation_map; exact H).
    split; [exact R|]. split; [intros r w Hr; apply Hnd; eapply Permutation_in; [apply Permutation_sym; exact H|exact Hr]|].
    apply means_reached; [exact Hnr| |].
    + intros r Hr. eapply Permutation_in; [exact H|]. eapply reached_in. exact Hr.
    + intros r l x _ _ (r1 & A & B). exists r1. split; [eapply Permutation_in; [apply Permutation_sym; exact H|exact A]|exact B].
  - split; [exact Hn|]. split; [exact Hd|]. apply means_reached; [exact Hnr| |].
    + intros r Hr. apply in_or_app. left. eapply reached_in. exact Hr.
    + intros r l x Hr Hx _. eapply Hc; [eapply reached_in; exact Hr|exact Hx].
  - split; [exact (no_repeat_front _ _ Hnr)|]. split; [exact (no_dollar_front _ _ Hnd)|]. apply means_reached; [exact Hnr| |].
    + apply reached_front; assumption.
    + intros r l x _ _ K. apply defined_more. exact K.
Qed.
End Chain.

Lemma parse_refactored : forall rs rs' cfg g g' id m m' debug fuel rd, refactored id rs rs' -> no_forwarding cfg ->
  (debug = true -> nesting_scanners cfg) ->
  parser_for rs cfg g id m -> parser_for rs' cfg g' id m' -> reader rd -> ending_of rd = None ->
  fst (parser_parse debug g fuel m rd) <> OutOfFuel ->
  exists f0, forall fuel', f0 <= fuel' -> accepts_alike (fst (parser_parse debug g fuel m rd)) (fst (parser_parse debug g' fuel' m' rd)).
Proof.
  intros rs rs' cfg g g' id m m' debug fuel rd H Hf Hn Hp Hp' Hr He Hne.
  destruct (means_refactored cfg id Hf rs rs' H (parser_unique _ _ _ _ _ Hp) (proj1 (proj2 Hp))) as (_ & _ & M).
  refine (parse_sim rs rs' cfg whatever id M debug _ _ g g' m m' fuel rd Hp Hp' Hr He Hne).
  - intros; exact I.
  - intros s s' a b D M1 M2 _. rewrite (means_labels _ _ _ _ _ _ (Hn D) M1), (means_labels _ _ _ _ _ _ (Hn D) M2). reflexivity.
Qed.
Lemma refactored_back : forall id rs rs', refactored id rs rs' -> no_repeat rs -> no_dollar rs -> no_repeat rs' /\ no_dollar rs' /\ refactored id rs' rs.
Proof.
  intros id rs rs' H. induction H as [rs|a b c H1 IH1 H2 IH2|a l x d d' b H|rs rs' H|rs more Hc Hi Hn Hd|rs more Hc Hi]; intros Hnr Hnd.
  - repeat split; try assumption. apply rf_refl.
  - destruct (IH1 Hnr Hnd) as (R1 & D1 & B1). destruct (IH2 R1 D1) as (R2 & D2 & B2). repeat split; try assumption. eapply rf_trans; eassumption.
  - pose proof (place_names a l x d d' b) as E. split; [exact (names_no_repeat _ _ E Hnr)|]. split; [exact (names_no_dollar _ _ E Hnd)|].
    apply rf_place. apply rewrites_back. exact H.
  - split; [apply no_repeat_keys; apply no_repeat_keys in Hnr; eapply Permutation_NoDup; [|exact Hnr]; apply Permutation_map; exact H|].
    split; [intros r w Hr; apply Hnd; eapply Permutation_in; [apply Permutation_sym; exact H|exact Hr]|]. apply rf_order, Permutation_sym, H.
  - split; [exact Hn|]. split; [exact Hd|]. apply rf_fewer; assumption.
  - split; [exact (no_repeat_front _ _ Hnr)|]. split; [exact (no_dollar_front _ _ Hnd)|]. apply rf_more; assumption.
Qed.
