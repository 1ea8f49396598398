(** The laws of the notation, one by one. *)
From Coq Require Import String List NArith Arith Bool Lia Relations.
From Verif Require Import Base Ident Tokenizer Ast Lex Syntax Io Graph Machine SpecText SpecSyntax SpecIo TextFacts SyntaxFacts IoFacts SpecGram SpecParse SpecMachine SpecEvents SpecLaws Pure ParseFacts CodeFacts EvFacts MachineFacts FuelFacts EventFacts LawFacts.
Import ListNotations.
Open Scope nat_scope.

Section Laws.
Variable rules : list rule.
Variable cfg : config.
Notation ev := (ev rules cfg).
Notation fails_at := (fails_at rules cfg).

(** The error of a construct that does not match says that something is expected. *)
Lemma no_expected : forall n s o, ev n s o -> forall x s' e, o = No x s' e -> exists y a, e_msg x = MExpected y a.
Proof.
  intros n s o H. induction H; intros x9 s9 e9 Eo; try discriminate; subst; try (injection Eo as <- <- <-); try (unfold wanted; cbn; eauto; fail); eauto.
  - destruct o; try discriminate. injection Eo as <- <- <-. eauto.
  - unfold further. destruct (loc_ltb (e_loc x2) (e_loc x)); eauto.
Qed.
Lemma no_same : forall n s x s1 e1 n' x' s2 e2 s', ev n s (No x s1 e1) -> ev n' s' (No x' s2 e2) -> e_loc x = e_loc x' -> same_place x x'.
Proof. intros n s x s1 e1 n' x' s2 e2 s' H K E. right. split; [exact E|]. split; [exact (no_expected _ _ _ H _ _ _ eq_refl)|exact (no_expected _ _ _ K _ _ _ eq_refl)]. Qed.

(** ** Laws that change nothing at all *)
Definition exactly (n n' : node) : Prop := forall s o, ev n s o <-> ev n' s o.
Lemma defs_one : forall ts, exactly (NDefs [ts]) (NSeq ts).
Proof. intros ts s o. split; intros H; [inversion H; subst; assumption|apply ev_defs_one; exact H]. Qed.
Lemma group_defs : forall l d, exactly (NPrim (PGrouped l d)) (NDefs d).
Proof. intros l d s o. split; intros H; [inversion H; subst; assumption|apply ev_grouped; exact H]. Qed.
Lemma factor_one : forall p, exactly (NFactor (Factor 1 p)) (NPrim p).
Proof. intros p s o. split; intros H; [inversion H; subst; [assumption|congruence]|apply ev_factor_one; exact H]. Qed.
Lemma term_factor : forall f, exactly (NTerm (Term f None)) (NFactor f).
Proof. intros p s o. split; intros H; [inversion H; subst; assumption|apply ev_term_plain; exact H]. Qed.
Lemma seq_group : forall l d ts, exactly (NSeq (just (PGrouped l d) :: ts)) (NDefs d).
Proof.
  intros l d ts s o. split; intros H.
  - inversion H; subst; cbn in *; try discriminate. match goal with K : Some _ = Some _ |- _ => injection K as <- end. assumption.
  - eapply ev_seq_group; [reflexivity|exact H].
Qed.
Lemma seq_one : forall t, bare_group t = None -> exactly (NSeq [t]) (NTerm t).
Proof.
  intros t Hb s o. split; intros H.
  - inversion H; subst; try congruence.
    + match goal with K : SpecParse.ev _ _ (NSeq []) _ _ |- _ => inversion K; subst end. cbn. rewrite app_nil_r. assumption.
  - destruct o as [s' e|x s' e|h].
    + replace (Match s' e) with (before e (Match s' [])) by (cbn; rewrite app_nil_r; reflexivity). eapply ev_seq; [exact Hb|exact H|constructor].
    + apply ev_seq_no; assumption.
    + apply ev_seq_halt; assumption.
Qed.
Lemma exactly_trans : forall a b c, exactly a b -> exactly b c -> exactly a c.
Proof. intros a b c H K s o. rewrite (H s o). apply K. Qed.
Lemma exactly_sym : forall a b, exactly a b -> exactly b a.
Proof. intros a b H s o. symmetry. apply H. Qed.
Lemma seq_just : forall p, exactly (NSeq [just p]) (NPrim p).
Proof.
  intros p. destruct (bare_group (just p)) as [d|] eqn:E.
  - destruct p; try discriminate. eapply exactly_trans; [apply seq_group|apply exactly_sym, group_defs].
  - eapply exactly_trans; [apply seq_one; exact E|]. eapply exactly_trans; [apply term_factor|apply factor_one].
Qed.
Lemma group_just : forall l p, exactly (NPrim (PGrouped l [[just p]])) (NPrim p).
Proof. intros l p. eapply exactly_trans; [apply group_defs|]. eapply exactly_trans; [apply defs_one|apply seq_just]. Qed.
(** A term that matches nothing. *)
Lemma seq_skip : forall t ts, bare_group t = None -> (forall s o, ev (NTerm t) s o <-> o = Match s []) -> exactly (NSeq (t :: ts)) (NSeq ts).
Proof.
  intros t ts Hb Ht s o. split; intros H.
  - inversion H; subst; try congruence; match goal with K : SpecParse.ev _ _ (NTerm t) _ _ |- _ => apply Ht in K; try discriminate; injection K as -> -> end.
    match goal with |- context [before [] ?x] => destruct x; assumption end.
  - replace o with (before [] o) by (destruct o; reflexivity). eapply ev_seq; [exact Hb|apply Ht; reflexivity|exact H].
Qed.
Lemma empty_only : forall l s o, ev (NTerm (just (PEmpty l))) s o <-> o = Match s [].
Proof.
  intros l s o. unfold just. rewrite (term_factor _ s o), (factor_one _ s o). split; [intros H; inversion H; reflexivity|intros ->; constructor].
Qed.
Lemma zero_only : forall p s o, ev (NTerm (Term (Factor 0 p) None)) s o <-> o = Match s [].
Proof.
  intros p s o. rewrite (term_factor _ s o). split.
  - intros H. inversion H; subst. match goal with K : SpecParse.ev _ _ (NTimes _ _ _ _) _ _ |- _ => inversion K; subst; try lia end. reflexivity.
  - intros ->. apply ev_factor_many; [discriminate|]. apply ev_times_end. lia.
Qed.
Lemma times_same : forall b b', (forall s o, ev b s o -> ev b' s o) -> forall n s o, ev n s o -> forall min max i, n = NTimes min max i b -> ev (NTimes min max i b') s o.
Proof.
  intros b b' Hb n s o H. induction H; intros mn mx j En; try discriminate; injection En; intros; subst.
  - apply ev_times_end. assumption.
  - eapply ev_times_short; eauto.
  - eapply ev_times_stop; eauto.
  - eapply ev_times_livelock; eauto.
  - eapply ev_times_halt; eauto.
  - eapply ev_times_more; eauto.
  - eapply ev_times_no; eauto.
  - eapply ev_times_more_halt; eauto.
Qed.
Lemma factor_same : forall n p p', exactly (NPrim p) (NPrim p') -> exactly (NFactor (Factor n p)) (NFactor (Factor n p')).
Proof.
  assert (K : forall n p p', exactly (NPrim p) (NPrim p') -> forall s o, ev (NFactor (Factor n p)) s o -> ev (NFactor (Factor n p')) s o).
  { intros n p p' H s o E. inversion E; subst.
    - apply ev_factor_one. apply H. assumption.
    - apply ev_factor_many; [assumption|]. eapply times_same; [|eassumption|reflexivity]. intros s1 o1. apply H. }
  intros n p p' H s o. split; apply K; [exact H|apply exactly_sym; exact H].
Qed.
(** An option of an option. *)
Lemma optional_never_no : forall l d s x s' e, ev (NPrim (POptional l d)) s (No x s' e) -> False.
Proof.
  intros l d s x s' e H. inversion H; subst. match goal with K : SpecParse.ev _ _ (NTimes _ _ _ _) _ _ |- _ => inversion K; subst; try lia end.
  match goal with K : SpecParse.ev _ _ (NTimes _ _ (0 + 1) _) _ _ |- _ => inversion K; subst; lia end.
Qed.
Lemma optional_halt : forall l d s h, ev (NPrim (POptional l d)) s (Halt h) <-> ev (NDefs d) s (Halt h).
Proof.
  intros l d s h. split; intros H.
  - inversion H; subst. match goal with K : SpecParse.ev _ _ (NTimes _ _ _ _) _ _ |- _ => inversion K; subst; try lia end; try assumption.
    + discriminate.
    + match goal with K : SpecParse.ev _ _ (NTimes _ _ (0 + 1) _) _ _ |- _ => inversion K; subst; lia end.
  - apply ev_optional. eapply ev_times_halt; [lia|exact H].
Qed.
Lemma optional_twice : forall l l' d, exactly (NPrim (POptional l [[just (POptional l' d)]])) (NPrim (POptional l d)).
Proof.
  intros l l' d s o.
  assert (B : exactly (NDefs [[just (POptional l' d)]]) (NPrim (POptional l' d))) by (eapply exactly_trans; [apply defs_one|apply seq_just]).
  assert (C : exactly (NPrim (POptional l' d)) (NPrim (POptional l d))).
  { intros s1 o1. split; intros H; inversion H; subst; constructor; assumption. }
  destruct o as [s' e|x s' e|h].
  - rewrite optional_iff. rewrite (B s (Match s' e)). rewrite (C s (Match s' e)). split.
    + intros [H|(_ & x & s2 & H)]; [exact H|]. apply B in H. apply optional_never_no in H. destruct H.
    + auto.
  - split; intros H; apply optional_never_no in H; destruct H.
  - rewrite !optional_halt, (B s (Halt h)), optional_halt. reflexivity.
Qed.

(** ** Alternatives *)
(** Trying alternatives: the outcome of the first that does not fail, if any, and where
    those before it failed. *)
Inductive tries (s : pst) : list (list term) -> option outcome -> list location -> Prop :=
| tr_nil : tries s [] None []
| tr_no : forall d ds x s' e r ls, ev (NSeq d) s (No x s' e) -> tries s ds r ls -> tries s (d :: ds) r (e_loc x :: ls)
| tr_match : forall d ds s' e, ev (NSeq d) s (Match s' e) -> tries s (d :: ds) (Some (Match s' e)) []
| tr_halt : forall d ds h, ev (NSeq d) s (Halt h) -> tries s (d :: ds) (Some (Halt h)) [].
Definition verdict (s : pst) (r : option outcome) (ls : list location) (o : outcome) : Prop :=
  match r with Some o' => o = o' | None => exists x, o = No x s [] /\ greatest (e_loc x) ls end.
Lemma greatest_cons : forall a b ls, greatest (e_loc a) ls -> greatest (e_loc (further a b)) (e_loc b :: ls).
Proof.
  intros a b ls (H1 & H2). unfold further. destruct (loc_ltb (e_loc a) (e_loc b)) eqn:E.
  - apply loc_ltb_cmp in E. split; [left; reflexivity|]. constructor; [rewrite (proj2 (loc_cmp_eq _ _) eq_refl); discriminate|].
    eapply Forall_impl; [|exact H2]. intros y Hy Hg. cbn in Hy. apply Hy.
    destruct (loc_cmp y (e_loc a)) eqn:Ey; [apply loc_cmp_eq in Ey; subst; congruence| |reflexivity].
    rewrite (loc_cmp_lt_trans _ _ _ Ey E) in Hg. discriminate.
  - split; [right; exact H1|]. constructor; [|exact H2]. intros Hg. rewrite loc_cmp_antisym in Hg.
    destruct (loc_cmp (e_loc a) (e_loc b)) eqn:El; try discriminate. apply loc_ltb_cmp in El. congruence.
Qed.
Lemma tries_some : forall s ds r ls, tries s ds r ls -> forall x s' e, r = Some (No x s' e) -> False.
Proof. intros s ds r ls H. induction H; intros; try discriminate. eauto. Qed.
Lemma alts_tries : forall ds s o, ev (NAlts ds) s o -> exists r ls, tries s ds r ls /\ verdict s r ls o.
Proof.
  induction ds as [|d ds IH]; intros s o H; inversion H; subst.
  - exists (Some (Match s' evs)), []. split; [constructor; assumption|reflexivity].
  - exists (Some (Halt h)), []. split; [constructor; assumption|reflexivity].
  - exists None, [e_loc x]. split; [econstructor; [eassumption|constructor]|]. exists x. split; [reflexivity|]. split; [left; reflexivity|]. repeat constructor.
    rewrite (proj2 (loc_cmp_eq _ _) eq_refl). discriminate.
  - destruct (IH _ _ ltac:(eassumption)) as (r & ls & Ht & Hv). exists r, (e_loc x :: ls). split; [econstructor; eassumption|]. destruct r; [exact Hv|]. destruct Hv as (? & ? & _). discriminate.
  - destruct (IH _ _ ltac:(eassumption)) as (r & ls & Ht & Hv). exists r, (e_loc x :: ls). split; [econstructor; eassumption|]. destruct r; cbn in Hv; [subst; destruct (tries_some _ _ _ _ Ht _ _ _ eq_refl)|].
    destruct Hv as (y & Ey & Hg). injection Ey as <-. eexists. split; [reflexivity|]. apply greatest_cons. exact Hg.
  - destruct (IH _ _ ltac:(eassumption)) as (r & ls & Ht & Hv). exists r, (e_loc x :: ls). split; [econstructor; eassumption|]. destruct r; [exact Hv|]. destruct Hv as (? & ? & _). discriminate.
Qed.
Lemma tries_alts : forall s ds r ls, tries s ds r ls -> ds <> [] -> exists o, ev (NAlts ds) s o /\ verdict s r ls o.
Proof.
  intros s ds r ls H. induction H as [|d ds x s' e r ls H Ht IH|d ds s' e H|d ds h H]; intros Hne.
  - contradiction.
  - destruct ds as [|d2 ds].
    + inversion Ht; subst. eexists. split; [eapply ev_alts_last; exact H|]. exists x. split; [reflexivity|]. split; [left; reflexivity|]. repeat constructor.
      rewrite (proj2 (loc_cmp_eq _ _) eq_refl). discriminate.
    + destruct (IH ltac:(discriminate)) as (o & Ho & Hv). destruct r as [o'|].
      * cbn in Hv. subst o'. exists o. split; [|reflexivity]. destruct o; [eapply ev_alts_next; eassumption| |eapply ev_alts_next_halt; eassumption].
        destruct (tries_some _ _ _ _ Ht _ _ _ eq_refl).
      * destruct Hv as (y & -> & Hg). eexists. split; [eapply ev_alts_no; eassumption|]. eexists. split; [reflexivity|]. apply greatest_cons. exact Hg.
  - eexists. split; [apply ev_alts_first; exact H|reflexivity].
  - eexists. split; [apply ev_alts_halt; exact H|reflexivity].
Qed.
(** Several alternatives. *)
Lemma defs_tries : forall ds s o, 2 <= length ds -> ev (NDefs ds) s o -> exists r ls, tries s ds r ls /\ verdict s r ls o.
Proof.
  intros [|d1 [|d2 ds]] s o Hl H; cbn in Hl; try lia. inversion H; subst; match goal with K : SpecParse.ev _ _ (NAlts _) _ _ |- _ => apply alts_tries in K as (r & ls & Ht & Hv) end; exists r, ls; (split; [exact Ht|]); try exact Hv.
  destruct r as [o'|]; cbn in Hv.
  - subst. destruct (tries_some _ _ _ _ Ht _ _ _ eq_refl).
  - destruct Hv as (x & Ex & Hg). injection Ex; intros; subst. eexists. split; [reflexivity|]. unfold wanted. cbn. congruence.
Qed.
Lemma tries_defs : forall s ds r ls, 2 <= length ds -> tries s ds r ls -> exists o, ev (NDefs ds) s o /\ verdict s r ls o.
Proof.
  intros s [|d1 [|d2 ds]] r ls Hl H; cbn in Hl; try lia. destruct (tries_alts _ _ _ _ H) as (o & Ho & Hv); [discriminate|].
  destruct o as [s' e|x s' e|h].
  - eexists. split; [apply ev_defs; exact Ho|exact Hv].
  - destruct r as [o'|]; cbn in Hv; [subst; destruct (tries_some _ _ _ _ H _ _ _ eq_refl)|]. destruct Hv as (y & Ey & Hg). injection Ey as Ex Es Ee. subst y s' e.
    destruct (loc_eqb (e_loc x) (p_at s)) eqn:El.
    + apply loc_eqb_eq in El. eexists. split; [eapply ev_defs_here; eassumption|]. eexists. split; [reflexivity|]. unfold wanted. cbn. congruence.
    + eexists. split; [eapply ev_defs_ahead; [exact Ho|]|].
      * intros E. rewrite E, loc_eqb_refl in El. discriminate.
      * eexists. split; [reflexivity|exact Hg].
  - eexists. split; [apply ev_defs_halt; exact Ho|exact Hv].
Qed.
Lemma tries_app : forall s a b r ls, tries s (a ++ b) r ls ->
  (exists o, r = Some o /\ tries s a (Some o) ls) \/ (exists la lb, tries s a None la /\ tries s b r lb /\ ls = la ++ lb).
Proof.
  intros s a. induction a as [|d a IH]; intros b r ls H.
  - right. exists [], ls. split; [constructor|]. auto.
  - cbn in H. inversion H; subst.
    + destruct (IH _ _ _ ltac:(eassumption)) as [(o & -> & Ho)|(la & lb & K1 & K2 & ->)].
      * left. exists o. split; [reflexivity|]. econstructor; eassumption.
      * right. exists (e_loc x :: la), lb. split; [econstructor; eassumption|]. auto.
    + left. eexists. split; [reflexivity|]. constructor. assumption.
    + left. eexists. split; [reflexivity|]. constructor. assumption.
Qed.
Lemma tries_stop : forall s a o ls, tries s a (Some o) ls -> forall b, tries s (a ++ b) (Some o) ls.
Proof. intros s a o ls H. remember (Some o) as r eqn:E. revert E. induction H; intros E b; try discriminate; cbn; econstructor; eauto. Qed.
Lemma tries_go : forall s a la, tries s a None la -> forall b r lb, tries s b r lb -> tries s (a ++ b) r (la ++ lb).
Proof. intros s a la H. remember None as r0 eqn:E. revert E. induction H; intros E b r9 lb Hb; try discriminate; cbn; [exact Hb|]. econstructor; [eassumption|]. apply IHtries; auto. Qed.
(** The same furthest place. *)
Definition tops (ls ls' : list location) : Prop := forall l, greatest l ls -> greatest l ls'.
Lemma greatest_unique : forall l l' ls, greatest l ls -> greatest l' ls -> l = l'.
Proof.
  intros l l' ls (H1 & H2) (K1 & K2). rewrite Forall_forall in H2, K2. specialize (H2 _ K1). specialize (K2 _ H1). cbn in *.
  apply loc_cmp_eq. rewrite loc_cmp_antisym in H2. destruct (loc_cmp l l'); cbn in *; congruence.
Qed.
Lemma verdict_tops : forall s r ls ls' o n n' o', (r = None -> tops ls ls') -> verdict s r ls o -> verdict s r ls' o' -> ev n s o -> ev n' s o' -> same_outcome eq o o'.
Proof.
  intros s r ls ls' o n n' o' Ht Hv Hv' H H'. destruct r as [q|]; cbn in *.
  - subst. apply so_refl. reflexivity.
  - destruct Hv as (x & -> & Hx), Hv' as (x' & -> & Hx'). constructor; [|reflexivity]. eapply no_same; [exact H|exact H'|].
    eapply greatest_unique; [apply Ht; [reflexivity|exact Hx]|exact Hx'].
Qed.
Lemma defs_law : forall ds ds', 2 <= length ds -> 2 <= length ds' ->
  (forall s r ls, tries s ds r ls -> exists ls', tries s ds' r ls' /\ (r = None -> tops ls ls')) ->
  forall s o, ev (NDefs ds) s o -> exists o', ev (NDefs ds') s o' /\ same_outcome eq o o'.
Proof.
  intros ds ds' L L' H s o Ho. destruct (defs_tries _ _ _ L Ho) as (r & ls & Ht & Hv). destruct (H _ _ _ Ht) as (ls' & Ht' & Htop).
  destruct (tries_defs _ _ _ _ L' Ht') as (o' & Ho' & Hv'). exists o'. split; [exact Ho'|]. eapply verdict_tops; eassumption.
Qed.
Lemma tops_refl : forall ls, tops ls ls.
Proof. intros ls l H. exact H. Qed.
Lemma tops_same : forall ls ls', (forall l, In l ls <-> In l ls') -> tops ls ls'.
Proof. intros ls ls' H l (H1 & H2). split; [apply H; exact H1|]. rewrite Forall_forall in *. intros x Hx. apply H2, H. exact Hx. Qed.
Lemma tops_inside : forall la l ls lb, greatest l ls -> tops (la ++ [l] ++ lb) (la ++ ls ++ lb) /\ tops (la ++ ls ++ lb) (la ++ [l] ++ lb).
Proof.
  intros la l ls lb (G1 & G2). split; intros x (H1 & H2); rewrite Forall_forall in *; split.
  - apply in_or_app. apply in_app_or in H1 as [H1|H1]; [auto|]. right. apply in_or_app. apply in_app_or in H1 as [[->|[]]|H1]; auto.
  - rewrite Forall_forall. intros y Hy. apply in_app_or in Hy as [Hy|Hy]; [apply H2, in_or_app; auto|]. apply in_app_or in Hy as [Hy|Hy]; [|apply H2, in_or_app; right; apply in_or_app; auto].
    specialize (G2 _ Hy). cbn in G2. assert (K : loc_cmp l x <> Gt) by (apply H2, in_or_app; right; left; reflexivity).
    intros Hg. destruct (loc_cmp y l) eqn:E1; [apply loc_cmp_eq in E1; subst; contradiction| |contradiction].
    destruct (loc_cmp l x) eqn:E2; [apply loc_cmp_eq in E2; subst; congruence|rewrite (loc_cmp_lt_trans _ _ _ E1 E2) in Hg; discriminate|contradiction].
  - apply in_or_app. apply in_app_or in H1 as [H1|H1]; [auto|]. right. apply in_app_or in H1 as [H1|H1]; [|right; exact H1]. left.
    apply (greatest_unique l x ls); [split; [exact G1|rewrite Forall_forall; exact G2]|]. split; [exact H1|]. rewrite Forall_forall. intros y Hy. apply H2, in_or_app. right. apply in_or_app. auto.
  - rewrite Forall_forall. intros y Hy. apply in_app_or in Hy as [Hy|Hy]; [apply H2, in_or_app; auto|]. apply in_app_or in Hy as [[->|[]]|Hy]; apply H2, in_or_app; right; apply in_or_app; auto.
Qed.
(** A group as an alternative. *)
Lemma group_tries : forall l d s o, d <> [] -> ev (NSeq [just (PGrouped l d)]) s o -> exists r ls, tries s d r ls /\
  match r with Some o' => o = o' | None => exists x s' e, o = No x s' e /\ greatest (e_loc x) ls end.
Proof.
  intros l d s o Hne H. apply seq_group in H. destruct d as [|d1 [|d2 d]]; [contradiction| |].
  - apply defs_one in H. destruct o as [s' e|x s' e|h].
    + exists (Some (Match s' e)), []. split; [constructor; exact H|reflexivity].
    + exists None, [e_loc x]. split; [econstructor; [exact H|constructor]|]. exists x, s', e. split; [reflexivity|]. split; [left; reflexivity|]. repeat constructor.
      rewrite (proj2 (loc_cmp_eq _ _) eq_refl). discriminate.
    + exists (Some (Halt h)), []. split; [constructor; exact H|reflexivity].
  - apply defs_tries in H; [|cbn; lia]. destruct H as (r & ls & Ht & Hv). exists r, ls. split; [exact Ht|]. destruct r; [exact Hv|]. destruct Hv as (x & -> & Hg). eauto 6.
Qed.
Lemma tries_group : forall l d s r ls, d <> [] -> tries s d r ls -> exists o, ev (NSeq [just (PGrouped l d)]) s o /\
  match r with Some o' => o = o' | None => exists x s' e, o = No x s' e /\ greatest (e_loc x) ls end.
Proof.
  intros l d s r ls Hne H. destruct d as [|d1 [|d2 d]]; [contradiction| |].
  - inversion H; subst.
    + match goal with K : tries _ [] _ _ |- _ => inversion K; subst end. eexists. split; [apply seq_group, defs_one; eassumption|]. eexists _, _, _. split; [reflexivity|]. split; [left; reflexivity|].
      repeat constructor. rewrite (proj2 (loc_cmp_eq _ _) eq_refl). discriminate.
    + eexists. split; [apply seq_group, defs_one; eassumption|reflexivity].
    + eexists. split; [apply seq_group, defs_one; eassumption|reflexivity].
  - destruct (tries_defs _ _ _ _ (ltac:(cbn; lia) : 2 <= length (d1 :: d2 :: d)) H) as (o & Ho & Hv). exists o. split; [apply seq_group; exact Ho|].
    destruct r; [exact Hv|]. destruct Hv as (x & -> & Hg). eauto 6.
Qed.
Lemma len_flat : forall (a b d : definition_list) x, d <> [] -> a ++ b <> [] -> 2 <= length (a ++ [x] ++ b) /\ 2 <= length (a ++ d ++ b).
Proof.
  intros a b d x Hd Hab. rewrite !app_length. cbn. destruct d; [contradiction|]. destruct a, b; cbn in *; try contradiction; lia.
Qed.
Lemma flat_go : forall l d a b, d <> [] -> a ++ b <> [] -> forall s o, ev (NDefs (a ++ [[just (PGrouped l d)]] ++ b)) s o ->
  exists o', ev (NDefs (a ++ d ++ b)) s o' /\ same_outcome eq o o'.
Proof.
  intros l d a b Hd Hab. destruct (len_flat a b d [just (PGrouped l d)] Hd Hab) as (L1 & L2). apply defs_law; [exact L1|exact L2|].
  intros s r ls H. apply tries_app in H as [(o & -> & Ho)|(la & lb & Ha & Hb & ->)].
  - exists ls. split; [apply tries_stop; exact Ho|discriminate].
  - cbn [app] in Hb. inversion Hb; subst;
      match goal with K : SpecParse.ev _ _ (NSeq _) _ _ |- _ => apply (group_tries _ _ _ _ Hd) in K as (r' & ls' & Ht & Hv) end.
    + destruct r' as [o'|]; [subst o'; destruct (tries_some _ _ _ _ Ht _ _ _ eq_refl)|]. destruct Hv as (y & s2 & e2 & Ey & Hg). injection Ey as Ex _ _. subst y.
      match goal with K : tries s b r ?z |- _ => exists (la ++ ls' ++ z); split; [apply tries_go; [exact Ha|]; apply tries_go; assumption|]; intros _; apply (tops_inside la (e_loc x) ls' z Hg) end.
    + destruct r' as [o'|]; [subst o'|destruct Hv as (? & ? & ? & ? & _); discriminate]. exists (la ++ ls'). split; [|discriminate]. apply tries_go; [exact Ha|]. apply tries_stop. exact Ht.
    + destruct r' as [o'|]; [subst o'|destruct Hv as (? & ? & ? & ? & _); discriminate]. exists (la ++ ls'). split; [|discriminate]. apply tries_go; [exact Ha|]. apply tries_stop. exact Ht.
Qed.
Lemma flat_back : forall l d a b, d <> [] -> a ++ b <> [] -> forall s o, ev (NDefs (a ++ d ++ b)) s o ->
  exists o', ev (NDefs (a ++ [[just (PGrouped l d)]] ++ b)) s o' /\ same_outcome eq o o'.
Proof.
  intros l d a b Hd Hab. destruct (len_flat a b d [just (PGrouped l d)] Hd Hab) as (L1 & L2). apply defs_law; [exact L2|exact L1|].
  intros s r ls H. apply tries_app in H as [(o & -> & Ho)|(la & lb & Ha & Hb & ->)].
  - exists ls. split; [apply tries_stop; exact Ho|discriminate].
  - apply tries_app in Hb as [(o & -> & Ho)|(lg & lc & Hg & Hc & ->)].
    + destruct (tries_group l _ _ _ _ Hd Ho) as (o' & Ho' & ->). exists (la ++ []). split; [|discriminate]. apply tries_go; [exact Ha|]. cbn.
      destruct o as [s' e|x s' e|h]; [constructor; exact Ho'|destruct (tries_some _ _ _ _ Ho _ _ _ eq_refl)|constructor; exact Ho'].
    + destruct (tries_group l _ _ _ _ Hd Hg) as (o' & Ho' & x & s' & e & -> & Hx). exists (la ++ [e_loc x] ++ lc). split.
      * apply tries_go; [exact Ha|]. cbn. econstructor; eassumption.
      * intros _. apply (tops_inside la (e_loc x) lg lc Hx).
Qed.
(** An alternative that was tried before. *)
Hypothesis Hnr : no_repeat rules.
Hypothesis Hnd : no_dollar rules.
Lemma len_twice : forall (a b c : definition_list) ts, a ++ b ++ c <> [] -> 2 <= length (a ++ [ts] ++ b ++ [ts] ++ c) /\ 2 <= length (a ++ [ts] ++ b ++ c).
Proof. intros a b c ts H. rewrite !app_length. cbn. destruct a, b, c; cbn in *; try contradiction; lia. Qed.
Lemma twice_go : forall ts a b c, a ++ b ++ c <> [] -> forall s o, ev (NDefs (a ++ [ts] ++ b ++ [ts] ++ c)) s o ->
  exists o', ev (NDefs (a ++ [ts] ++ b ++ c)) s o' /\ same_outcome eq o o'.
Proof.
  intros ts a b c Hne. destruct (len_twice a b c ts Hne) as (L1 & L2). apply defs_law; [exact L1|exact L2|].
  intros s r ls H. apply tries_app in H as [(o & -> & Ho)|(la & lb & Ha & Hb & ->)].
  { exists ls. split; [apply tries_stop; exact Ho|discriminate]. }
  cbn [app] in Hb. inversion Hb as [|d ds x s' e r' l1 Hx Ht|d ds s' e Hx|d ds h Hx]; subst.
  - apply tries_app in Ht as [(o & -> & Ho)|(lb & lc & Hb' & Hc & ->)].
    + exists (la ++ e_loc x :: l1). split; [|discriminate]. apply tries_go; [exact Ha|]. cbn. econstructor; [exact Hx|]. apply tries_stop. exact Ho.
    + cbn [app] in Hc. inversion Hc as [|d ds y s2 e2 r' l1 Hy Ht|d ds s2 e2 Hy|d ds h Hy]; subst; pose proof (ev_fun _ _ Hnr Hnd _ _ _ Hx _ Hy) as E; try discriminate. injection E as <- <- <-.
      exists (la ++ e_loc x :: lb ++ l1). split; [apply tries_go; [exact Ha|]; cbn; econstructor; [exact Hx|]; apply tries_go; assumption|]. intros _. apply tops_same. intros l.
      repeat (rewrite in_app_iff; cbn [In]). tauto.
  - exists (la ++ []). split; [|discriminate]. apply tries_go; [exact Ha|]. cbn. constructor. exact Hx.
  - exists (la ++ []). split; [|discriminate]. apply tries_go; [exact Ha|]. cbn. constructor. exact Hx.
Qed.
Lemma twice_back : forall ts a b c, a ++ b ++ c <> [] -> forall s o, ev (NDefs (a ++ [ts] ++ b ++ c)) s o ->
  exists o', ev (NDefs (a ++ [ts] ++ b ++ [ts] ++ c)) s o' /\ same_outcome eq o o'.
Proof.
  intros ts a b c Hne. destruct (len_twice a b c ts Hne) as (L1 & L2). apply defs_law; [exact L2|exact L1|].
  intros s r ls H. apply tries_app in H as [(o & -> & Ho)|(la & lb & Ha & Hb & ->)].
  { exists ls. split; [apply tries_stop; exact Ho|discriminate]. }
  cbn [app] in Hb. inversion Hb as [|d ds x s' e r' l1 Hx Ht|d ds s' e Hx|d ds h Hx]; subst.
  - apply tries_app in Ht as [(o & -> & Ho)|(lb & lc & Hb' & Hc & ->)].
    + exists (la ++ e_loc x :: l1). split; [|discriminate]. apply tries_go; [exact Ha|]. cbn. econstructor; [exact Hx|]. apply tries_stop. exact Ho.
    + exists (la ++ e_loc x :: lb ++ e_loc x :: lc). split; [apply tries_go; [exact Ha|]; cbn; econstructor; [exact Hx|]; apply tries_go; [exact Hb'|]; econstructor; [exact Hx|exact Hc]|]. intros _. apply tops_same. intros l.
      repeat (rewrite in_app_iff; cbn [In]). tauto.
  - exists (la ++ []). split; [|discriminate]. apply tries_go; [exact Ha|]. cbn. constructor. exact Hx.
  - exists (la ++ []). split; [|discriminate]. apply tries_go; [exact Ha|]. cbn. constructor. exact Hx.
Qed.
(** Alternatives after an empty one. *)
Lemma empty_seq : forall l s o, ev (NSeq [just (PEmpty l)]) s o <-> o = Match s [].
Proof. intros l s o. rewrite (seq_just _ s o). split; [intros H; inversion H; reflexivity|intros ->; constructor]. Qed.
Lemma dead_tries : forall l a b b' s r ls, tries s (a ++ [[just (PEmpty l)]] ++ b) r ls -> exists ls', tries s (a ++ [[just (PEmpty l)]] ++ b') r ls' /\ (r = None -> tops ls ls').
Proof.
  intros l a b b' s r ls H. apply tries_app in H as [(o & -> & Ho)|(la & lb & Ha & Hb & ->)].
  { exists ls. split; [apply tries_stop; exact Ho|discriminate]. }
  cbn [app] in Hb. inversion Hb as [|d ds x s' e r' l1 Hx Ht|d ds s' e Hx|d ds h Hx]; subst; apply empty_seq in Hx as E; try discriminate.
  exists (la ++ []). split; [|discriminate]. apply tries_go; [exact Ha|]. cbn. constructor. exact Hx.
Qed.
Lemma dead_any : forall l a b b', a <> [] -> forall s o, ev (NDefs (a ++ [[just (PEmpty l)]] ++ b)) s o ->
  exists o', ev (NDefs (a ++ [[just (PEmpty l)]] ++ b')) s o' /\ same_outcome eq o o'.
Proof.
  intros l a b b' Ha. apply defs_law; [rewrite !app_length; cbn; destruct a; [contradiction|cbn; lia]|rewrite !app_length; cbn; destruct a; [contradiction|cbn; lia]|].
  intros s r ls H. eapply dead_tries. exact H.
Qed.

(** ** All the laws *)
Lemma exactly_go : forall n n' s o, exactly n n' -> ev n s o -> exists o', ev n' s o' /\ same_outcome eq o o'.
Proof. intros n n' s o H Ho. exists o. split; [apply H; exact Ho|apply so_refl; reflexivity]. Qed.
Lemma exactly_both : forall n n', exactly n n' ->
  (forall s o, ev n s o -> exists o', ev n' s o' /\ same_outcome eq o o') /\ (forall s o, ev n' s o -> exists o', ev n s o' /\ same_outcome eq o o').
Proof. intros n n' H. split; intros s o; apply exactly_go; [exact H|apply exactly_sym; exact H]. Qed.
(** A term with equivalent parts. *)
Lemma term_go : forall f f' x x', exactly (NFactor f) (NFactor f') ->
  match x, x' with Some e, Some e' => exactly (NFactor e) (NFactor e') | None, None => True | _, _ => False end ->
  forall s o, ev (NTerm (Term f x)) s o -> exists o', ev (NTerm (Term f' x')) s o' /\ same_outcome eq o o'.
Proof.
  intros f f' x x' Hf Hx s o H. destruct x as [e|], x' as [e'|]; try contradiction.
  - inversion H; subst.
    + eexists. split; [eapply ev_term_no; apply Hf; eassumption|]. constructor; [apply sp_refl|reflexivity].
    + eexists. split; [eapply ev_term_halt; apply Hf; eassumption|]. apply so_refl. reflexivity.
    + eexists. split; [eapply ev_term_excepted; [apply Hf; eassumption|eassumption|apply Hx; eassumption|assumption]|]. constructor; [apply sp_wanted; reflexivity|reflexivity].
    + eexists. split; [eapply ev_term_kept; [apply Hf; eassumption|eassumption|apply Hx; eassumption|assumption]|]. apply so_refl. reflexivity.
    + eexists. split; [eapply ev_term_exc_halt; [apply Hf; eassumption|eassumption|apply Hx; eassumption]|]. apply so_refl. reflexivity.
  - exists o. split; [|apply so_refl; reflexivity]. apply term_factor, Hf, term_factor. exact H.
Qed.
Lemma exactly_refl : forall n, exactly n n.
Proof. intros n s o. reflexivity. Qed.
Lemma law_ok : forall n n', law n n' ->
  (forall s o, ev n s o -> exists o', ev n' s o' /\ same_outcome eq o o') /\ (forall s o, ev n' s o -> exists o', ev n s o' /\ same_outcome eq o o').
Proof.
  intros n n' H. destruct H as [l d ts|l ts|l ts|p ts|l d|l d a b Hd Hab|ts a b c Hne|l a b Ha|l l' d|l p n x Hnx|l p n f].
  - apply exactly_both. eapply exactly_trans; [apply seq_group|apply exactly_sym, seq_group].
  - apply exactly_both. eapply exactly_trans; [apply seq_group|apply defs_one].
  - apply exactly_both. apply seq_skip; [reflexivity|apply empty_only].
  - apply exactly_both. apply seq_skip; [destruct p; reflexivity|apply zero_only].
  - apply exactly_both. eapply exactly_trans; [apply defs_one|apply seq_group].
  - split; [apply flat_go|apply flat_back]; assumption.
  - split; [apply twice_go|apply twice_back]; assumption.
  - split; intros s o H.
    + exact (dead_any l a b [] Ha s o H).
    + exact (dead_any l a [] b Ha s o H).
  - apply exactly_both. apply optional_twice.
  - split; apply term_go; try (apply factor_same; first [apply group_just|apply exactly_sym, group_just]); destruct x; try exact I; apply exactly_refl.
  - split; apply term_go; try apply exactly_refl; apply factor_same; first [apply group_just|apply exactly_sym, group_just].
Qed.

(** ** The looser ones *)
Definition whatever (a b : list event) : Prop := True.
Notation alike_outcome := (same_outcome whatever).
Lemma any_of_eq : forall o o', same_outcome eq o o' -> alike_outcome o o'.
Proof. intros o o' H. inversion H; subst; constructor; try exact I; assumption. Qed.
Lemma times_no_iff : forall b n i s x s', n <> max_count -> (i <= n)%N ->
  ((exists e, ev (NTimes n n i b) s (No x s' e)) <-> exists k s1 e1 e2, k < N.to_nat (n - i) /\ rounds rules cfg b k s s1 e1 /\ ev b s1 (No x s' e2)).
Proof.
  intros b n i s x s' Hn Hi. split.
  - intros (e & H). remember (NTimes n n i b) as nd eqn:En. remember (No x s' e) as o eqn:Eo. revert i Hi x s' e En Eo.
    induction H; intros i0 Hi0 x9 s9 e9 En Eo; try discriminate; injection En; intros; subst; try discriminate; injection Eo; intros; subst.
    + exists 0, s, [], evs. split; [lia|]. split; [constructor|assumption].
    + destruct (IHev2 (i0 + 1)%N ltac:(lia) x9 s9 [] eq_refl eq_refl) as (k & s1 & e1 & e2 & Hk & Hr & Hx). exists (S k), s1, (evs ++ e1), e2. split; [lia|]. split; [econstructor; eassumption|exact Hx].
  - intros (k & s1 & e1 & e2 & Hk & Hr & Hx). exists []. revert i Hi Hk. induction Hr as [s|k s s1 s2 e1 e3 H1 H2 IH]; intros i Hi Hk.
    + eapply ev_times_short; [lia|lia|exact Hx].
    + eapply ev_times_no; [lia|congruence|exact H1|]. apply IH; [exact Hx|lia|lia].
Qed.
Lemma times_halt_iff : forall b n i s h, n <> max_count -> (i <= n)%N ->
  (ev (NTimes n n i b) s (Halt h) <-> exists k s1 e1, k < N.to_nat (n - i) /\ rounds rules cfg b k s s1 e1 /\ ev b s1 (Halt h)).
Proof.
  intros b n i s h Hn Hi. split.
  - intros H. remember (NTimes n n i b) as nd eqn:En. remember (Halt h) as o eqn:Eo. revert i Hi h En Eo.
    induction H; intros i0 Hi0 h9 En Eo; try discriminate; injection En; intros; subst; try discriminate; try congruence; injection Eo; intros; subst.
    + exists 0, s, []. split; [lia|]. split; [constructor|assumption].
    + destruct (IHev2 (i0 + 1)%N ltac:(lia) h9 eq_refl eq_refl) as (k & s1 & e1 & Hk & Hr & Hx). exists (S k), s1, (evs ++ e1). split; [lia|]. split; [econstructor; eassumption|exact Hx].
  - intros (k & s1 & e1 & Hk & Hr & Hx). revert i Hi Hk. induction Hr as [s|k s s1 s2 e1 e3 H1 H2 IH]; intros i Hi Hk.
    + eapply ev_times_halt; [lia|exact Hx].
    + eapply ev_times_more_halt; [lia|congruence|exact H1|]. apply IH; [exact Hx|lia|lia].
Qed.
Lemma factor_no : forall n p s x s', n <> max_count ->
  ((exists e, ev (NFactor (Factor n p)) s (No x s' e)) <-> exists k s1 e1 e2, k < N.to_nat n /\ rounds rules cfg (NPrim p) k s s1 e1 /\ ev (NPrim p) s1 (No x s' e2)).
Proof.
  intros n p s x s' Hn. destruct (N.eq_dec n 1) as [->|H1].
  - split.
    + intros (e & H). apply factor_one in H. exists 0, s, [], e. split; [lia|]. split; [constructor|exact H].
    + intros (k & s1 & e1 & e2 & Hk & Hr & Hx). replace k with 0 in Hr by lia. inversion Hr; subst. exists e2. apply factor_one. exact Hx.
  - pose proof (times_no_iff (NPrim p) n 0 s x s' Hn ltac:(lia)) as T. rewrite N.sub_0_r in T. rewrite <- T. split; intros (e & H); exists e.
    + inversion H; subst; [congruence|]. assumption.
    + apply ev_factor_many; auto.
Qed.
Lemma factor_halt : forall n p s h, n <> max_count ->
  (ev (NFactor (Factor n p)) s (Halt h) <-> exists k s1 e1, k < N.to_nat n /\ rounds rules cfg (NPrim p) k s s1 e1 /\ ev (NPrim p) s1 (Halt h)).
Proof.
  intros n p s h Hn. destruct (N.eq_dec n 1) as [->|H1].
  - rewrite (factor_one p s (Halt h)). split.
    + intros H. exists 0, s, []. split; [lia|]. split; [constructor|exact H].
    + intros (k & s1 & e1 & Hk & Hr & Hx). replace k with 0 in Hr by lia. inversion Hr; subst. exact Hx.
  - pose proof (times_halt_iff (NPrim p) n 0 s h Hn ltac:(lia)) as T. rewrite N.sub_0_r in T. rewrite <- T. split; intros H.
    + inversion H; subst; [congruence|]. assumption.
    + apply ev_factor_many; auto.
Qed.
Lemma rounds_plus : forall b k j s s2 e, rounds rules cfg b (k + j) s s2 e -> exists s1 e1 e2, rounds rules cfg b k s s1 e1 /\ rounds rules cfg b j s1 s2 e2 /\ e = e1 ++ e2.
Proof.
  intros b k. induction k as [|k IH]; intros j s s2 e H.
  - exists s, [], e. split; [constructor|]. auto.
  - cbn in H. inversion H; subst. destruct (IH _ _ _ _ ltac:(eassumption)) as (s3 & e3 & e4 & K1 & K2 & ->). exists s3, (e1 ++ e3), e4. split; [econstructor; eassumption|]. split; [exact K2|]. apply app_assoc.
Qed.
Lemma rounds_join : forall b k s s1 e1, rounds rules cfg b k s s1 e1 -> forall j s2 e2, rounds rules cfg b j s1 s2 e2 -> rounds rules cfg b (k + j) s s2 (e1 ++ e2).
Proof. intros b k s s1 e1 H. induction H; intros j s9 e9 K; cbn; [exact K|]. rewrite <- app_assoc. econstructor; [eassumption|]. apply IHrounds. exact K. Qed.
Lemma rounds_fewer : forall b k s s2 e, rounds rules cfg b k s s2 e -> forall j, j <= k -> exists s1 e1 e2, rounds rules cfg b j s s1 e1 /\ rounds rules cfg b (k - j) s1 s2 e2.
Proof. intros b k s s2 e H j Hj. replace k with (j + (k - j)) in H by lia. apply rounds_plus in H as (s1 & e1 & e2 & H1 & H2 & _). eauto. Qed.
(** Counts are sums. *)
Definition many (n : N) (p : primary) : term := Term (Factor n p) None.
Lemma many_match : forall n p s s' e, n <> max_count -> (ev (NTerm (many n p)) s (Match s' e) <-> rounds rules cfg (NPrim p) (N.to_nat n) s s' e).
Proof. intros n p s s' e Hn. unfold many. rewrite (term_factor _ s _). apply factor_rounds. exact Hn. Qed.
Lemma many_no : forall n p s x s', n <> max_count ->
  ((exists e, ev (NTerm (many n p)) s (No x s' e)) <-> exists k s1 e1 e2, k < N.to_nat n /\ rounds rules cfg (NPrim p) k s s1 e1 /\ ev (NPrim p) s1 (No x s' e2)).
Proof. intros n p s x s' Hn. rewrite <- (factor_no n p s x s' Hn). split; intros (e & H); exists e; apply term_factor; exact H. Qed.
Lemma many_halt : forall n p s h, n <> max_count ->
  (ev (NTerm (many n p)) s (Halt h) <-> exists k s1 e1, k < N.to_nat n /\ rounds rules cfg (NPrim p) k s s1 e1 /\ ev (NPrim p) s1 (Halt h)).
Proof. intros n p s h Hn. unfold many. rewrite (term_factor _ s _). apply factor_halt. exact Hn. Qed.
Lemma many_bare : forall n p, (grouped p -> n <> 1%N) -> bare_group (many n p) = None.
Proof.
  intros n p H. unfold many, bare_group. destruct p; try reflexivity. destruct (N.eqb_spec n 1); [|reflexivity]. exfalso. apply H; [eexists; eexists; reflexivity|assumption].
Qed.
Lemma before_any : forall a b o o', alike_outcome o o' -> alike_outcome (before a o) (before b o').
Proof. intros a b o o' H. inversion H; subst; constructor; try exact I; assumption. Qed.
Lemma seq_cases : forall t ts s o, bare_group t = None -> ev (NSeq (t :: ts)) s o ->
  (exists s' evs o1, ev (NTerm t) s (Match s' evs) /\ ev (NSeq ts) s' o1 /\ o = before evs o1) \/
  (exists x s' evs, ev (NTerm t) s (No x s' evs) /\ o = No x s' evs) \/ (exists h, ev (NTerm t) s (Halt h) /\ o = Halt h).
Proof. intros t ts s o Hb H. inversion H; subst; try congruence; eauto 8. Qed.
Section Count.
Variables n m : N.
Variable p : primary.
Variable ts : list term.
Hypothesis Hn : n <> max_count.
Hypothesis Hm : m <> max_count.
Hypothesis Hnm : (n + m)%N <> max_count.
Hypothesis Hg : grouped p -> n <> 1%N /\ m <> 1%N /\ (n + m)%N <> 1%N.
Let Bn : bare_group (many n p) = None := many_bare n p (fun h => proj1 (Hg h)).
Let Bm : bare_group (many m p) = None := many_bare m p (fun h => proj1 (proj2 (Hg h))).
Let Bnm : bare_group (many (n + m) p) = None := many_bare (n + m) p (fun h => proj2 (proj2 (Hg h))).
Let nat_sum : N.to_nat (n + m) = N.to_nat n + N.to_nat m := N2Nat.inj_add n m.
Lemma any_refl : forall o, alike_outcome o o.
Proof. apply so_refl. intros; exact I. Qed.
Lemma count_go : forall s o, ev (NSeq (many (n + m) p :: ts)) s o -> exists o', ev (NSeq (many n p :: many m p :: ts)) s o' /\ alike_outcome o o'.
Proof.
  intros s o H. destruct (seq_cases _ _ _ _ Bnm H) as [(s' & evs & o1 & H1 & H2 & ->)|[(x & s' & evs & H1 & ->)|(h & H1 & ->)]].
  - apply (many_match _ _ _ _ _ Hnm) in H1. rewrite nat_sum in H1. apply rounds_plus in H1 as (s1 & e1 & e2 & K1 & K2 & ->).
    apply (many_match _ _ _ _ _ Hn) in K1. apply (many_match _ _ _ _ _ Hm) in K2.
    eexists. split; [eapply ev_seq; [exact Bn|exact K1|]; eapply ev_seq; [exact Bm|exact K2|exact H2]|].
    replace (before e1 (before e2 o1)) with (before (e1 ++ e2) o1) by (destruct o1; cbn; rewrite ?app_assoc; reflexivity). apply any_refl.
  - assert (K : exists e, ev (NTerm (many (n + m) p)) s (No x s' e)) by eauto. apply (many_no _ _ _ _ _ Hnm) in K as (k & s1 & e1 & e2 & Hk & Hr & Hx).
    destruct (le_lt_dec (N.to_nat n) k) as [L|L].
    + destruct (rounds_fewer _ _ _ _ _ Hr _ L) as (s2 & e3 & e4 & R1 & R2). apply (many_match _ _ _ _ _ Hn) in R1.
      assert (K : exists e, ev (NTerm (many m p)) s2 (No x s' e)).
      { apply (many_no _ _ _ _ _ Hm). exists (k - N.to_nat n), s1, e4, e2. split; [lia|]. auto. }
      destruct K as (e & K). eexists. split; [eapply ev_seq; [exact Bn|exact R1|]; apply ev_seq_no; [exact Bm|exact K]|]. constructor; [apply sp_refl|exact I].
    + assert (K : exists e, ev (NTerm (many n p)) s (No x s' e)).
      { apply (many_no _ _ _ _ _ Hn). eauto 8. }
      destruct K as (e & K). eexists. split; [apply ev_seq_no; [exact Bn|exact K]|]. constructor; [apply sp_refl|exact I].
  - apply (many_halt _ _ _ _ Hnm) in H1 as (k & s1 & e1 & Hk & Hr & Hx).
    destruct (le_lt_dec (N.to_nat n) k) as [L|L].
    + destruct (rounds_fewer _ _ _ _ _ Hr _ L) as (s2 & e3 & e4 & R1 & R2). apply (many_match _ _ _ _ _ Hn) in R1.
      assert (K : ev (NTerm (many m p)) s2 (Halt h)).
      { apply (many_halt _ _ _ _ Hm). exists (k - N.to_nat n), s1, e4. split; [lia|]. auto. }
      eexists. split; [eapply ev_seq; [exact Bn|exact R1|]; apply ev_seq_halt; [exact Bm|exact K]|]. apply any_refl.
    + assert (K : ev (NTerm (many n p)) s (Halt h)).
      { apply (many_halt _ _ _ _ Hn). eauto 8. }
      eexists. split; [apply ev_seq_halt; [exact Bn|exact K]|]. apply any_refl.
Qed.
Lemma count_back : forall s o, ev (NSeq (many n p :: many m p :: ts)) s o -> exists o', ev (NSeq (many (n + m) p :: ts)) s o' /\ alike_outcome o o'.
Proof.
  intros s o H. destruct (seq_cases _ _ _ _ Bn H) as [(s' & evs & o1 & H1 & H2 & ->)|[(x & s' & evs & H1 & ->)|(h & H1 & ->)]].
  - apply (many_match _ _ _ _ _ Hn) in H1. destruct (seq_cases _ _ _ _ Bm H2) as [(s2 & evs2 & o2 & H3 & H4 & ->)|[(x & s2 & evs2 & H3 & ->)|(h & H3 & ->)]].
    + apply (many_match _ _ _ _ _ Hm) in H3. pose proof (rounds_join _ _ _ _ _ H1 _ _ _ H3) as K. rewrite <- nat_sum in K. apply (many_match _ _ _ _ _ Hnm) in K.
      eexists. split; [eapply ev_seq; [exact Bnm|exact K|exact H4]|].
      replace (before evs (before evs2 o2)) with (before (evs ++ evs2) o2) by (destruct o2; cbn; rewrite ?app_assoc; reflexivity). apply any_refl.
    + assert (K : exists e, ev (NTerm (many m p)) s' (No x s2 e)) by eauto. apply (many_no _ _ _ _ _ Hm) in K as (k & s1 & e1 & e2 & Hk & Hr & Hx).
      assert (K : exists e, ev (NTerm (many (n + m) p)) s (No x s2 e)).
      { apply (many_no _ _ _ _ _ Hnm). exists (N.to_nat n + k), s1, (evs ++ e1), e2. split; [lia|]. split; [eapply rounds_join; eassumption|exact Hx]. }
      destruct K as (e & K). eexists. split; [apply ev_seq_no; [exact Bnm|exact K]|]. cbn. constructor; [apply sp_refl|exact I].
    + apply (many_halt _ _ _ _ Hm) in H3 as (k & s1 & e1 & Hk & Hr & Hx).
      assert (K : ev (NTerm (many (n + m) p)) s (Halt h)).
      { apply (many_halt _ _ _ _ Hnm). exists (N.to_nat n + k), s1, (evs ++ e1). split; [lia|]. split; [eapply rounds_join; eassumption|exact Hx]. }
      eexists. split; [apply ev_seq_halt; [exact Bnm|exact K]|]. apply any_refl.
  - assert (K : exists e, ev (NTerm (many n p)) s (No x s' e)) by eauto. apply (many_no _ _ _ _ _ Hn) in K as (k & s1 & e1 & e2 & Hk & Hr & Hx).
    assert (K : exists e, ev (NTerm (many (n + m) p)) s (No x s' e)).
    { apply (many_no _ _ _ _ _ Hnm). exists k, s1, e1, e2. split; [lia|]. auto. }
    destruct K as (e & K). eexists. split; [apply ev_seq_no; [exact Bnm|exact K]|]. constructor; [apply sp_refl|exact I].
  - apply (many_halt _ _ _ _ Hn) in H1 as (k & s1 & e1 & Hk & Hr & Hx).
    assert (K : ev (NTerm (many (n + m) p)) s (Halt h)).
    { apply (many_halt _ _ _ _ Hnm). exists k, s1, e1. split; [lia|]. auto. }
    eexists. split; [apply ev_seq_halt; [exact Bnm|exact K]|]. apply any_refl.
Qed.
End Count.
(** Options. *)
Lemma defs_some_tries : forall d s o, d <> [] -> ev (NDefs d) s o -> exists r ls, tries s d r ls /\
  match r with Some o' => o = o' | None => exists x s' e, o = No x s' e /\ greatest (e_loc x) ls end.
Proof. intros d s o Hd H. apply (group_tries (loc_new []) _ _ _ Hd). apply seq_group. exact H. Qed.
Lemma tries_some_defs : forall d s r ls, d <> [] -> tries s d r ls -> exists o, ev (NDefs d) s o /\
  match r with Some o' => o = o' | None => exists x s' e, o = No x s' e /\ greatest (e_loc x) ls end.
Proof. intros d s r ls Hd H. destruct (tries_group (loc_new []) _ _ _ _ Hd H) as (o & Ho & K). exists o. split; [apply seq_group in Ho; exact Ho|exact K]. Qed.
Definition orelse (l : location) (d : definition_list) : definition_list := d ++ [[just (PEmpty l)]].
Lemma len_orelse : forall l d, d <> [] -> 2 <= length (orelse l d).
Proof. intros l d H. unfold orelse. rewrite app_length. cbn. destruct d; [contradiction|cbn; lia]. Qed.
Lemma option_go : forall l l2 d, d <> [] -> forall s o, ev (NPrim (POptional l d)) s o -> exists o', ev (NDefs (orelse l2 d)) s o' /\ alike_outcome o o'.
Proof.
  intros l l2 d Hd s o H. destruct o as [s' e|x s' e|h].
  - apply optional_iff in H as [H|(-> & x & s2 & H)]; destruct (defs_some_tries _ _ _ Hd H) as (r & ls & Ht & Hv); destruct r as [o'|].
    + subst o'. destruct (tries_defs _ _ _ _ (len_orelse l2 d Hd) (tries_stop _ _ _ _ Ht _)) as (o & Ho & ->). exists (Match s' e). split; [exact Ho|apply any_refl].
    + destruct Hv as (? & ? & ? & ? & _). discriminate.
    + subst o'. destruct (tries_some _ _ _ _ Ht _ _ _ eq_refl).
    + assert (K : tries s (orelse l2 d) (Some (Match s [])) (ls ++ [])). { apply tries_go; [exact Ht|]. constructor. apply empty_seq. reflexivity. }
      destruct (tries_defs _ _ _ _ (len_orelse l2 d Hd) K) as (o & Ho & ->). exists (Match s []). split; [exact Ho|]. constructor. exact I.
  - apply optional_never_no in H. destruct H.
  - apply optional_halt in H. destruct (defs_some_tries _ _ _ Hd H) as (r & ls & Ht & Hv); destruct r as [o'|]; [|destruct Hv as (? & ? & ? & ? & _); discriminate].
    subst o'. destruct (tries_defs _ _ _ _ (len_orelse l2 d Hd) (tries_stop _ _ _ _ Ht _)) as (o & Ho & ->). exists (Halt h). split; [exact Ho|apply any_refl].
Qed.
Lemma option_back : forall l l2 d, d <> [] -> forall s o, ev (NDefs (orelse l2 d)) s o -> exists o', ev (NPrim (POptional l d)) s o' /\ alike_outcome o o'.
Proof.
  intros l l2 d Hd s o H. destruct (defs_tries _ _ _ (len_orelse l2 d Hd) H) as (r & ls & Ht & Hv).
  apply tries_app in Ht as [(o' & -> & Ho)|(la & lb & Ha & Hb & ->)].
  - cbn in Hv. subst o'. destruct (tries_some_defs _ _ _ _ Hd Ho) as (o' & Ho' & ->). exists o. split; [|apply any_refl].
    destruct o as [s' e|x s' e|h]; [apply optional_iff; left; exact Ho'|destruct (tries_some _ _ _ _ Ho _ _ _ eq_refl)|apply optional_halt; exact Ho'].
  - inversion Hb as [|d0 ds x s' e r' l1 Hx Ht|d0 ds s' e Hx|d0 ds h Hx]; subst; apply empty_seq in Hx as E; try discriminate. injection E as -> ->. cbn in Hv. subst o.
    destruct (tries_some_defs _ _ _ _ Hd Ha) as (o' & Ho' & x & s2 & e2 & -> & _). exists (Match s e2). split; [|constructor; exact I]. apply optional_iff. right. eauto.
Qed.
Lemma orelse_never_no : forall l d s x s' e, d <> [] -> ev (NDefs (orelse l d)) s (No x s' e) -> False.
Proof.
  intros l d s x s' e Hd H. destruct (option_back l l d Hd _ _ H) as (o' & Ho & K). apply so_no_inv in K as (? & ? & -> & _). apply optional_never_no in Ho. exact Ho.
Qed.
Lemma optional_orelse : forall l l2 d, d <> [] -> exactly (NPrim (POptional l (orelse l2 d))) (NDefs (orelse l2 d)).
Proof.
  intros l l2 d Hd s o. destruct o as [s' e|x s' e|h].
  - rewrite optional_iff. split; [|auto]. intros [H|(_ & x & s2 & H)]; [exact H|]. apply orelse_never_no in H; [destruct H|exact Hd].
  - split; intros H; [apply optional_never_no in H; destruct H|apply orelse_never_no in H; [destruct H|exact Hd]].
  - apply optional_halt.
Qed.
Lemma any_trans : forall a b c, alike_outcome a b -> alike_outcome b c -> alike_outcome a c.
Proof. apply so_trans. intros; exact I. Qed.
Lemma loose_ok : forall n n', loose_law n n' ->
  (forall s o, ev n s o -> exists o', ev n' s o' /\ alike_outcome o o') /\ (forall s o, ev n' s o -> exists o', ev n s o' /\ alike_outcome o o').
Proof.
  intros n n' H. destruct H as [n n' H|n m p ts Hn Hm Hnm Hg|l l' l2 d Hd|l l' d Hd].
  - destruct (law_ok _ _ H) as (G & B). split; intros s o Ho; [destruct (G s o Ho) as (o' & H1 & H2)|destruct (B s o Ho) as (o' & H1 & H2)]; exists o'; auto using any_of_eq.
  - split; [apply count_go; assumption|apply count_back; assumption].
  - split; intros s o H.
    + apply seq_just in H. destruct (option_go l l2 d Hd s o H) as (o' & Ho & K). exists o'. split; [apply seq_group; exact Ho|exact K].
    + apply seq_group in H. destruct (option_back l l2 d Hd s o H) as (o' & Ho & K). exists o'. split; [apply seq_just; exact Ho|exact K].
  - split; intros s o H.
    + apply (optional_orelse l l' d Hd) in H. exact (option_back l l' d Hd s o H).
    + destruct (option_go l l' d Hd s o H) as (o' & Ho & K). exists o'. split; [apply (optional_orelse l l' d Hd); exact Ho|exact K].
Qed.
End Laws.
