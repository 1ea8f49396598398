(** Facts about grammars that can be parsed by looking one character ahead. *)
From Coq Require Import String List NArith Arith Bool Lia.
From Verif Require Import Base Ident Ast Graph SpecText SpecSyntax TextFacts SyntaxFacts SpecParse SpecEvents SpecTotal SpecLL Pure PureFacts ParseFacts EvFacts LangFacts TotalFacts.
Import ListNotations.
Open Scope nat_scope.

Section LL.
Variable rules : list rule.
Variable cfg : config.
Notation lang := (lang cfg rules).
Notation ev := (ev rules cfg).
Notation part := (part rules).
Notation begins := (begins rules cfg).
Notation vanishes := (vanishes rules cfg).

(** ** Groups come last *)
Hypothesis Hstraight : straightforward rules.
Hypothesis Hcalm : unstoppable rules cfg.
Let Hfwd : no_forwarding cfg := proj2 (proj2 (proj2 (proj2 (proj2 Hcalm)))).
Definition part_gl_prim (p : primary) : part (NPrim p) -> groups_last (NPrim p).
Proof.
  revert p. fix IH 1. intros p H.
  assert (Hd : forall d, (forall ts, In ts d -> forall t, In t ts -> part (NPrim (f_prim (t_factor t))) -> groups_last (NPrim (f_prim (t_factor t)))) ->
    part (NDefs d) -> groups_last (NDefs d)).
  { intros d Hin Hp. apply gl_defs. rewrite Forall_forall. intros ts Hts. specialize (Hin ts Hts).
    pose proof (pt_defs _ _ _ Hp Hts) as Hs. clear Hp Hts.
    induction ts as [|[[n q] e] ts IHts]; [apply gl_nil|].
    assert (Ht : groups_last (NTerm (Term (Factor n q) e))).
    { apply gl_term, gl_factor. apply (Hin (Term (Factor n q) e) (or_introl eq_refl)).
      eapply pt_factor, pt_term, pt_head. exact Hs. }
    destruct (bare_group (Term (Factor n q) e)) eqn:Eg.
    - rewrite (proj2 Hstraight _ _ Hs) by congruence. apply gl_last. exact Ht.
    - apply gl_seq; [exact Eg|exact Ht|]. apply IHts; [intros t Hin'; apply Hin; right; exact Hin'|]. eapply pt_rest. exact Hs. }
  destruct p as [l d|l d|l d|l id|l w|l c|l]; try (constructor; fail).
  - apply gl_optional. apply Hd; [|eapply pt_optional; exact H].
    revert d H. clear Hd. intros d _. induction d as [|ts d IHd]; intros ts' Hts; [destruct Hts|]. destruct Hts as [<-|Hts]; [|exact (IHd ts' Hts)].
    clear IHd. induction ts as [|[[n q] e] ts IHts]; intros t Ht; [destruct Ht|]. destruct Ht as [<-|Ht]; [exact (IH q)|exact (IHts t Ht)].
  - apply gl_repeated. apply Hd; [|eapply pt_repeated; exact H].
    revert d H. clear Hd. intros d _. induction d as [|ts d IHd]; intros ts' Hts; [destruct Hts|]. destruct Hts as [<-|Hts]; [|exact (IHd ts' Hts)].
    clear IHd. induction ts as [|[[n q] e] ts IHts]; intros t Ht; [destruct Ht|]. destruct Ht as [<-|Ht]; [exact (IH q)|exact (IHts t Ht)].
  - apply gl_group. apply Hd; [|eapply pt_group; exact H].
    revert d H. clear Hd. intros d _. induction d as [|ts d IHd]; intros ts' Hts; [destruct Hts|]. destruct Hts as [<-|Hts]; [|exact (IHd ts' Hts)].
    clear IHd. induction ts as [|[[n q] e] ts IHts]; intros t Ht; [destruct Ht|]. destruct Ht as [<-|Ht]; [exact (IH q)|exact (IHts t Ht)].
Defined.
Lemma part_gl_seq : forall ts, part (NSeq ts) -> groups_last (NSeq ts).
Proof.
  induction ts as [|[[n q] e] ts IHts]; intros Hs; [apply gl_nil|].
  assert (Ht : groups_last (NTerm (Term (Factor n q) e))).
  { apply gl_term, gl_factor, part_gl_prim. eapply pt_factor, pt_term, pt_head. exact Hs. }
  destruct (bare_group (Term (Factor n q) e)) eqn:Eg.
  - rewrite (proj2 Hstraight _ _ Hs) by congruence. apply gl_last. exact Ht.
  - apply gl_seq; [exact Eg|exact Ht|]. apply IHts. eapply pt_rest. exact Hs.
Qed.
Lemma part_gl_defs : forall d, part (NDefs d) -> groups_last (NDefs d).
Proof. intros d H. apply gl_defs. rewrite Forall_forall. intros ts Hts. apply part_gl_seq. eapply pt_defs; eauto. Qed.
Lemma rules_gl : Forall (fun r => groups_last (NDefs (r_defs r))) rules.
Proof. rewrite Forall_forall. intros r Hr. apply part_gl_defs. apply pt_rule. exact Hr. Qed.
Lemma part_names : forall id r, names rules id r -> part (NDefs (r_defs r)).
Proof. intros id r (H & _). apply pt_rule. exact H. Qed.

(** ** Nothing halts *)
Fixpoint calm (n : node) : Prop :=
  match n with
  | NTimes mn mx i b => calm b /\ straight b /\ (mx = max_count -> ~ words rules cfg b [])
  | NRef l id => defined rules id
  | NAlts ds => Forall (fun d => part (NSeq d)) ds
  | NFwd _ => False
  | _ => part n
  end.
Lemma group_part : forall t d, bare_group t = Some d -> part (NTerm t) -> part (NDefs d).
Proof.
  intros t d H Ht. destruct t as [[k p] ex]. cbn in H. destruct p; try discriminate. destruct ex; try discriminate. destruct (N.eqb_spec k 1); [|discriminate]. injection H as <-.
  eapply pt_group, pt_factor, pt_term. exact Ht.
Qed.
Lemma stay_words : forall n s s' e, ev n s (Match s' e) -> straight n -> p_at s' = p_at s -> words rules cfg n [].
Proof.
  intros n s s' e H Hs Ha. destruct (ev_speaks rules cfg Hfwd rules_gl _ _ _ H Hs) as (w & Hw & Hl).
  pose proof (moved_at s s' (ex_intro _ w Hw) Ha) as ->. rewrite (goes_word _ _ _ _ Hw (goes_nil s)) in Hl. exact Hl.
Qed.
Lemma no_halt : forall n s o, ev n s o -> calm n -> forall h, o <> Halt h.
Proof.
  pose proof Hcalm as (Kdefs & Kmeta & Kspec & Krep & Kmax & _).
  intros n s o H. induction H; intros Hc h0; try discriminate; try (cbn in Hc; exfalso; eapply Hfwd; eassumption).
  - exfalso. cbn in Hc. eapply Kspec; eauto.
  - apply IHev. cbn in *. eapply Kmeta; eauto.
  - apply IHev. cbn in *. eapply part_names; eauto.
  - exfalso. cbn in Hc. contradiction.
  - apply IHev. cbn in *. split; [eapply pt_optional; eauto|]. split; [apply part_gl_defs; eapply pt_optional; eauto|unfold max_count; lia].
  - apply IHev. cbn in *. split; [eapply pt_repeated; eauto|]. split; [apply part_gl_defs; eapply pt_repeated; eauto|]. intros _. eapply Krep. exact Hc.
  - apply IHev. cbn in *. eapply pt_group; eauto.
  - exfalso. destruct Hc as (_ & Hst & Hv). apply (Hv H0). eapply stay_words; eauto.
  - apply IHev. exact (proj1 Hc).
  - apply IHev2. exact Hc.
  - apply IHev. cbn in *. eapply pt_factor; eauto.
  - apply IHev. cbn in *. split; [eapply pt_factor; eauto|]. split; [apply part_gl_prim; eapply pt_factor; eauto|]. intros ->. eapply Kmax. exact Hc.
  - apply IHev. cbn in *. eapply pt_term; eauto.
  - exfalso. exact (proj1 Hstraight _ _ Hc).
  - exfalso. exact (proj1 Hstraight _ _ Hc).
  - apply IHev. cbn in *. eapply group_part; [exact H|]. eapply pt_head; eauto.
  - destruct o as [s2 e2|x2 s2 e2|h2]; cbn; try discriminate. exfalso. cbn in Hc. eapply IHev2; [eapply pt_rest; eauto|reflexivity].
  - exfalso. cbn in Hc. eapply IHev; [eapply pt_head; eauto|reflexivity].
  - apply IHev. cbn in *. eapply pt_defs; [exact Hc|left; reflexivity].
  - exfalso. exact (Kdefs Hc).
  - intros _. eapply IHev; [|reflexivity]. cbn in *. rewrite Forall_forall. intros d Hd. eapply pt_defs; eauto.
  - intros _. cbn in Hc. eapply IHev; [exact (Forall_inv Hc)|reflexivity].
  - intros _. cbn in Hc. eapply IHev2; [exact (Forall_inv_tail Hc)|reflexivity].
  - destruct Hc.
  - destruct Hc.
Qed.

(** ** Every word of the language is matched *)
Variable start : str.
Hypothesis Hahead : one_ahead rules cfg start.
Hypothesis Hleft : forall r, In r rules -> ~ left_recursive rules cfg r.
Notation after := (after rules cfg start).
Lemma after_part : forall n x, after n x -> part n.
Proof.
  intros n x H. induction H; try (eapply part_names; eassumption); eauto using SpecLL.part.
Qed.
Lemma seq_ends : forall ts s, exists o, ev (NSeq ts) s o.
Proof. intros ts s. apply (below_all rules cfg Hleft (S (length (p_rest s)))). lia. Qed.
Lemma seq_answers : forall ts s, part (NSeq ts) -> (exists s' e, ev (NSeq ts) s (Match s' e)) \/ (exists x s' e, ev (NSeq ts) s (No x s' e)).
Proof.
  intros ts s Hp. destruct (seq_ends ts s) as ([s1 e1|x s1 e1|h] & H); [left|right|]; eauto. exfalso. eapply no_halt; eauto.
Qed.
Lemma defs_answers : forall ds s, part (NDefs ds) -> (exists s' e, ev (NDefs ds) s (Match s' e)) \/ (exists x s' e, ev (NDefs ds) s (No x s' e)).
Proof.
  intros ds s Hp. destruct (defs_end rules cfg Hleft ds s) as ([s1 e1|x s1 e1|h] & H); [left|right|]; eauto. exfalso. eapply no_halt; eauto.
Qed.
Definition matched (n : node) (w : str) : Prop :=
  match n with
  | NFactor (Factor k p) => forall M i s s', (i + k = M)%N -> goes s w s' -> after (NFactor (Factor M p)) (hd_error (p_rest s')) ->
      (N.of_nat (length w) <= max_count)%N -> exists e, ev (NTimes M M i (NPrim p)) s (Match s' e)
  | NPrim (PRepeated l d) => forall i s s', goes s w s' -> after n (hd_error (p_rest s')) ->
      (i + N.of_nat (length w) <= max_count)%N -> exists e, ev (NTimes 0 max_count i (NDefs d)) s (Match s' e)
  | _ => forall s s', goes s w s' -> after n (hd_error (p_rest s')) -> (N.of_nat (length w) <= max_count)%N -> exists e, ev n s (Match s' e)
  end.
Lemma matched_prim : forall p w, matched (NPrim p) w ->
  forall s s', goes s w s' -> after (NPrim p) (hd_error (p_rest s')) -> (N.of_nat (length w) <= max_count)%N -> exists e, ev (NPrim p) s (Match s' e).
Proof.
  intros p w H s s' Hg Ha Hl. destruct p; try exact (H s s' Hg Ha Hl). destruct (H 0%N s s' Hg Ha ltac:(lia)) as (e & He). exists e. apply ev_repeated. exact He.
Qed.
Lemma factor_begins : forall f w, lang (NFactor f) w -> forall c v, w = c :: v -> begins (NPrim (f_prim f)) c.
Proof.
  intros f w H. remember (NFactor f) as n eqn:En. revert f En. induction H; intros f0 En c0 v0 Ew; try discriminate.
  injection En as <-. cbn. destruct w1 as [|a w1].
  - cbn in Ew. exact (IHlang2 _ eq_refl _ _ Ew).
  - injection Ew as -> _. exists w1. exact H.
Qed.
Lemma factor_zero : forall p w, lang (NFactor (Factor 0 p)) w -> w = [].
Proof. intros p w H. inversion H; subst; [reflexivity|lia]. Qed.
Lemma repeated_begins : forall l d w, lang (NPrim (PRepeated l d)) w -> forall c v, w = c :: v -> begins (NDefs d) c.
Proof.
  intros l d w H. remember (NPrim (PRepeated l d)) as n eqn:En. revert l d En. induction H; intros l0 d0 En c0 v0 Ew; try discriminate.
  injection En as <- <-. destruct w1 as [|a w1].
  - cbn in Ew. exact (IHlang2 _ _ eq_refl _ _ Ew).
  - injection Ew as -> _. exists w1. exact H.
Qed.
Lemma ev_bare : forall t d s o, bare_group t = Some d -> ev (NTerm t) s o -> ev (NDefs d) s o.
Proof.
  intros t d s o H He. destruct t as [[k p] ex]. cbn in H. destruct p; try discriminate. destruct ex; try discriminate. destruct (N.eqb_spec k 1); [|discriminate]. injection H as <-. subst k.
  inversion He; subst. match goal with X : SpecParse.ev _ _ (NFactor _) _ _ |- _ => inversion X; subst end; [|congruence].
  match goal with X : SpecParse.ev _ _ (NPrim _) _ _ |- _ => inversion X; subst end. assumption.
Qed.
Lemma ev_once : forall b s s' e, ev (NTimes 1 1 0 b) s (Match s' e) -> ev b s (Match s' e).
Proof.
  intros b s s' e H. inversion H; subst; try lia.
  match goal with X : SpecParse.ev _ _ (NTimes 1 1 (0 + 1) b) _ _ |- _ => inversion X; subst; try lia end.
  rewrite app_nil_r. assumption.
Qed.
Lemma goes_split : forall s w1 w2 s', goes s (w1 ++ w2) s' -> exists s1, goes s w1 s1 /\ goes s1 w2 s'.
Proof.
  intros s w1 w2 s' H. apply goes_push in H as (A & B). exists (Pst (w2 ++ p_rest s') (loc_push_str (p_at s) w1)).
  split; apply goes_push; cbn; [rewrite A, app_assoc; auto|]. rewrite B, push_str_app. auto.
Qed.
Lemma goes_hd : forall s c w s', goes s (c :: w) s' -> hd_error (p_rest s) = Some c.
Proof. intros s c w s' (H & _). rewrite H. reflexivity. Qed.
Lemma goes_moved : forall s w s', goes s w s' -> moved s s'.
Proof. intros s w s' H. exists w. exact H. Qed.
Lemma goes_stay : forall s s', goes s [] s' -> s' = s.
Proof. intros s s' H. exact (goes_fun _ _ _ _ H (goes_nil s)). Qed.
Lemma defs_speak : forall d s s' e, part (NDefs d) -> ev (NDefs d) s (Match s' e) -> exists w, goes s w s' /\ lang (NDefs d) w.
Proof. intros d s s' e Hp H. exact (ev_speaks rules cfg Hfwd rules_gl _ _ _ H (part_gl_defs _ Hp)). Qed.
Lemma seq_speaks : forall d s s' e, part (NSeq d) -> ev (NSeq d) s (Match s' e) -> exists w, goes s w s' /\ lang (NSeq d) w.
Proof. intros d s s' e Hp H. exact (ev_speaks rules cfg Hfwd rules_gl _ _ _ H (part_gl_seq _ Hp)). Qed.
Lemma alts_reach : forall l1 d l2 s s' e, (forall d0, In d0 l1 -> exists x s1 e1, ev (NSeq d0) s (No x s1 e1)) ->
  ev (NSeq d) s (Match s' e) -> ev (NAlts (l1 ++ d :: l2)) s (Match s' e).
Proof.
  induction l1 as [|d0 l1 IH]; intros d l2 s s' e Hno H; [apply ev_alts_first; exact H|]. cbn.
  destruct (Hno d0 (or_introl eq_refl)) as (x & s1 & e1 & H1). eapply ev_alts_next; [exact H1|]. apply IH; [|exact H]. intros d1 Hd1. apply Hno. right. exact Hd1.
Qed.
Lemma defs_reach : forall l1 d l2 s s' e, (forall d0, In d0 l1 -> exists x s1 e1, ev (NSeq d0) s (No x s1 e1)) ->
  ev (NSeq d) s (Match s' e) -> ev (NDefs (l1 ++ d :: l2)) s (Match s' e).
Proof.
  intros l1 d l2 s s' e Hno H. pose proof (alts_reach l1 d l2 s s' e Hno H) as Ha.
  destruct l1 as [|d0 l1]; [destruct l2 as [|d2 l2]|destruct l1 as [|d1 l1]].
  - apply ev_defs_one. exact H.
  - apply ev_defs. exact Ha.
  - apply ev_defs. exact Ha.
  - apply ev_defs. exact Ha.
Qed.
Lemma all_matched : forall n w, lang n w -> matched n w.
Proof.
  destruct Hahead as (Achoice & Aopt & Arep & Aspec). pose proof Hcalm as (_ & _ & _ & Krep & Kmax & _).
  intros n w H. induction H; cbn [matched].
  - intros s s' Hg _ _. eexists. apply ev_terminal. exact Hg.
  - intros s s' Hg _ _. rewrite (goes_stay _ _ Hg). eexists. apply ev_empty.
  - intros s1 s1' Hg Ha _. destruct (Aspec l c w s1 s1' Ha) as (e1 & He); [eapply lg_special; eauto|exact Hg|]. eexists. apply ev_special. exact He.
  - intros s s' Hg Ha Hl. destruct (IHlang s s' Hg (af_meta _ _ _ _ _ _ _ Ha H) Hl) as (e & He). eexists. apply ev_meta. eapply ev_ref; eauto.
  - intros s s' Hg Ha _. rewrite (goes_stay _ _ Hg) in *. pose proof (after_part _ _ Ha) as Hp. apply pt_optional in Hp.
    destruct (defs_answers d s Hp) as [(s1 & e1 & H1)|(x & s1 & e1 & H1)].
    + destruct (defs_speak _ _ _ _ Hp H1) as ([|c v] & Hv & Hlv).
      * rewrite (goes_stay _ _ Hv) in H1. eexists. apply ev_optional. eapply ev_times_more; [lia|unfold max_count; lia|exact H1|]. apply ev_times_end. lia.
      * exfalso. rewrite (goes_hd _ _ _ _ Hv) in Ha. apply (Aopt _ _ _ Ha). exists v. exact Hlv.
    + eexists. apply ev_optional. eapply ev_times_stop; [lia|lia|exact H1].
  - intros s s' Hg Ha Hl. destruct (IHlang s s' Hg (af_optional _ _ _ _ _ _ Ha) Hl) as (e & He). eexists. apply ev_optional. eapply ev_times_more; [lia|unfold max_count; lia|exact He|]. apply ev_times_end. lia.
  - intros i s s' Hg Ha Hi. rewrite (goes_stay _ _ Hg) in *. pose proof (after_part _ _ Ha) as Hp0. pose proof (pt_repeated _ _ _ Hp0) as Hp.
    destruct (N.lt_ge_cases i max_count) as [Hlt|Hge]; [|eexists; apply ev_times_end; exact Hge].
    destruct (defs_answers d s Hp) as [(s1 & e1 & H1)|(x & s1 & e1 & H1)].
    + exfalso. destruct (defs_speak _ _ _ _ Hp H1) as ([|c v] & Hv & Hlv); [exact (Krep _ _ Hp0 Hlv)|].
      rewrite (goes_hd _ _ _ _ Hv) in Ha. apply (Arep _ _ _ Ha). exists v. exact Hlv.
    + eexists. eapply ev_times_stop; [exact Hlt|lia|exact H1].
  - intros i s s' Hg Ha Hi. pose proof (after_part _ _ Ha) as Hp0. destruct (goes_split _ _ _ _ Hg) as (s1 & Hg1 & Hg2). rewrite app_length in Hi.
    destruct w1 as [|c1 w1]; [exfalso; exact (Krep _ _ Hp0 H)|]. cbn [length] in Hi.
    assert (Ha1 : after (NDefs d) (hd_error (p_rest s1))).
    { destruct w2 as [|c2 w2]; [rewrite <- (goes_stay _ _ Hg2); eapply af_repeated; exact Ha|].
      rewrite (goes_hd _ _ _ _ Hg2). eapply af_round; [exact Ha|]. eapply repeated_begins; [exact H0|reflexivity]. }
    destruct (IHlang1 s s1 Hg1 Ha1) as (e1 & He1); [cbn [length]; lia|]. destruct (IHlang2 (i + 1)%N s1 s' Hg2 Ha) as (e2 & He2); [lia|].
    eexists. eapply ev_times_more; [lia| |exact He1|exact He2]. intros _ E.
    pose proof (moved_at s s1 (goes_moved _ _ _ Hg1) E) as ->. pose proof (goes_word _ _ _ _ Hg1 (goes_nil s)). discriminate.
  - intros s s' Hg Ha Hl. destruct (IHlang s s' Hg (af_group _ _ _ _ _ _ Ha) Hl) as (e & He). eexists. apply ev_grouped. exact He.
  - intros M i s s' HM Hg _ _. rewrite (goes_stay _ _ Hg). eexists. apply ev_times_end. lia.
  - intros M i s s' HM Hg Ha Hl. destruct (goes_split _ _ _ _ Hg) as (s1 & Hg1 & Hg2). rewrite app_length in Hl.
    assert (Ha1 : after (NPrim p) (hd_error (p_rest s1))).
    { destruct w2 as [|c2 w2]; [rewrite <- (goes_stay _ _ Hg2); eapply af_factor; exact Ha|].
      rewrite (goes_hd _ _ _ _ Hg2). eapply af_again; [exact Ha| |exact (factor_begins _ _ H0 _ _ eq_refl)].
      destruct (N.eq_dec n 0) as [->|]; [|lia]. pose proof (factor_zero _ _ H0). discriminate. }
    destruct (matched_prim _ _ IHlang1 s s1 Hg1 Ha1) as (e1 & He1); [lia|].
    destruct (IHlang2 M (i + 1)%N s1 s' ltac:(lia) Hg2 Ha) as (e2 & He2); [lia|].
    eexists. eapply ev_times_more; [lia| |exact He1|exact He2]. intros EM E. subst M. rewrite EM in Ha.
    pose proof (moved_at s s1 (goes_moved _ _ _ Hg1) E) as ->. apply (Kmax p (after_part _ _ Ha)).
    rewrite (goes_word _ _ _ _ Hg1 (goes_nil s)) in H. exact H.
  - intros s s' Hg Ha Hl. pose proof (after_part _ _ Ha) as Hp. destruct e as [e|]; [exfalso; exact (proj1 Hstraight _ _ Hp)|]. destruct f as [k p].
    destruct (IHlang k 0%N s s' ltac:(lia) Hg (af_term _ _ _ _ _ _ Ha) Hl) as (e & He). exists e. apply ev_term_plain.
    destruct (N.eq_dec k 1) as [->|Hk]; [apply ev_factor_one; apply ev_once; exact He|apply ev_factor_many; assumption].
  - intros s s' Hg _ _. rewrite (goes_stay _ _ Hg). eexists. apply ev_seq_nil.
  - intros s s' Hg Ha Hl. destruct (goes_split _ _ _ _ Hg) as (s1 & Hg1 & Hg2). rewrite app_length in Hl.
    assert (Ha1 : after (NTerm t) (hd_error (p_rest s1))).
    { destruct w2 as [|c2 w2]; [rewrite <- (goes_stay _ _ Hg2); eapply af_head_last; [exact Ha|exact H0]|].
      rewrite (goes_hd _ _ _ _ Hg2). eapply af_head; [exact Ha|]. exists w2. exact H0. }
    destruct (IHlang1 s s1 Hg1 Ha1) as (e1 & He1); [lia|]. destruct (bare_group t) as [d|] eqn:Eg.
    + pose proof (proj2 Hstraight _ _ (after_part _ _ Ha) ltac:(congruence)) as ->. inversion H0; subst. rewrite (goes_stay _ _ Hg2).
      exists e1. eapply ev_seq_group; [exact Eg|]. eapply ev_bare; eauto.
    + destruct (IHlang2 s1 s' Hg2 (af_rest _ _ _ _ _ _ Ha)) as (e2 & He2); [lia|]. eexists. exact (ev_seq _ _ _ _ _ _ _ _ Eg He1 He2).
  - intros s s' Hg Ha Hl. pose proof (after_part _ _ Ha) as Hp. destruct (IHlang s s' Hg (af_defs _ _ _ _ _ _ Ha H) Hl) as (e & He). exists e.
    apply in_split in H as (l1 & l2 & ->). apply defs_reach; [|exact He]. intros d0 Hd0.
    assert (Hp0 : part (NSeq d0)) by (eapply pt_defs; [exact Hp|apply in_or_app; left; exact Hd0]).
    destruct (seq_answers d0 s Hp0) as [(s1 & e1 & H1)|Hn]; [|exact Hn]. exfalso.
    apply in_split in Hd0 as (m1 & m2 & ->). rewrite <- app_assoc in Ha. cbn [app] in Ha.
    destruct (Achoice _ _ _ _ _ _ Ha) as (Hv & Hdis & Hfol). destruct (seq_speaks _ _ _ _ Hp0 H1) as ([|c v] & Hg1 & Hlv); [exact (Hv Hlv)|].
    pose proof (goes_hd _ _ _ _ Hg1) as Hc. destruct w as [|c' w].
    + rewrite (goes_stay _ _ Hg) in *. apply (Hfol H0 c Hc). exists v. exact Hlv.
    + rewrite (goes_hd _ _ _ _ Hg) in Hc. injection Hc as ->. apply (Hdis c); [exists v; exact Hlv|exists w; exact H0].
Qed.
(** ** A rule, on a whole text *)
Lemma start_matched : forall r s, names rules start r -> lang (NDefs (r_defs r)) (p_rest s) -> (N.of_nat (length (p_rest s)) <= max_count)%N ->
  exists s' e, means rules cfg start s (Match s' e) /\ p_rest s' = [].
Proof.
  intros r s Hr Hl Hn. set (s' := Pst [] (loc_push_str (p_at s) (p_rest s))).
  assert (Hg : goes s (p_rest s) s') by (apply goes_push; cbn; rewrite app_nil_r; auto).
  destruct (all_matched _ _ Hl s s' Hg (af_start _ _ _ _ Hr) Hn) as (e & He). exists s'. eexists. split; [|reflexivity]. exists r. split; [exact Hr|]. eapply ev_ref; [|exact He].
  split; [exact (proj1 Hr)|]. apply same_name_keyed. reflexivity.
Qed.
End LL.
