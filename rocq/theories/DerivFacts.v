(** Derivations and what a parser does. *)
From Coq Require Import String List NArith Arith Bool Lia.
From Verif Require Import Base Ident Ast Graph Machine SpecText SpecSyntax TextFacts SyntaxFacts SpecParse SpecEvents SpecTotal SpecLL SpecDeriv Pure PureFacts ParseFacts EvFacts EventFacts LangFacts TotalFacts LLFacts.
Import ListNotations.
Open Scope nat_scope.

(** ** Solid events *)
Definition no_end (es : list event) : Prop := match es with EvEnd _ _ _ :: _ => False | _ => True end.
Lemma solid_nested : forall a, nested a -> exists a', no_end a' /\ forall b, fold_right solid_step b a = a' ++ b.
Proof.
  intros a H. induction H as [|d l t r H IH|d l l2 b a r Ha IHa Hr IHr].
  - exists []. split; [exact I|reflexivity].
  - destruct IH as (r' & Hr' & E). destruct t as [|c t].
    + exists r'. split; [exact Hr'|]. intros b. cbn. apply E.
    + exists (EvToken d l (c :: t) :: r'). split; [exact I|]. intros b. cbn. rewrite E. reflexivity.
  - destruct IHa as (a' & Ha' & Ea). destruct IHr as (r' & Hr' & Er).
    exists (match a' with [] => r' | _ => EvBegin d l b :: a' ++ EvEnd d l2 b :: r' end). split; [destruct a'; [exact Hr'|exact I]|].
    intros b0. cbn [fold_right]. rewrite fold_right_app. cbn [fold_right]. rewrite Er. change (solid_step (EvEnd d l2 b) (r' ++ b0)) with (EvEnd d l2 b :: r' ++ b0). rewrite Ea.
    destruct a' as [|[d1 l1 t1|d1 l1 t1|d1 l1 t1] a']; cbn in *; try contradiction; rewrite <- ?app_assoc; reflexivity.
Qed.
Lemma solid_app : forall a b, nested a -> solid (a ++ b) = solid a ++ solid b.
Proof.
  intros a b H. destruct (solid_nested _ H) as (a' & _ & E). unfold solid. rewrite fold_right_app, !E, app_nil_r. reflexivity.
Qed.
Lemma solid_still : forall a, nested a -> tokens a = [] -> solid a = [].
Proof.
  assert (T : forall a b, tokens (a ++ b) = tokens a ++ tokens b) by (induction a as [|[] a IH]; intros b; cbn; rewrite ?IH, ?app_assoc; reflexivity).
  intros a H. induction H as [|d l t r H IH|d l l2 b a r Ha IHa Hr IHr]; intros Ht; cbn in Ht.
  - reflexivity.
  - apply app_eq_nil in Ht as (-> & Ht). cbn. apply IH. exact Ht.
  - rewrite T in Ht. cbn in Ht. apply app_eq_nil in Ht as (Hta & Htr). cbn [solid fold_right]. rewrite fold_right_app. cbn [fold_right].
    destruct (solid_nested _ Ha) as (a' & _ & Ea). specialize (IHa Hta). unfold solid in IHa. rewrite Ea, app_nil_r in IHa. subst a'.
    rewrite Ea. cbn. exact (IHr Htr).
Qed.
Lemma still_solid : forall s a, nested a -> trail s a s -> solid a = [].
Proof. intros s a Hn Ht. apply solid_still; [exact Hn|]. apply trail_tokens in Ht. exact (goes_word _ _ _ _ Ht (goes_nil s)). Qed.
Lemma solid_wrap : forall d l l2 b a a', nested a -> nested a' -> solid a = solid a' ->
  solid (EvBegin d l b :: a ++ [EvEnd d l2 b]) = solid (EvBegin d l b :: a' ++ [EvEnd d l2 b]).
Proof.
  intros d l l2 b a a' H H' E. change (solid_step (EvBegin d l b) (solid (a ++ [EvEnd d l2 b])) = solid_step (EvBegin d l b) (solid (a' ++ [EvEnd d l2 b]))).
  rewrite (solid_app _ _ H), (solid_app _ _ H'), E. reflexivity.
Qed.
Lemma solid_remove : forall n a, length a <= n -> solid (remove_pairs a) = solid a.
Proof.
  assert (K : forall e a, solid (e :: a) = solid_step e (solid a)) by reflexivity.
  induction n as [|n IH]; intros a Hn; (destruct a as [|e r]; [reflexivity|]); cbn in Hn; [lia|].
  destruct e as [d l t|d l b|d l b].
  - cbn [remove_pairs]. rewrite !K, IH by lia. reflexivity.
  - destruct r as [|[d2 l2 t2|d2 l2 b2|d2 l2 b2] r2].
    1: reflexivity.
    1,2: match goal with |- _ = solid (_ :: ?r) => change (solid_step (EvBegin d l b) (solid (remove_pairs r)) = solid_step (EvBegin d l b) (solid r)) end; rewrite IH by lia; reflexivity.
    cbn [remove_pairs]. cbn in Hn. rewrite IH by lia. reflexivity.
  - cbn [remove_pairs]. rewrite !K, IH by lia. reflexivity.
Qed.
Lemma solid_filter : forall a, solid (remove_empty_pairs a) = solid a.
Proof.
  intros [|e r]; [reflexivity|]. change (solid_step e (solid (remove_pairs r)) = solid_step e (solid r)). rewrite (solid_remove _ r (le_n _)). reflexivity.
Qed.

(** ** Derivations *)
Section Derives.
Variable rules : list rule.
Variable cfg : config.
Notation derives := (derives rules cfg).
Lemma derives_lang : forall n s e s', derives n s e s' -> exists w, goes s w s' /\ lang cfg rules n w.
Proof.
  intros n s e s' H. induction H.
  - exists w. split; [assumption|constructor].
  - exists []. split; [apply goes_nil|constructor].
  - destruct (scanned_moved _ _ _ _ H) as (w & Hw). exists w. split; [exact Hw|eapply lg_special; eauto].
  - destruct IHderives as (w & Hw & Hl). exists w. split; [exact Hw|eapply lg_meta; eauto].
  - exists []. split; [apply goes_nil|constructor].
  - destruct IHderives as (w & Hw & Hl). exists w. split; [exact Hw|constructor; exact Hl].
  - exists []. split; [apply goes_nil|constructor].
  - destruct IHderives1 as (w1 & Hw1 & Hl1), IHderives2 as (w2 & Hw2 & Hl2). exists (w1 ++ w2). split; [eapply goes_app; eauto|constructor; assumption].
  - destruct IHderives as (w & Hw & Hl). exists w. split; [exact Hw|constructor; exact Hl].
  - exists []. split; [apply goes_nil|constructor].
  - destruct IHderives1 as (w1 & Hw1 & Hl1), IHderives2 as (w2 & Hw2 & Hl2). exists (w1 ++ w2). split; [eapply goes_app; eauto|constructor; assumption].
  - destruct IHderives as (w & Hw & Hl). exists w. split; [exact Hw|constructor; exact Hl].
  - exists []. split; [apply goes_nil|constructor].
  - destruct IHderives1 as (w1 & Hw1 & Hl1), IHderives2 as (w2 & Hw2 & Hl2). exists (w1 ++ w2). split; [eapply goes_app; eauto|constructor; assumption].
  - destruct IHderives as (w & Hw & Hl). exists w. split; [exact Hw|econstructor; eauto].
Qed.
Lemma derives_nested : nesting_scanners cfg -> forall n s e s', derives n s e s' -> nested e.
Proof.
  intros Hn n s e s' H. induction H; auto using nested, nested_app; try (repeat constructor; fail); try (eapply Hn; eassumption).
Qed.
Lemma derives_trail : spelling_scanners cfg -> forall n s e s', derives n s e s' -> trail s e s'.
Proof.
  intros Hn n s e s' H. induction H; eauto using trail, trail_app; try (eapply Hn; eassumption).
Qed.

(** ** Every match is a derivation *)
Inductive chain (R : pst -> list event -> pst -> Prop) : nat -> pst -> list event -> pst -> Prop :=
| ch_nil : forall s, chain R 0 s [] s
| ch_more : forall k s e1 s1 e2 s2, R s e1 s1 -> chain R k s1 e2 s2 -> chain R (S k) s (e1 ++ e2) s2.
Fixpoint ways (n : node) (s : pst) (e : list event) (s' : pst) : Prop :=
  match n with
  | NTimes mn mx i b => exists k, chain (ways b) k s e s' /\ (mn <= i + N.of_nat k)%N /\ (i + N.of_nat k <= N.max i mx)%N
  | NRef l id => derives (NPrim (PMeta l id)) s e s'
  | NAlts ds => derives (NDefs ds) s e s'
  | NFwd _ => False
  | _ => derives n s e s'
  end.
Lemma chain_repeated : forall l d k s e s', chain (derives (NDefs d)) k s e s' -> derives (NPrim (PRepeated l d)) s e s'.
Proof. intros l d k s e s' H. induction H; [apply dv_stop|eapply dv_repeated; eauto]. Qed.
Lemma chain_times : forall p k s e s', chain (derives (NPrim p)) k s e s' -> derives (NFactor (Factor (N.of_nat k) p)) s e s'.
Proof.
  intros p k s e s' H. induction H; [apply dv_zero|]. replace (N.of_nat (S k)) with (N.succ (N.of_nat k)) by lia. eapply dv_times; eauto.
Qed.
Lemma derives_once : forall p s e s', derives (NPrim p) s e s' -> derives (NFactor (Factor 1 p)) s e s'.
Proof. intros p s e s' H. rewrite <- (app_nil_r e). change 1%N with (N.succ 0). eapply dv_times; [exact H|apply dv_zero]. Qed.
Lemma derives_last : forall t s e s', derives (NTerm t) s e s' -> derives (NSeq [t]) s e s'.
Proof. intros t s e s' H. rewrite <- (app_nil_r e). eapply dv_seq; [exact H|apply dv_nil]. Qed.
Lemma group_derives : forall t d s e s', bare_group t = Some d -> derives (NDefs d) s e s' -> derives (NTerm t) s e s'.
Proof.
  intros t d s e s' H Ht. destruct t as [[k p] ex]. cbn in H. destruct p; try discriminate. destruct ex; try discriminate. destruct (N.eqb_spec k 1); [|discriminate]. injection H as ->. subst k.
  apply dv_term, derives_once, dv_group. exact Ht.
Qed.
Hypothesis Hfwd : no_forwarding cfg.
Hypothesis Hrules : Forall (fun r => groups_last (NDefs (r_defs r))) rules.
(** The events of the derivation are those of the match if nothing is left behind by bodies
    that fail. *)
Definition exact (n : node) (e e' : list event) : Prop :=
  Forall (fun r => tidy (NDefs (r_defs r))) rules -> tidy n -> e' = e.
Definition derived (n : node) (s : pst) (o : outcome) : Prop :=
  match o with Match s' e => exists e', ways n s e' s' /\ exact n e e' | _ => True end.
Lemma ev_derived : forall n s o, ev rules cfg n s o -> straight n -> derived n s o.
Proof.
  intros n s o H. induction H; intros Ht; try exact I; try (exfalso; eapply Hfwd; eassumption).
  - eexists. split; [apply dv_terminal; exact H|]. intros _ _. reflexivity.
  - eexists. split; [apply dv_empty|]. intros _ _. reflexivity.
  - eexists. split; [apply dv_special; exact H|]. intros _ _. reflexivity.
  - destruct o as [s' e| |]; try exact I. destruct (IHev I) as (e' & Hw & He). exists e'. split; [exact Hw|]. intros HF Td. apply He; [exact HF|constructor].
  - destruct (IHev (rule_straight _ Hrules _ _ H)) as (e' & Hw & He). eexists. split; [eapply dv_meta; eauto|]. intros HF _. rewrite (He HF (rule_tidy _ HF _ _ H)). reflexivity.
  - destruct o as [s' e| |]; try exact I. destruct IHev as (e' & (k & Hc & H1 & H2) & He); [cbn in *; inversion Ht; subst; split; [assumption|lia]|].
    exists e'. split; [|intros HF Td; apply He; [exact HF|]; inversion Td; subst; apply td_times; assumption].
    cbn [ways]. inversion Hc as [|k1 s0 e1 s1 e2 s2 Hr Hc' E1 E2]; subst; [apply dv_none|]. inversion Hc' as [|k2 s0 e3 s3 e4 s4 Hr' Hc'']; subst; [|lia]. rewrite app_nil_r. apply dv_optional. exact Hr.
  - destruct o as [s' e| |]; try exact I. destruct IHev as (e' & (k & Hc & H1 & H2) & He); [cbn in *; inversion Ht; subst; split; [assumption|unfold max_count; lia]|].
    exists e'. split; [eapply chain_repeated; exact Hc|intros HF Td; apply He; [exact HF|]; inversion Td; subst; apply td_times; assumption].
  - destruct o as [s' e| |]; try exact I. destruct IHev as (e' & Hw & He); [cbn in *; inversion Ht; subst; assumption|]. exists e'. split; [apply dv_group; exact Hw|].
    intros HF Td. apply He; [exact HF|]. inversion Td; subst. assumption.
  - destruct Ht as (_ & H1 & H2). exists []. split; [|intros _ _; reflexivity]. exists 0. split; [apply ch_nil|lia].
  - exists []. split; [exists 0; split; [apply ch_nil|lia]|]. intros HF Td. symmetry. inversion Td; subst; [|lia].
    match goal with K : clean b |- _ => exact (clean_ok rules cfg b K _ _ H1) end.
  - destruct Ht as (Hb & Hmm & Hi). destruct (IHev1 Hb) as (e1 & Hw1 & He1). destruct IHev2 as (e2 & (k & Hc & K1 & K2) & He2); [split; [exact Hb|]; lia|].
    exists (e1 ++ e2). split; [exists (S k); split; [eapply ch_more; eauto|]; lia|]. intros HF Td. rewrite He1, He2; auto.
    + inversion Td; subst; [apply td_times|apply td_times_exact]; assumption.
    + inversion Td; subst; assumption.
  - destruct o as [s' e| |]; try exact I. destruct IHev as (e' & Hw & He); [cbn in *; inversion Ht; subst; assumption|]. exists e'. split; [apply derives_once; exact Hw|].
    intros HF Td. apply He; [exact HF|]. inversion Td; subst. assumption.
  - destruct o as [s' e| |]; try exact I. destruct IHev as (e' & (k & Hc & K1 & K2) & He); [cbn in *; inversion Ht; subst; split; [assumption|lia]|].
    exists e'. split; [replace n with (N.of_nat k) by lia; apply chain_times; exact Hc|].
    intros HF Td. apply He; [exact HF|]. inversion Td; subst. apply td_times_exact. assumption.
  - destruct o as [s' e| |]; try exact I. destruct IHev as (e' & Hw & He); [cbn in *; inversion Ht; subst; assumption|]. exists e'. split; [apply dv_term; exact Hw|].
    intros HF Td. apply He; [exact HF|]. inversion Td; subst. assumption.
  - destruct IHev1 as (e1 & Hw & He); [cbn in *; inversion Ht; subst; assumption|]. exists e1. split; [apply dv_term; exact Hw|].
    intros HF Td. apply He; [exact HF|]. inversion Td; subst. assumption.
  - exists []. split; [apply dv_nil|intros _ _; reflexivity].
  - destruct o as [s' e| |]; try exact I. cbn in Ht. inversion Ht as [| | | | | | | | | |t0 Ht0|t0 ts0 Hb0 Ht0 Hs0|]; subst; [|congruence].
    destruct IHev as (e' & Hw & He); [eapply group_straight; eauto|]. exists e'. split; [apply derives_last; eapply group_derives; eauto|].
    intros HF Td. apply He; [exact HF|]. eapply tidy_group; eauto.
  - destruct o as [s2 e2| |]; try exact I. cbn in Ht.
    assert (K : groups_last (NTerm t) /\ groups_last (NSeq ts)) by (inversion Ht; subst; auto using groups_last).
    destruct (IHev1 (proj1 K)) as (e1 & Hw1 & He1). destruct (IHev2 (proj2 K)) as (e3 & Hw2 & He2).
    exists (e1 ++ e3). split; [eapply dv_seq; eauto|]. intros HF Td. inversion Td; subst. rewrite He1, He2; auto.
  - destruct o as [s' e| |]; try exact I. cbn in Ht. inversion Ht as [| | | | | | | | | | | |ds0 HF0]; subst. destruct (IHev (Forall_inv HF0)) as (e' & Hw & He).
    exists e'. split; [eapply dv_defs; [left; reflexivity|exact Hw]|]. intros HF Td. apply He; [exact HF|]. inversion Td as [| | | | | | | | | | | |ds9 HT| | |]; subst. exact (Forall_inv HT).
  - destruct (IHev Ht) as (e' & Hw & He). exists e'. split; [exact Hw|]. intros HF Td. apply He; [exact HF|]. inversion Td; subst. apply td_alts. assumption.
  - cbn in Ht. inversion Ht as [| | | | | | | | | | | |ds0 HF0]; subst. destruct (IHev (Forall_inv HF0)) as (e' & Hw & He).
    exists e'. split; [eapply dv_defs; [left; reflexivity|exact Hw]|]. intros HF Td. apply He; [exact HF|]. inversion Td as [| | | | | | | | | | | | |ds9 HT| |]; subst. exact (Forall_inv HT).
  - cbn in Ht. inversion Ht as [| | | | | | | | | | | |ds0 HF0]; subst. destruct IHev2 as (e' & Hw & He); [cbn; apply gl_defs; exact (Forall_inv_tail HF0)|].
    exists e'. split; [cbn in *; inversion Hw; subst; eapply dv_defs; [right; eassumption|assumption]|].
    intros HF Td. apply He; [exact HF|]. inversion Td as [| | | | | | | | | | | | |ds9 HT| |]; subst. apply td_alts. exact (Forall_inv_tail HT).
  - destruct Ht.
  - destruct Ht.
Qed.
End Derives.

(** ** What cannot begin with the next character reads nothing and leaves no tokens *)
Section Still.
Variable rules : list rule.
Variable cfg : config.
Hypothesis Hstraight : straightforward rules.
Hypothesis Hfwd : no_forwarding cfg.
Hypothesis Hspell : spelling_scanners cfg.
Hypothesis Hprod : productive rules cfg.
Notation lang := (lang cfg rules).
Notation ev := (ev rules cfg).
Notation part := (part rules).
Notation begins := (begins rules cfg).
Fixpoint quiet (n : node) (s : pst) : Prop :=
  match n with
  | NTimes mn mx i b => (i < mx)%N -> quiet b s
  | NRef l id => forall c, hd_error (p_rest s) = Some c -> ~ begins (NPrim (PMeta l id)) c
  | NAlts ds => forall d, In d ds -> forall c, hd_error (p_rest s) = Some c -> ~ begins (NSeq d) c
  | _ => forall c, hd_error (p_rest s) = Some c -> ~ begins n c
  end.
Fixpoint whole (n : node) : Prop :=
  match n with
  | NTimes mn mx i b => whole b /\ straight b
  | NRef _ _ => True
  | NAlts ds => Forall (fun d => part (NSeq d)) ds
  | NFwd _ => False
  | _ => part n
  end.
Definition still (s : pst) (o : outcome) : Prop :=
  match o with Match s' e => s' = s /\ trail s e s | No _ _ e => trail s e s | Halt _ => True end.
Lemma quiet_stays : forall n s s' e, ev n s (Match s' e) -> straight n -> (forall c, hd_error (p_rest s) = Some c -> forall w, ~ words rules cfg n (c :: w)) -> s' = s.
Proof.
  intros n s s' e H Hs Hq. destruct (ev_speaks rules cfg Hfwd (rules_gl rules Hstraight) _ _ _ H Hs) as ([|c w] & Hw & Hl); [exact (goes_stay _ _ Hw)|].
  exfalso. exact (Hq c (goes_hd _ _ _ _ Hw) w Hl).
Qed.
Lemma times_begins : forall n p c, (0 < n)%N -> part (NPrim p) -> begins (NPrim p) c -> begins (NFactor (Factor n p)) c.
Proof.
  intros n p c Hn Hp (w & Hw). destruct (Hprod _ Hp) as (v & Hv).
  assert (K : forall k, exists u, lang (NFactor (Factor (N.of_nat k) p)) u).
  { induction k as [|k (u & Hu)]; [exists []; apply lg_zero|]. exists (v ++ u). replace (N.of_nat (S k)) with (N.succ (N.of_nat k)) by lia. apply lg_times; assumption. }
  destruct (K (N.to_nat (N.pred n))) as (u & Hu). exists (w ++ u). change (c :: w ++ u) with ((c :: w) ++ u).
  replace n with (N.succ (N.of_nat (N.to_nat (N.pred n)))) by lia. apply lg_times; assumption.
Qed.
Lemma all_still : forall n s o, ev n s o -> whole n -> quiet n s -> still s o.
Proof.
  intros n s o H. induction H; intros Hw Hq; try exact I; try (exfalso; eapply Hfwd; eassumption); try (apply tr_nil).
  - split; [|]. 
    + destruct w as [|c w]; [exact (goes_stay _ _ H)|]. exfalso. apply (Hq c (goes_hd _ _ _ _ H)). exists w. constructor.
    + destruct w as [|c w]; [eapply tr_token; [apply goes_nil|constructor]|]. exfalso. apply (Hq c (goes_hd _ _ _ _ H)). exists w. constructor.
  - split; [reflexivity|constructor].
  - destruct (scanned_moved _ _ _ _ H) as ([|c0 w] & Hg).
    + rewrite (goes_stay _ _ Hg) in *. split; [reflexivity|]. exact (Hspell _ _ _ _ _ H).
    + exfalso. apply (Hq c0 (goes_hd _ _ _ _ Hg)). exists w. eapply lg_special; eauto.
  - apply IHev; [exact I|exact Hq].
  - destruct IHev as (-> & T); [apply pt_rule; exact (proj1 H)| |].
    + intros c Hc (w & Hw'). apply (Hq c Hc). exists w. eapply lg_meta; eauto.
    + split; [reflexivity|]. cbn. apply tr_begin. eapply trail_app; [exact T|]. repeat constructor.
  - cbn in Hw. pose proof (pt_optional _ _ _ Hw) as Hd. apply IHev; [split; [exact Hd|exact (part_gl_defs rules Hstraight _ Hd)]|].
    intros _ c Hc (w & Hw'). apply (Hq c Hc). exists w. apply lg_optional. exact Hw'.
  - cbn in Hw. pose proof (pt_repeated _ _ _ Hw) as Hd. apply IHev; [split; [exact Hd|exact (part_gl_defs rules Hstraight _ Hd)]|].
    intros _ c Hc (w & Hw'). apply (Hq c Hc). exists w. rewrite <- (app_nil_r (c :: w)). apply lg_repeated; [exact Hw'|apply lg_stop].
  - cbn in Hw. pose proof (pt_group _ _ _ Hw) as Hd. apply IHev; [exact Hd|].
    intros c Hc (w & Hw'). apply (Hq c Hc). exists w. apply lg_group. exact Hw'.
  - split; [reflexivity|constructor].
  - split; [reflexivity|]. exact (IHev (proj1 Hw) (Hq H)).
  - destruct (IHev1 (proj1 Hw) (Hq H)) as (-> & T). destruct (IHev2 Hw) as (-> & T2); [intros _; exact (Hq H)|]. split; [reflexivity|]. eapply trail_app; eauto.
  - cbn in Hw. pose proof (pt_factor _ _ _ Hw) as Hd. apply IHev; [exact Hd|]. 
    assert (Hq' : forall c, hd_error (p_rest s) = Some c -> ~ begins (NPrim p) c) by (intros c Hc K; apply (Hq c Hc); apply times_begins; [lia|exact Hd|exact K]).
    exact Hq'.
  - cbn in Hw. pose proof (pt_factor _ _ _ Hw) as Hd. apply IHev; [split; [exact Hd|exact (part_gl_prim rules Hstraight _ Hd)]|].
    intros Hn c Hc K. apply (Hq c Hc). apply times_begins; [exact Hn|exact Hd|exact K].
  - cbn in Hw. pose proof (pt_term _ _ _ Hw) as Hd. apply IHev; [exact Hd|]. intros c Hc (w & Hw'). apply (Hq c Hc). exists w. apply lg_term. exact Hw'.
  - exfalso. exact (proj1 Hstraight _ _ Hw).
  - split; [reflexivity|constructor].
  - cbn in Hw. pose proof (pt_head _ _ _ Hw) as Hd. pose proof (proj2 Hstraight _ _ Hw ltac:(congruence)) as ->.
    apply IHev; [exact (group_part rules _ _ H Hd)|]. intros c Hc (w & Hw'). apply (Hq c Hc). exists w. apply lang_last. eapply group_lang; eauto.
  - cbn in Hw. pose proof (pt_head _ _ _ Hw) as Hd. pose proof (pt_rest _ _ _ Hw) as Hd2. destruct (Hprod _ Hd2) as (v & Hv).
    assert (Hq1 : quiet (NTerm t) s) by (intros c Hc (w & Hw'); apply (Hq c Hc); exists (w ++ v); exact (lg_seq _ _ _ _ (c :: w) v Hw' Hv)).
    destruct (IHev1 Hd Hq1) as (-> & T).
    assert (Hv1 : lang (NTerm t) []).
    { destruct (ev_speaks rules cfg Hfwd (rules_gl rules Hstraight) _ _ _ H0) as (w & Hg & Hl); [destruct t as [[k p] x]; apply gl_term, gl_factor, (part_gl_prim rules Hstraight), (pt_factor _ k), (pt_term _ _ x); exact Hd|].
      rewrite (goes_word _ _ _ _ Hg (goes_nil s)) in Hl. exact Hl. }
    assert (Hq2 : quiet (NSeq ts) s) by (intros c Hc (w & Hw'); apply (Hq c Hc); exists w; exact (lg_seq _ _ _ _ [] (c :: w) Hv1 Hw')).
    specialize (IHev2 Hd2 Hq2). destruct o as [s2 e2|x2 s2 e2|h2]; cbn in *; [|eapply trail_app; eauto|exact I].
    destruct IHev2 as (-> & T2). split; [reflexivity|]. eapply trail_app; eauto.
  - cbn in Hw. pose proof (pt_head _ _ _ Hw) as Hd. pose proof (pt_rest _ _ _ Hw) as Hd2. destruct (Hprod _ Hd2) as (v & Hv).
    apply IHev; [exact Hd|]. intros c Hc (w & Hw'). apply (Hq c Hc). exists (w ++ v). exact (lg_seq _ _ _ _ (c :: w) v Hw' Hv).
  - cbn in Hw. apply IHev; [eapply pt_defs; [exact Hw|left; reflexivity]|]. intros c Hc (w & Hw'). apply (Hq c Hc). exists w. eapply lg_defs; [left; reflexivity|exact Hw'].
  - cbn in Hw. apply IHev; [cbn; rewrite Forall_forall; intros d Hd; eapply pt_defs; eauto|]. intros d Hd c Hc (w & Hw'). apply (Hq c Hc). exists w. eapply lg_defs; eauto.
  - cbn in Hw. apply IHev; [cbn; rewrite Forall_forall; intros d Hd; eapply pt_defs; eauto|]. intros d Hd c Hc (w & Hw'). apply (Hq c Hc). exists w. eapply lg_defs; eauto.
  - cbn in Hw. apply IHev; [cbn; rewrite Forall_forall; intros d Hd; eapply pt_defs; eauto|]. intros d Hd c Hc (w & Hw'). apply (Hq c Hc). exists w. eapply lg_defs; eauto.
  - cbn in Hw. apply IHev; [exact (Forall_inv Hw)|]. exact (Hq d (or_introl eq_refl)).
  - cbn in Hw. apply IHev2; [exact (Forall_inv_tail Hw)|]. intros d0 Hd0. exact (Hq d0 (or_intror Hd0)).
  - destruct Hw.
  - destruct Hw.
Qed.
End Still.

(** ** With one character ahead, the parser goes the way of the derivation *)
Section Ahead.
Variable rules : list rule.
Variable cfg : config.
Hypothesis Hstraight : straightforward rules.
Hypothesis Hcalm : unstoppable rules cfg.
Variable start : str.
Hypothesis Hahead : one_ahead rules cfg start.
Hypothesis Hleft : forall r, In r rules -> ~ left_recursive rules cfg r.
Hypothesis Hspell : spelling_scanners cfg.
Hypothesis Hnest : nesting_scanners cfg.
Hypothesis Hprod : productive rules cfg.
Hypothesis Hone : no_repeat rules.
Let Hfwd : no_forwarding cfg := proj2 (proj2 (proj2 (proj2 (proj2 Hcalm)))).
Notation lang := (lang cfg rules).
Notation ev := (ev rules cfg).
Notation part := (part rules).
Notation begins := (begins rules cfg).
Notation after := (after rules cfg start).
Notation derives := (derives rules cfg).
Definition goes_along (n : node) (s s' : pst) (raw : list event) : Prop :=
  exists e, ev n s (Match s' e) /\ trail s e s' /\ solid e = solid raw.
Definition followed (n : node) (s : pst) (raw : list event) (s' : pst) : Prop :=
  match n with
  | NFactor (Factor k p) => forall M i, (i + k = M)%N -> after (NFactor (Factor M p)) (hd_error (p_rest s')) ->
      (N.of_nat (length (p_rest s)) <= max_count)%N -> goes_along (NTimes M M i (NPrim p)) s s' raw
  | NPrim (PRepeated l d) => forall i, after n (hd_error (p_rest s')) ->
      (i + N.of_nat (length (p_rest s)) <= max_count)%N -> goes_along (NTimes 0 max_count i (NDefs d)) s s' raw
  | _ => after n (hd_error (p_rest s')) -> (N.of_nat (length (p_rest s)) <= max_count)%N -> goes_along n s s' raw
  end.
Lemma along_wrap : forall n n' s s' raw, (forall o, ev n s o -> ev n' s o) -> goes_along n s s' raw -> goes_along n' s s' raw.
Proof. intros n n' s s' raw H (e & He & Ht). exists e. auto. Qed.
Lemma followed_prim : forall p s raw s', followed (NPrim p) s raw s' -> after (NPrim p) (hd_error (p_rest s')) ->
  (N.of_nat (length (p_rest s)) <= max_count)%N -> goes_along (NPrim p) s s' raw.
Proof.
  intros p s raw s' H Ha Hl. destruct p; try exact (H Ha Hl). eapply along_wrap; [|exact (H 0%N Ha ltac:(lia))]. intros o. apply ev_repeated.
Qed.
Lemma ev_solid_app : forall n1 s s1 e1 e2 raw1 raw2, ev n1 s (Match s1 e1) -> nested raw1 ->
  solid e1 = solid raw1 -> solid e2 = solid raw2 -> solid (e1 ++ e2) = solid (raw1 ++ raw2).
Proof.
  intros n1 s s1 e1 e2 raw1 raw2 H Hr E1 E2. pose proof (ev_nested rules cfg Hnest _ _ _ H) as Hn. cbn in Hn.
  rewrite (solid_app _ _ Hn), (solid_app _ _ Hr), E1, E2. reflexivity.
Qed.
Lemma goes_len : forall s w s', goes s w s' -> length (p_rest s) = length w + length (p_rest s').
Proof. intros s w s' (H & _). rewrite H, app_length. reflexivity. Qed.
Lemma all_followed : forall n s raw s', derives n s raw s' -> followed n s raw s'.
Proof.
  destruct Hahead as (Achoice & Aopt & Arep & Aspec). pose proof Hcalm as (_ & _ & _ & Krep & Kmax & _).
  intros n s raw s' H. induction H; cbn [followed].
  - intros _ _. eexists. split; [apply ev_terminal; exact H|]. split; [|reflexivity]. eapply tr_token; [exact H|constructor].
  - intros _ _. exists []. split; [apply ev_empty|]. split; [constructor|reflexivity].
  - intros _ _. exists e. split; [apply ev_special; exact H|]. split; [exact (Hspell _ _ _ _ _ H)|reflexivity].
  - intros Ha Hl. destruct (IHderives (af_meta _ _ _ _ _ _ _ Ha H) Hl) as (e1 & He & Ht & Es). eexists. split; [apply ev_meta; eapply ev_ref; eauto|].
    split; [cbn; apply tr_begin; eapply trail_app; [exact Ht|]; repeat constructor|]. apply solid_wrap; [|eapply derives_nested; eauto|exact Es]. pose proof (ev_nested rules cfg Hnest _ _ _ He) as K. exact K.
  - intros Ha _. pose proof (after_part _ _ _ _ _ Ha) as Hp. apply pt_optional in Hp.
    assert (Hq : forall c, hd_error (p_rest s) = Some c -> ~ begins (NDefs d) c) by (intros c Hc; rewrite Hc in Ha; exact (Aopt _ _ _ Ha)).
    assert (Hst : forall o, ev (NDefs d) s o -> still s o) by (intros o Ho; exact (all_still rules cfg Hstraight Hfwd Hspell Hprod _ _ _ Ho Hp Hq)).
    destruct (defs_answers rules cfg Hstraight Hcalm Hleft d s Hp) as [(s1 & e1 & H1)|(x & s1 & e1 & H1)].
    + destruct (Hst _ H1) as (-> & T). exists (e1 ++ []). split; [apply ev_optional; eapply ev_times_more; [lia|unfold max_count; lia|exact H1|]; apply ev_times_end; lia|].
      rewrite app_nil_r. split; [exact T|]. pose proof (ev_nested rules cfg Hnest _ _ _ H1) as K. cbn in K. rewrite (still_solid _ _ K T). reflexivity.
    + pose proof (Hst _ H1) as T. cbn in T. exists e1. split; [apply ev_optional; eapply ev_times_stop; [lia|lia|exact H1]|]. split; [exact T|].
      pose proof (ev_nested rules cfg Hnest _ _ _ H1) as K. cbn in K. rewrite (still_solid _ _ K T). reflexivity.
  - intros Ha Hl. destruct (IHderives (af_optional _ _ _ _ _ _ Ha) Hl) as (e1 & He & Ht & Es). exists (e1 ++ []).
    split; [apply ev_optional; eapply ev_times_more; [lia|unfold max_count; lia|exact He|]; apply ev_times_end; lia|]. rewrite app_nil_r. auto.
  - intros i Ha Hi. pose proof (after_part _ _ _ _ _ Ha) as Hp0. pose proof (pt_repeated _ _ _ Hp0) as Hp.
    destruct (N.lt_ge_cases i max_count) as [Hlt|Hge]; [|exists []; split; [apply ev_times_end; exact Hge|]; split; [constructor|reflexivity]].
    assert (Hq : forall c, hd_error (p_rest s) = Some c -> ~ begins (NDefs d) c) by (intros c Hc; rewrite Hc in Ha; exact (Arep _ _ _ Ha)).
    destruct (defs_answers rules cfg Hstraight Hcalm Hleft d s Hp) as [(s1 & e1 & H1)|(x & s1 & e1 & H1)].
    + exfalso. destruct (all_still rules cfg Hstraight Hfwd Hspell Hprod _ _ _ H1 Hp Hq) as (-> & _).
      destruct (defs_speak rules cfg Hstraight Hcalm _ _ _ _ Hp H1) as (w & Hw & Hlw). rewrite (goes_word _ _ _ _ Hw (goes_nil s)) in Hlw. exact (Krep _ _ Hp0 Hlw).
    + pose proof (all_still rules cfg Hstraight Hfwd Hspell Hprod _ _ _ H1 Hp Hq) as T. cbn in T. exists e1. split; [eapply ev_times_stop; [exact Hlt|lia|exact H1]|]. split; [exact T|].
      pose proof (ev_nested rules cfg Hnest _ _ _ H1) as K. cbn in K. rewrite (still_solid _ _ K T). reflexivity.
  - intros i Ha Hi. pose proof (after_part _ _ _ _ _ Ha) as Hp0.
    destruct (derives_lang _ _ _ _ _ _ H) as (w1 & Hg1 & Hl1). destruct (derives_lang _ _ _ _ _ _ H0) as (w2 & Hg2 & Hl2).
    destruct w1 as [|c1 w1]; [exfalso; exact (Krep _ _ Hp0 Hl1)|]. pose proof (goes_len _ _ _ Hg1) as Hn. cbn [length] in Hn.
    assert (Ha1 : after (NDefs d) (hd_error (p_rest s1))).
    { destruct w2 as [|c2 w2]; [rewrite <- (goes_stay _ _ Hg2); eapply af_repeated; exact Ha|].
      rewrite (goes_hd _ _ _ _ Hg2). eapply af_round; [exact Ha|]. eapply repeated_begins; [exact Hl2|reflexivity]. }
    destruct (IHderives1 Ha1) as (f1 & He1 & Ht1 & Es1); [lia|]. destruct (IHderives2 (i + 1)%N Ha) as (f2 & He2 & Ht2 & Es2); [lia|].
    exists (f1 ++ f2). split; [|split; [eapply trail_app; eauto|eapply ev_solid_app; eauto; eapply derives_nested; eauto]].
    eapply ev_times_more; [lia| |exact He1|exact He2]. intros _ E.
    pose proof (moved_at s s1 (goes_moved _ _ _ Hg1) E) as ->. pose proof (goes_word _ _ _ _ Hg1 (goes_nil s)). discriminate.
  - intros Ha Hl. eapply along_wrap; [|exact (IHderives (af_group _ _ _ _ _ _ Ha) Hl)]. intros o. apply ev_grouped.
  - intros M i HM _ _. exists []. split; [apply ev_times_end; lia|]. split; [constructor|reflexivity].
  - intros M i HM Ha Hl. destruct (derives_lang _ _ _ _ _ _ H) as (w1 & Hg1 & Hl1). destruct (derives_lang _ _ _ _ _ _ H0) as (w2 & Hg2 & Hl2).
    pose proof (goes_len _ _ _ Hg1) as Hn.
    assert (Ha1 : after (NPrim p) (hd_error (p_rest s1))).
    { destruct w2 as [|c2 w2]; [rewrite <- (goes_stay _ _ Hg2); eapply af_factor; exact Ha|].
      rewrite (goes_hd _ _ _ _ Hg2). eapply af_again; [exact Ha| |exact (factor_begins rules cfg _ _ Hl2 _ _ eq_refl)].
      destruct (N.eq_dec n 0) as [->|]; [|lia]. pose proof (factor_zero _ _ _ _ Hl2). discriminate. }
    destruct (followed_prim _ _ _ _ IHderives1 Ha1) as (f1 & He1 & Ht1 & Es1); [lia|].
    destruct (IHderives2 M (i + 1)%N ltac:(lia) Ha) as (f2 & He2 & Ht2 & Es2); [lia|].
    exists (f1 ++ f2). split; [|split; [eapply trail_app; eauto|eapply ev_solid_app; eauto; eapply derives_nested; eauto]].
    eapply ev_times_more; [lia| |exact He1|exact He2]. intros EM E. subst M. rewrite EM in Ha.
    pose proof (moved_at s s1 (goes_moved _ _ _ Hg1) E) as ->. apply (Kmax p (after_part _ _ _ _ _ Ha)).
    rewrite (goes_word _ _ _ _ Hg1 (goes_nil s)) in Hl1. exact Hl1.
  - intros Ha Hl. pose proof (after_part _ _ _ _ _ Ha) as Hp. destruct x as [x|]; [exfalso; exact (proj1 Hstraight _ _ Hp)|]. destruct f as [k p].
    destruct (IHderives k 0%N ltac:(lia) (af_term _ _ _ _ _ _ Ha) Hl) as (e1 & He & Ht & Es). exists e1. split; [|auto]. apply ev_term_plain.
    destruct (N.eq_dec k 1) as [->|Hk]; [apply ev_factor_one; eapply ev_once; exact He|apply ev_factor_many; assumption].
  - intros _ _. exists []. split; [apply ev_seq_nil|]. split; [constructor|reflexivity].
  - intros Ha Hl. destruct (derives_lang _ _ _ _ _ _ H) as (w1 & Hg1 & Hl1). destruct (derives_lang _ _ _ _ _ _ H0) as (w2 & Hg2 & Hl2).
    pose proof (goes_len _ _ _ Hg1) as Hn.
    assert (Ha1 : after (NTerm t) (hd_error (p_rest s1))).
    { destruct w2 as [|c2 w2]; [rewrite <- (goes_stay _ _ Hg2); eapply af_head_last; [exact Ha|exact Hl2]|].
      rewrite (goes_hd _ _ _ _ Hg2). eapply af_head; [exact Ha|]. exists w2. exact Hl2. }
    destruct (IHderives1 Ha1) as (f1 & He1 & Ht1 & Es1); [lia|]. destruct (IHderives2 (af_rest _ _ _ _ _ _ Ha)) as (f2 & He2 & Ht2 & Es2); [lia|].
    exists (f1 ++ f2). split; [|split; [eapply trail_app; eauto|eapply ev_solid_app; eauto; eapply derives_nested; eauto]].
    destruct (bare_group t) as [d|] eqn:Eg.
    + pose proof (proj2 Hstraight _ _ (after_part _ _ _ _ _ Ha) ltac:(congruence)) as ->. inversion He2; subst. rewrite app_nil_r. eapply ev_seq_group; [exact Eg|]. eapply ev_bare; eauto.
    + exact (ev_seq _ _ _ _ _ _ _ _ Eg He1 He2).
  - intros Ha Hl. pose proof (after_part _ _ _ _ _ Ha) as Hp. destruct (derives_lang _ _ _ _ _ _ H0) as (w & Hg & Hlw).
    destruct (IHderives (af_defs _ _ _ _ _ _ Ha H) Hl) as (e1 & He & Ht & Es). exists e1. split; [|auto].
    apply in_split in H as (l1 & l2 & ->). apply defs_reach; [|exact He]. intros d0 Hd0.
    assert (Hp0 : part (NSeq d0)) by (eapply pt_defs; [exact Hp|apply in_or_app; left; exact Hd0]).
    destruct (seq_answers rules cfg Hstraight Hcalm Hleft d0 s Hp0) as [(s1 & e2 & H1)|Hn]; [|exact Hn]. exfalso.
    apply in_split in Hd0 as (m1 & m2 & ->). rewrite <- app_assoc in Ha. cbn [app] in Ha.
    destruct (Achoice _ _ _ _ _ _ Ha) as (Hv & Hdis & Hfol). destruct (seq_speaks rules cfg Hstraight Hcalm _ _ _ _ Hp0 H1) as ([|c v] & Hg1 & Hlv); [exact (Hv Hlv)|].
    pose proof (goes_hd _ _ _ _ Hg1) as Hc. destruct w as [|c' w].
    + rewrite (goes_stay _ _ Hg) in *. apply (Hfol Hlw c Hc). exists v. exact Hlv.
    + rewrite (goes_hd _ _ _ _ Hg) in Hc. injection Hc as ->. apply (Hdis c); [exists v; exact Hlv|exists w; exact Hlw].
Qed.
End Ahead.
