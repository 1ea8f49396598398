(** Rules whose choices never have to be undone have one derivation for each text. *)
From Coq Require Import String List NArith Arith Bool Lia.
From Verif Require Import Base Ident Ast Graph Machine SpecText SpecSyntax TextFacts SyntaxFacts SpecParse SpecEvents SpecTotal SpecLL SpecExact SpecDeriv SpecOnly Pure CodeFacts PureFacts ParseFacts EvFacts EventFacts LangFacts TotalFacts ExactFacts DerivFacts LLCheck ExactCheck.
Import ListNotations.
Open Scope nat_scope.

Section Only.
Variable rules : list rule.
Variable cfg : config.
Notation xderives := (xderives rules cfg).
Notation xlang := (xlang rules cfg).
Notation ev := (ev rules cfg).
Notation construct := (construct rules).

Lemma xderives_derives : forall n s e s', xderives n s e s' -> derives rules cfg n s e s'.
Proof. intros n s e s' H. induction H; eauto using derives. Qed.
Lemma xderives_xlang : forall n s e s', xderives n s e s' -> exists w, goes s w s' /\ xlang n w.
Proof.
  intros n s e s' H. induction H.
  - exists w. split; [assumption|constructor].
  - exists []. split; [apply goes_nil|constructor].
  - destruct (scanned_moved _ _ _ _ H) as (w & Hw). exists w. split; [exact Hw|eapply xl_special; eauto].
  - destruct IHxderives as (w & Hw & Hl). exists w. split; [exact Hw|eapply xl_meta; eauto].
  - exists []. split; [apply goes_nil|constructor].
  - destruct IHxderives as (w & Hw & Hl). exists w. split; [exact Hw|constructor; exact Hl].
  - exists []. split; [apply goes_nil|constructor].
  - destruct IHxderives1 as (w1 & Hw1 & Hl1), IHxderives2 as (w2 & Hw2 & Hl2). exists (w1 ++ w2). split; [eapply goes_app; eauto|constructor; assumption].
  - destruct IHxderives as (w & Hw & Hl). exists w. split; [exact Hw|constructor; exact Hl].
  - exists []. split; [apply goes_nil|constructor].
  - destruct IHxderives1 as (w1 & Hw1 & Hl1), IHxderives2 as (w2 & Hw2 & Hl2). exists (w1 ++ w2). split; [eapply goes_app; eauto|constructor; assumption].
  - destruct IHxderives as (w & Hw & Hl). exists w. split; [exact Hw|constructor; exact Hl].
  - destruct IHxderives as (w' & Hw & Hl). rewrite (goes_word _ _ _ _ Hw H0) in *. exists w. split; [exact H0|apply xl_except; assumption].
  - exists []. split; [apply goes_nil|constructor].
  - destruct IHxderives1 as (w1 & Hw1 & Hl1), IHxderives2 as (w2 & Hw2 & Hl2). exists (w1 ++ w2). split; [eapply goes_app; eauto|constructor; assumption].
  - destruct IHxderives as (w & Hw & Hl). exists w. split; [exact Hw|econstructor; eauto].
Qed.

Hypothesis Hfree : unhindered rules cfg.
Hypothesis Hleft : forall r, In r rules -> ~ left_recursive rules cfg r.
Variable start : str.
Hypothesis Hahead : committed rules cfg start.
Hypothesis Hunique : no_repeat rules.
Hypothesis Hdollar : no_dollar rules.
Notation ahead := (ahead rules cfg start).
Let Krep := proj1 (proj2 (proj2 (proj2 Hfree))).
Let Hfwd : no_forwarding cfg := proj2 (proj2 (proj2 (proj2 (proj2 (proj2 (proj2 Hfree)))))).

Lemma derives_goes : forall n s e s', xderives n s e s' -> exists w, goes s w s'.
Proof. intros n s e s' H. destruct (xderives_xlang _ _ _ _ H) as (w & Hw & _). eauto. Qed.
Lemma word_met : forall n w, xlang n w -> made rules n -> matched rules cfg start n w.
Proof. intros n w. apply word_matched; assumption. Qed.

(** ** Where a construct ends is determined *)
Lemma prim_ends : forall p s e1 s1 e2 s2, xderives (NPrim p) s e1 s1 -> xderives (NPrim p) s e2 s2 ->
  ahead (NPrim p) (p_rest s1) -> ahead (NPrim p) (p_rest s2) -> short s -> s1 = s2.
Proof.
  intros p s e1 s1 e2 s2 H1 H2 A1 A2 Hs.
  destruct (xderives_xlang _ _ _ _ H1) as (w1 & G1 & L1). destruct (xderives_xlang _ _ _ _ H2) as (w2 & G2 & L2).
  assert (Hm : made rules (NPrim p)) by exact (ahead_construct rules cfg start _ _ A1).
  destruct (matched_prim _ _ _ _ _ (word_met _ _ L1 Hm) _ _ G1 A1 Hs) as (x1 & E1).
  destruct (matched_prim _ _ _ _ _ (word_met _ _ L2 Hm) _ _ G2 A2 Hs) as (x2 & E2).
  pose proof (ev_fun rules cfg Hunique Hdollar _ _ _ E1 _ E2) as E. congruence.
Qed.
Lemma defs_finish : forall d s e1 s1 e2 s2, xderives (NDefs d) s e1 s1 -> xderives (NDefs d) s e2 s2 ->
  ahead (NDefs d) (p_rest s1) -> ahead (NDefs d) (p_rest s2) -> short s -> s1 = s2.
Proof.
  intros d s e1 s1 e2 s2 H1 H2 A1 A2 Hs.
  destruct (xderives_xlang _ _ _ _ H1) as (w1 & G1 & L1). destruct (xderives_xlang _ _ _ _ H2) as (w2 & G2 & L2).
  assert (Hm : made rules (NDefs d)) by exact (ahead_construct rules cfg start _ _ A1).
  destruct (word_met _ _ L1 Hm _ _ G1 A1 Hs) as (x1 & E1). destruct (word_met _ _ L2 Hm _ _ G2 A2 Hs) as (x2 & E2).
  pose proof (ev_fun rules cfg Hunique Hdollar _ _ _ E1 _ E2) as E. congruence.
Qed.
Lemma term_ends : forall t s e1 s1 e2 s2, xderives (NTerm t) s e1 s1 -> xderives (NTerm t) s e2 s2 ->
  ahead (NTerm t) (p_rest s1) -> ahead (NTerm t) (p_rest s2) -> short s -> s1 = s2.
Proof.
  intros d s e1 s1 e2 s2 H1 H2 A1 A2 Hs.
  destruct (xderives_xlang _ _ _ _ H1) as (w1 & G1 & L1). destruct (xderives_xlang _ _ _ _ H2) as (w2 & G2 & L2).
  assert (Hm : made rules (NTerm d)) by exact (ahead_construct rules cfg start _ _ A1).
  destruct (word_met _ _ L1 Hm _ _ G1 A1 Hs) as (x1 & E1). destruct (word_met _ _ L2 Hm _ _ G2 A2 Hs) as (x2 & E2).
  pose proof (ev_fun rules cfg Hunique Hdollar _ _ _ E1 _ E2) as E. congruence.
Qed.

(** ** The events are determined *)
Hypothesis Hnest : nesting_scanners cfg.
Hypothesis Hspell : spelling_scanners cfg.
Hypothesis Hdistinct : distinct rules cfg start.
Lemma xnested : forall n s e s', xderives n s e s' -> nested e.
Proof. intros n s e s' H. eapply derives_nested; [exact Hnest|]. apply xderives_derives. exact H. Qed.
Lemma xstill : forall n s e, xderives n s e s -> solid e = [].
Proof. intros n s e H. apply (still_solid s); [exact (xnested _ _ _ _ H)|]. apply (derives_trail rules cfg Hspell n), xderives_derives, H. Qed.
Lemma rest_after : forall n s e s', xderives n s e s' -> exists w, xlang n w /\ p_rest s = w ++ p_rest s'.
Proof. intros n s e s' H. destruct (xderives_xlang _ _ _ _ H) as (w & (Hw & _) & Hl). eauto. Qed.
Lemma short_after : forall n s e s', xderives n s e s' -> short s -> short s'.
Proof. intros n s e s' H Hs. destruct (derives_goes _ _ _ _ H) as (w & Hw). exact (proj1 (short_goes _ _ _ Hw Hs)). Qed.

Definition only (n : node) (s : pst) (e : list event) (s' : pst) : Prop :=
  match n with
  | NFactor (Factor k p) => forall M, (k <= M)%N -> ahead (NFactor (Factor M p)) (p_rest s') -> short s ->
      forall e2, xderives n s e2 s' -> solid e = solid e2
  | _ => ahead n (p_rest s') -> short s -> forall e2, xderives n s e2 s' -> solid e = solid e2
  end.
Lemma only_factor : forall f s e s', only (NFactor f) s e s' -> ahead (NFactor f) (p_rest s') -> short s ->
  forall e2, xderives (NFactor f) s e2 s' -> solid e = solid e2.
Proof. intros [k p] s e s' H Ha Hs e2 H2. exact (H k ltac:(lia) Ha Hs e2 H2). Qed.
Lemma solid_both : forall a a' b b', nested a -> nested a' -> solid a = solid a' -> solid b = solid b' -> solid (a ++ b) = solid (a' ++ b').
Proof. intros a a' b b' H H' E E'. rewrite (solid_app _ _ H), (solid_app _ _ H'). congruence. Qed.

Lemma all_only : forall n s e s', xderives n s e s' -> only n s e s'.
Proof.
  intros n s e s' H. induction H; cbn [only].
  - intros _ _ e2 H2. inversion H2; subst. reflexivity.
  - intros _ _ e2 H2. inversion H2; subst. reflexivity.
  - intros _ _ e2 H2. inversion H2 as [| |l1 c1 a1 a2 a3 K1| | | | | | | | | | | | |]; subst. pose proof (scanned_fun _ _ _ _ _ H K1) as E. congruence.
  - intros Ha Hs e2 H2. inversion H2 as [| | |l1 i1 r1 a1 a2 a3 K1 K2| | | | | | | | | | | |]; subst.
    pose proof (names_unique _ _ _ _ Hunique K1 H) as ->. apply solid_wrap; [exact (xnested _ _ _ _ H0)|exact (xnested _ _ _ _ K2)|].
    apply IHxderives; [eapply ah_meta; eauto|exact Hs|exact K2].
  - intros Ha Hs e2 H2. inversion H2; subst; [reflexivity|]. symmetry. eapply xstill. eassumption.
  - intros Ha Hs e2 H2. inversion H2; subst.
    + change (solid []) with (@nil event). eapply xstill. exact H.
    + apply IHxderives; [apply (ah_optional _ _ _ _ _ _ Ha)|exact Hs|assumption].
  - intros Ha Hs e2 H2. inversion H2 as [| | | | | | |l1 d1 a1 b1 a2 b2 a3 K1 K2| | | | | | | |]; subst; [reflexivity|]. exfalso.
    destruct (xderives_xlang _ _ _ _ K1) as (w1 & G1 & L1). destruct (xderives_xlang _ _ _ _ K2) as (w2 & G2 & L2).
    pose proof (goes_word _ _ _ _ (goes_app _ _ _ _ _ G1 G2) (goes_nil s)) as E. apply app_eq_nil in E as (-> & _).
    exact (Krep _ _ (ahead_construct rules cfg start _ _ Ha) (xlang_lang _ _ _ _ L1)).
  - intros Ha Hs e0 H2. inversion H2 as [| | | | | | |l1 d1 a1 b1 a2 b2 a3 K1 K2| | | | | | | |]; subst.
    + exfalso. destruct (xderives_xlang _ _ _ _ H) as (w1 & G1 & L1). destruct (xderives_xlang _ _ _ _ H0) as (w2 & G2 & L2).
      pose proof (goes_word _ _ _ _ (goes_app _ _ _ _ _ G1 G2) (goes_nil _)) as E. apply app_eq_nil in E as (-> & _).
      exact (Krep _ _ (ahead_construct rules cfg start _ _ Ha) (xlang_lang _ _ _ _ L1)).
    + destruct (rest_after _ _ _ _ H0) as (w2 & L2 & R2). destruct (rest_after _ _ _ _ K2) as (v2 & M2 & S2).
      assert (A1 : ahead (NDefs d) (p_rest s1)) by (rewrite R2; eapply ah_repeated; eauto).
      assert (A2 : ahead (NDefs d) (p_rest a2)) by (rewrite S2; eapply ah_repeated; eauto).
      pose proof (defs_finish _ _ _ _ _ _ H K1 A1 A2 Hs) as <-.
      apply solid_both; [exact (xnested _ _ _ _ H)|exact (xnested _ _ _ _ K1)|exact (IHxderives1 A1 Hs _ K1)|].
      exact (IHxderives2 Ha (short_after _ _ _ _ H Hs) _ K2).
  - intros Ha Hs e2 H2. inversion H2; subst. apply IHxderives; [apply (ah_group _ _ _ _ _ _ Ha)|exact Hs|assumption].
  - intros M HM Ha Hs e2 H2. inversion H2; subst; [reflexivity|lia].
  - intros M HM Ha Hs e0 H2. inversion H2 as [| | | | | | | | | |n1 p1 a1 b1 a2 b2 a3 K1 K2 E1| | | | |]; subst; [lia|].
    assert (n1 = n) by lia. subst n1. destruct (rest_after _ _ _ _ H0) as (w2 & L2 & R2). destruct (rest_after _ _ _ _ K2) as (v2 & M2 & S2).
    assert (A1 : ahead (NPrim p) (p_rest s1)) by (rewrite R2; eapply ah_factor; [exact Ha| |exact L2]; lia).
    assert (A2 : ahead (NPrim p) (p_rest a2)) by (rewrite S2; eapply ah_factor; [exact Ha| |exact M2]; lia).
    pose proof (prim_ends _ _ _ _ _ _ H K1 A1 A2 Hs) as <-.
    apply solid_both; [exact (xnested _ _ _ _ H)|exact (xnested _ _ _ _ K1)|exact (IHxderives1 A1 Hs _ K1)|].
    exact (IHxderives2 M ltac:(lia) Ha (short_after _ _ _ _ H Hs) _ K2).
  - intros Ha Hs e2 H2. inversion H2; subst. eapply only_factor; [exact IHxderives|apply (ah_term _ _ _ _ _ _ Ha)|exact Hs|assumption].
  - intros Ha Hs e2 H2. inversion H2; subst. eapply only_factor; [exact IHxderives|apply (ah_term _ _ _ _ _ _ Ha)|exact Hs|assumption].
  - intros _ _ e2 H2. inversion H2; subst. reflexivity.
  - intros Ha Hs e0 H2. inversion H2 as [| | | | | | | | | | | | | |t1 ts1 a1 b1 a2 b2 a3 K1 K2|]; subst.
    destruct (rest_after _ _ _ _ H0) as (w2 & L2 & R2). destruct (rest_after _ _ _ _ K2) as (v2 & M2 & S2).
    assert (A1 : ahead (NTerm t) (p_rest s1)) by (rewrite R2; eapply ah_head; eauto).
    assert (A2 : ahead (NTerm t) (p_rest a2)) by (rewrite S2; eapply ah_head; eauto).
    pose proof (term_ends _ _ _ _ _ _ H K1 A1 A2 Hs) as <-.
    apply solid_both; [exact (xnested _ _ _ _ H)|exact (xnested _ _ _ _ K1)|exact (IHxderives1 A1 Hs _ K1)|].
    exact (IHxderives2 (ah_rest _ _ _ _ _ _ Ha) (short_after _ _ _ _ H Hs) _ K2).
  - intros Ha Hs e2 H2. inversion H2 as [| | | | | | | | | | | | | | |ds1 d1 a1 b1 a2 K1 K2]; subst.
    destruct (xderives_xlang _ _ _ _ H0) as (w & G & L). destruct (xderives_xlang _ _ _ _ K2) as (v & G2 & L2).
    pose proof (goes_word _ _ _ _ G G2) as <-.
    assert (Hsame : d1 = d \/ w = []).
    { apply in_split in H as (l1 & l2 & ->). apply in_app_or in K1 as [K1|[K1|K1]]; [right|left; symmetry; exact K1|right].
      + apply in_split in K1 as (m1 & m2 & ->). rewrite <- app_assoc in Ha. cbn [app] in Ha. exact (Hdistinct _ _ _ _ _ _ _ Ha L2 L).
      + apply in_split in K1 as (m1 & m2 & ->). exact (Hdistinct _ _ _ _ _ _ _ Ha L L2). }
    destruct Hsame as [->| ->]; [exact (IHxderives (ah_defs _ _ _ _ _ _ Ha H) Hs _ K2)|].
    pose proof (goes_stay _ _ G) as ->. rewrite (xstill _ _ _ H0). symmetry. exact (xstill _ _ _ K2).
Qed.

(** ** Every match is a derivation *)
Fixpoint xways (n : node) (s : pst) (e : list event) (s' : pst) : Prop :=
  match n with
  | NTimes mn mx i b => exists k, chain (xways b) k s e s' /\ (mn <= i + N.of_nat k)%N /\ (i + N.of_nat k <= N.max i mx)%N
  | NRef l id => xderives (NPrim (PMeta l id)) s e s'
  | NAlts ds => xderives (NDefs ds) s e s'
  | NFwd _ => False
  | _ => xderives n s e s'
  end.
Lemma xchain_repeated : forall l d k s e s', chain (xderives (NDefs d)) k s e s' -> xderives (NPrim (PRepeated l d)) s e s'.
Proof. intros l d k s e s' H. induction H; [apply xd_stop|eapply xd_repeated; eauto]. Qed.
Lemma xchain_times : forall p k s e s', chain (xderives (NPrim p)) k s e s' -> xderives (NFactor (Factor (N.of_nat k) p)) s e s'.
Proof.
  intros p k s e s' H. induction H; [apply xd_zero|]. replace (N.of_nat (S k)) with (N.succ (N.of_nat k)) by lia. eapply xd_times; eauto.
Qed.
Lemma xderives_once : forall p s e s', xderives (NPrim p) s e s' -> xderives (NFactor (Factor 1 p)) s e s'.
Proof. intros p s e s' H. rewrite <- (app_nil_r e). change 1%N with (N.succ 0). eapply xd_times; [exact H|apply xd_zero]. Qed.
Lemma xderives_last : forall t s e s', xderives (NTerm t) s e s' -> xderives (NSeq [t]) s e s'.
Proof. intros t s e s' H. rewrite <- (app_nil_r e). eapply xd_seq; [exact H|apply xd_nil]. Qed.
Lemma group_xderives : forall t d s e s', bare_group t = Some d -> xderives (NDefs d) s e s' -> xderives (NTerm t) s e s'.
Proof.
  intros t d s e s' H Ht. destruct t as [[k p] ex]. cbn in H. destruct p; try discriminate. destruct ex; try discriminate. destruct (N.eqb_spec k 1); [|discriminate]. injection H as ->. subst k.
  apply xd_term, xderives_once, xd_group. exact Ht.
Qed.
Notation exact := (exact rules).
Definition xderived (n : node) (s : pst) (o : outcome) : Prop :=
  match o with Match s' e => exists e', xways n s e' s' /\ exact n e e' | _ => True end.
Lemma moves : forall n s s' e, ev n s (Match s' e) -> short s -> short s'.
Proof. intros n s s' e H Hs. destruct (ev_moved rules cfg _ _ _ H) as (w & Hw). exact (proj1 (short_goes _ _ _ Hw Hs)). Qed.
Lemma ev_xderived : forall n s o, ev n s o -> fit rules n -> short s -> xderived n s o.
Proof.
  intros n s o H. induction H; intros Ht Hs; try exact I; try (exfalso; eapply Hfwd; eassumption); cbn [fit] in Ht.
  - eexists. split; [apply xd_terminal; exact H|]. intros _ _. reflexivity.
  - eexists. split; [apply xd_empty|]. intros _ _. reflexivity.
  - eexists. split; [apply xd_special; exact H|]. intros _ _. reflexivity.
  - destruct o as [s' e| |]; try exact I. destruct (IHev I Hs) as (e' & Hw & He). exists e'. split; [exact Hw|]. intros HF Td. apply He; [exact HF|constructor].
  - destruct (IHev (cs_names _ _ _ H) Hs) as (e' & Hw & He). eexists. split; [eapply xd_meta; eauto|]. intros HF _. rewrite (He HF (rule_tidy _ HF _ _ H)). reflexivity.
  - destruct o as [s' e| |]; try exact I. destruct IHev as (e' & (k & Hc & H1 & H2) & He); [split; [eapply cs_optional; exact Ht|lia]|exact Hs|].
    exists e'. split; [|intros HF Td; apply He; [exact HF|]; inversion Td; subst; apply td_times; assumption].
    cbn [xways]. inversion Hc as [|k1 s0 e1 s1 e2 s2 Hr Hc' E1 E2]; subst; [apply xd_none|]. inversion Hc' as [|k2 s0 e3 s3 e4 s4 Hr' Hc'']; subst; [|lia]. rewrite app_nil_r. apply xd_optional. exact Hr.
  - destruct o as [s' e| |]; try exact I. destruct IHev as (e' & (k & Hc & H1 & H2) & He); [split; [eapply cs_repeated; exact Ht|unfold max_count; lia]|exact Hs|].
    exists e'. split; [eapply xchain_repeated; exact Hc|intros HF Td; apply He; [exact HF|]; inversion Td; subst; apply td_times; assumption].
  - destruct o as [s' e| |]; try exact I. destruct IHev as (e' & Hw & He); [eapply cs_group; exact Ht|exact Hs|]. exists e'. split; [apply xd_group; exact Hw|].
    intros HF Td. apply He; [exact HF|]. inversion Td; subst. assumption.
  - destruct Ht as (_ & H1 & H2). exists []. split; [|intros _ _; reflexivity]. exists 0. split; [apply ch_nil|lia].
  - exists []. split; [exists 0; split; [apply ch_nil|lia]|]. intros HF Td. symmetry. inversion Td; subst; [|lia].
    match goal with K : clean b |- _ => exact (clean_ok rules cfg b K _ _ H1) end.
  - destruct Ht as (Hb & Hmm & Hi). destruct (IHev1 Hb Hs) as (e1 & Hw1 & He1). destruct IHev2 as (e2 & (k & Hc & K1 & K2) & He2); [split; [exact Hb|]; lia|eapply moves; eauto|].
    exists (e1 ++ e2). split; [exists (S k); split; [eapply ch_more; eauto|]; lia|]. intros HF Td. rewrite He1, He2; auto.
    + inversion Td; subst; [apply td_times|apply td_times_exact]; assumption.
    + inversion Td; subst; assumption.
  - destruct o as [s' e| |]; try exact I. destruct IHev as (e' & Hw & He); [eapply cs_factor; exact Ht|exact Hs|]. exists e'. split; [apply xderives_once; exact Hw|].
    intros HF Td. apply He; [exact HF|]. inversion Td; subst. assumption.
  - destruct o as [s' e| |]; try exact I. destruct IHev as (e' & (k & Hc & K1 & K2) & He); [split; [eapply cs_factor; exact Ht|lia]|exact Hs|].
    exists e'. split; [replace n with (N.of_nat k) by lia; apply xchain_times; exact Hc|].
    intros HF Td. apply He; [exact HF|]. inversion Td; subst. apply td_times_exact. assumption.
  - destruct o as [s' e| |]; try exact I. destruct IHev as (e' & Hw & He); [eapply cs_term; exact Ht|exact Hs|]. exists e'. split; [apply xd_term; exact Hw|].
    intros HF Td. apply He; [exact HF|]. inversion Td; subst. assumption.
  - destruct IHev1 as (e1 & Hw & He); [eapply cs_term; exact Ht|exact Hs|]. exists e1. split; [|intros HF Td; apply He; [exact HF|]; inversion Td; subst; assumption].
    cbn [xways]. eapply xd_except; [exact Hw|exact H0|]. intros Hx.
    destruct (except_matched rules cfg Hfree Hleft start Hahead f e w (p_at s) Ht Hx (proj2 (short_goes _ _ _ H0 Hs))) as (s3 & e3 & He3 & Hn3).
    pose proof (ev_fun rules cfg Hunique Hdollar _ _ _ H1 _ He3) as ->. destruct H2 as [(s2 & evs2 & E & Hne)|(x & s2 & evs2 & E)]; [|discriminate].
    injection E as <- _. contradiction.
  - exists []. split; [apply xd_nil|intros _ _; reflexivity].
  - destruct o as [s' e| |]; try exact I. pose proof (proj1 (proj2 (proj2 (proj2 (proj2 (proj2 Hfree))))) _ _ Ht ltac:(congruence)) as ->.
    destruct IHev as (e' & Hw & He); [eapply cs_bare; [exact H|]; eapply cs_head; exact Ht|exact Hs|]. exists e'. split; [apply xderives_last; eapply group_xderives; eauto|].
    intros HF Td. apply He; [exact HF|]. eapply tidy_group; eauto.
  - destruct o as [s2 e2| |]; try exact I.
    destruct (IHev1 (cs_head _ _ _ Ht) Hs) as (e1 & Hw1 & He1). destruct (IHev2 (cs_rest _ _ _ Ht)) as (e3 & Hw2 & He2); [eapply moves; eauto|].
    exists (e1 ++ e3). split; [eapply xd_seq; eauto|]. intros HF Td. inversion Td; subst. rewrite He1, He2; auto.
  - destruct o as [s' e| |]; try exact I. destruct (IHev (cs_defs _ _ _ Ht (or_introl eq_refl)) Hs) as (e' & Hw & He).
    exists e'. split; [eapply xd_defs; [left; reflexivity|exact Hw]|]. intros HF Td. apply He; [exact HF|]. inversion Td as [| | | | | | | | | | | |ds9 HT| | |]; subst. exact (Forall_inv HT).
  - destruct IHev as (e' & Hw & He); [cbn [fit]; rewrite Forall_forall; intros d Hd; eapply cs_defs; eauto|exact Hs|]. exists e'. split; [exact Hw|]. intros HF Td. apply He; [exact HF|]. inversion Td; subst. apply td_alts. assumption.
  - destruct (IHev (Forall_inv Ht) Hs) as (e' & Hw & He).
    exists e'. split; [eapply xd_defs; [left; reflexivity|exact Hw]|]. intros HF Td. apply He; [exact HF|]. inversion Td as [| | | | | | | | | | | | |ds9 HT| |]; subst. exact (Forall_inv HT).
  - destruct (IHev2 (Forall_inv_tail Ht) Hs) as (e' & Hw & He).
    exists e'. split; [cbn in *; inversion Hw; subst; eapply xd_defs; [right; eassumption|assumption]|].
    intros HF Td. apply He; [exact HF|]. inversion Td as [| | | | | | | | | | | | |ds9 HT| |]; subst. apply td_alts. exact (Forall_inv_tail HT).
  - destruct Ht.
  - destruct Ht.
Qed.
End Only.

(** ** The condition can be computed *)
Lemma decided_distinct : forall k class n rules cfg start, decided_ahead k class rules n start = true ->
  (forall l c rs many, class c = Some (rs, many) -> cfg l c = ScChars (has rs) (Some 1%N) (if many then None else Some 1%N)) ->
  no_forwarding cfg -> distinct rules cfg start.
Proof.
  intros k class n rules cfg start H Hc Hf before d between d' behind q w Ha L1 L2.
  set (tbl := ahead_table k class rules n start) in *.
  destruct (ahead_covered k class tbl rules cfg start H Hc _ _ Ha) as (fs & Hs & Hx). cbn [safe] in Hs. unfold safe_d in Hs.
  apply andb_prop in Hs as (Hs & _). apply andb_prop in Hs as (_ & Hs). apply apart_in in Hs.
  exfalso. refine (clashes_covered _ _ _ q Hs (xlang_covered k class tbl rules cfg start H Hc _ _ L1) _).
  apply cats_covered; [exact (xlang_covered k class tbl rules cfg start H Hc _ _ L2)|exact Hx].
Qed.
