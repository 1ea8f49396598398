(** Facts about parts of the events of a parse. *)
From Coq Require Import String List NArith Arith Bool Lia.
From Verif Require Import Base Ident Ast Graph Machine SpecText SpecSyntax TextFacts SyntaxFacts SpecParse SpecEvents SpecTotal SpecLL SpecExact SpecDeriv SpecOnly Pure CodeFacts PureFacts ParseFacts EvFacts EventFacts LangFacts TotalFacts ExactFacts DerivFacts OnlyFacts SpecPart.
Import ListNotations.
Open Scope nat_scope.

(** ** Events *)
Lemma nested_first : forall a d l b r, nested a -> a = EvEnd d l b :: r -> False.
Proof. intros a d l b r H E. destruct H; discriminate. Qed.
Lemma nested_until : forall a, nested a -> forall a' d l b r d' l' b' r', nested a' ->
  a ++ EvEnd d l b :: r = a' ++ EvEnd d' l' b' :: r' -> a = a' /\ EvEnd d l b = EvEnd d' l' b' /\ r = r'.
Proof.
  intros a H. induction H as [|d1 l1 t1 r1 H IH|d1 l1 l2 b1 a1 r1 Ha IHa Hr IHr]; intros a' d l b r d' l' b' r' H' E; destruct H' as [|d3 l3 t3 r3 H3|d3 l3 l4 b3 a3 r3 Ha3 Hr3];
    cbn in E; try discriminate E.
  - injection E as E1 E2 E3 E4. subst. auto.
  - injection E as E1 E2 E3 E4. subst. destruct (IH _ _ _ _ _ _ _ _ _ H3 E4) as (-> & A & B). auto.
  - injection E as E1 E2 E3 E4. subst. rewrite <- !app_assoc in E4. cbn in E4.
    destruct (IHa _ _ _ _ _ _ _ _ _ Ha3 E4) as (-> & A & B). injection A as ->. destruct (IHr _ _ _ _ _ _ _ _ _ Hr3 B) as (-> & C & D). auto.
Qed.
Lemma enc_pair : forall d l b inner l2 d1 l1 b1 a l3 r, nested a -> encloses d l b inner l2 (EvBegin d1 l1 b1 :: a ++ EvEnd d1 l3 b1 :: r) ->
  (d = d1 /\ l = l1 /\ b = b1 /\ inner = a /\ l2 = l3) \/ encloses d l b inner l2 a \/ encloses d l b inner l2 r.
Proof.
  intros d l b inner l2 d1 l1 b1 a l3 r Ha H. inversion H as [r0 Hi Hr E|d2 l4 t r0 H0 E|d2 l4 b2 a0 l5 r0 H0 Hn Hr E|d2 l4 b2 a0 l5 r0 H0 Hn Hr E].
  - match goal with K : _ ++ _ = _ ++ _ |- _ => destruct (nested_until _ Hi _ _ _ _ _ _ _ _ _ Ha K) as (A & B & C); injection B as B end. left. auto.
  - match goal with K : _ ++ _ = _ ++ _ |- _ => destruct (nested_until _ Hn _ _ _ _ _ _ _ _ _ Ha K) as (A & B & C) end. subst. auto.
  - match goal with K : _ ++ _ = _ ++ _ |- _ => destruct (nested_until _ Hn _ _ _ _ _ _ _ _ _ Ha K) as (A & B & C) end. subst. auto.
Qed.
Lemma enc_nil : forall d l b inner l2, ~ encloses d l b inner l2 [].
Proof. intros d l b inner l2 H. inversion H. Qed.
Lemma enc_tokens : forall d l b inner l2 e, Forall token e -> ~ encloses d l b inner l2 e.
Proof.
  intros d l b inner l2 e H K. induction K; inversion H as [|x y Hx Hy]; subst; [destruct Hx|exact (IHK Hy)|destruct Hx|destruct Hx].
Qed.
Lemma enc_app : forall d l b inner l2 e1, nested e1 -> forall e2, encloses d l b inner l2 (e1 ++ e2) -> encloses d l b inner l2 e1 \/ encloses d l b inner l2 e2.
Proof.
  intros d l b inner l2 e1 H. induction H as [|d1 l1 t1 r1 H IH|d1 l1 l3 b1 a1 r1 Ha IHa Hr IHr]; intros e2 K.
  - right. exact K.
  - inversion K; subst. destruct (IH _ ltac:(eassumption)) as [E|E]; [left; constructor; exact E|right; exact E].
  - cbn in K. rewrite <- app_assoc in K. cbn in K. destruct (enc_pair _ _ _ _ _ _ _ _ _ _ _ Ha K) as [(-> & -> & -> & -> & ->)|[E|E]].
    + left. apply en_here; assumption.
    + left. apply en_inside; assumption.
    + destruct (IHr _ E) as [F|F]; [left; apply en_behind; assumption|right; exact F].
Qed.
(** What the filter leaves. *)
Lemma filter_pair : forall d l b a d2 l2 b2 r, nested a -> a <> [] ->
  (forall x, remove_pairs (a ++ x) = remove_pairs a ++ remove_pairs x) ->
  remove_pairs (EvBegin d l b :: a ++ EvEnd d2 l2 b2 :: r) = EvBegin d l b :: remove_pairs a ++ EvEnd d2 l2 b2 :: remove_pairs r.
Proof.
  intros d l b a d2 l2 b2 r Ha Hne E. transitivity (EvBegin d l b :: remove_pairs (a ++ EvEnd d2 l2 b2 :: r)); [|rewrite E; reflexivity].
  destruct Ha; [contradiction|reflexivity|reflexivity].
Qed.
Lemma filter_app : forall a, nested a -> forall x, remove_pairs (a ++ x) = remove_pairs a ++ remove_pairs x.
Proof.
  intros a H. induction H as [|d1 l1 t1 r1 H IH|d1 l1 l3 b1 a1 r1 Ha IHa Hr IHr]; intros x.
  - reflexivity.
  - cbn. rewrite IH. reflexivity.
  - replace ((EvBegin d1 l1 b1 :: a1 ++ EvEnd d1 l3 b1 :: r1) ++ x) with (EvBegin d1 l1 b1 :: a1 ++ EvEnd d1 l3 b1 :: (r1 ++ x)) by (cbn; rewrite <- app_assoc; reflexivity).
    destruct a1 as [|y a1].
    + cbn. apply IHr.
    + rewrite !(filter_pair _ _ _ (y :: a1)); try assumption; try discriminate. rewrite IHr. cbn. rewrite <- app_assoc. reflexivity.
Qed.
Lemma filter_nested : forall a, nested a -> nested (remove_pairs a).
Proof.
  intros a H. induction H as [|d1 l1 t1 r1 H IH|d1 l1 l3 b1 a1 r1 Ha IHa Hr IHr].
  - constructor.
  - cbn. constructor. exact IH.
  - destruct a1 as [|y a1]; [exact IHr|]. rewrite (filter_pair _ _ _ (y :: a1)); try assumption; try discriminate; [|apply filter_app; exact Ha]. constructor; assumption.
Qed.
Lemma enc_filtered : forall d l b inner l2 a, nested a -> encloses d l b inner l2 (remove_pairs a) ->
  exists inner0, encloses d l b inner0 l2 a /\ nested inner0 /\ inner = remove_pairs inner0.
Proof.
  intros d l b inner l2 a H. induction H as [|d1 l1 t1 r1 H IH|d1 l1 l3 b1 a1 r1 Ha IHa Hr IHr]; intros K.
  - destruct (enc_nil _ _ _ _ _ K).
  - cbn in K. inversion K; subst. destruct (IH ltac:(assumption)) as (i0 & A & B & C). exists i0. split; [constructor; exact A|auto].
  - destruct a1 as [|y a1].
    + destruct (IHr K) as (i0 & A & B & C). exists i0. split; [apply en_behind; assumption|auto].
    + rewrite (filter_pair _ _ _ (y :: a1)) in K; try assumption; try discriminate; [|apply filter_app; exact Ha].
      destruct (enc_pair _ _ _ _ _ _ _ _ _ _ _ (filter_nested _ Ha) K) as [(-> & -> & -> & -> & ->)|[E|E]].
      * exists (y :: a1). split; [apply en_here; assumption|auto].
      * destruct (IHa E) as (i0 & A & B & C). exists i0. split; [apply en_inside; assumption|auto].
      * destruct (IHr E) as (i0 & A & B & C). exists i0. split; [apply en_behind; assumption|auto].
Qed.
Lemma enc_nested : forall d l b inner l2 es, encloses d l b inner l2 es -> nested inner.
Proof. intros d l b inner l2 es H. induction H; assumption. Qed.

(** ** Derivations *)
Section Rules.
Variable rules : list rule.
Variable cfg : config.
Notation xderives := (xderives rules cfg).
Notation xlang := (xlang rules cfg).
Hypothesis Hwords : tells_words cfg.
Hypothesis Hnest : nesting_scanners cfg.

(** What is enclosed comes from a derivation of the rule. *)
Lemma enc_derived : forall n s e s', xderives n s e s' -> forall d l b inner l2, encloses d l b inner l2 e ->
  exists r s1 s2, In r rules /\ b = r_id r /\ l = p_at s1 /\ l2 = p_at s2 /\ xderives (NDefs (r_defs r)) s1 inner s2.
Proof.
  intros n s e s' H. induction H as
    [l w s s' Hw|l s|l c s s' e Hs|l id r s e s' Hn Hd IH|l d s|l d s e s' Hd IH|l d s|l d s e1 s1 e2 s2 H1 IH1 H2 IH2
    |l d s e s' Hd IH|p s|n p s e1 s1 e2 s2 H1 IH1 H2 IH2|f s e s' Hf IH|f x w s e s' Hf IH Hw Hx|s|t ts s e1 s1 e2 s2 H1 IH1 H2 IH2|ds d s e s' Hi Hd IH];
    intros d0 l0 b0 inner l2 K; try exact (IH _ _ _ _ _ K); try (exfalso; exact (enc_nil _ _ _ _ _ K)).
  - exfalso. refine (enc_tokens _ _ _ _ _ _ _ K). constructor; [exact I|constructor].
  - exfalso. exact (enc_tokens _ _ _ _ _ _ (proj1 Hwords _ _ _ _ _ Hs) K).
  - destruct (enc_pair _ _ _ _ _ _ _ _ _ _ _ (xnested rules cfg Hnest _ _ _ _ Hd) K) as [(-> & -> & -> & -> & ->)|[E|E]].
    + exists r, s, s'. destruct Hn. auto.
    + exact (IH _ _ _ _ _ E).
    + destruct (enc_nil _ _ _ _ _ E).
  - destruct (enc_app _ _ _ _ _ _ (xnested rules cfg Hnest _ _ _ _ H1) _ K) as [E|E]; [exact (IH1 _ _ _ _ _ E)|exact (IH2 _ _ _ _ _ E)].
  - destruct (enc_app _ _ _ _ _ _ (xnested rules cfg Hnest _ _ _ _ H1) _ K) as [E|E]; [exact (IH1 _ _ _ _ _ E)|exact (IH2 _ _ _ _ _ E)].
  - destruct (enc_app _ _ _ _ _ _ (xnested rules cfg Hnest _ _ _ _ H1) _ K) as [E|E]; [exact (IH1 _ _ _ _ _ E)|exact (IH2 _ _ _ _ _ E)].
Qed.

(** A derivation stays one where other text follows, if there, too, no choice has to be undone. *)
Variable start : str.
Hypothesis Hc : committed rules cfg start.
Definition ahd (n : node) (k : str) : Prop :=
  match n with NFactor (Factor i p) => exists m, (i <= m)%N /\ ahead rules cfg start (NFactor (Factor m p)) k | _ => ahead rules cfg start n k end.
Lemma goes_twice : forall s w1 s1 w2 s2 w, goes s w1 s1 -> goes s1 w2 s2 -> goes s w s2 -> w = w1 ++ w2.
Proof.
  intros s w1 s1 w2 s2 w H1 H2 H. destruct (goes_app _ _ _ _ _ H1 H2) as (A & _). destruct H as (B & _). rewrite B in A. apply app_inv_tail in A. exact A.
Qed.
Lemma goes_at : forall s w s' t t', goes s w s' -> goes t w t' -> p_at t = p_at s -> p_at t' = p_at s'.
Proof. intros s w s' t t' H K E. apply goes_push in H as (_ & H). apply goes_push in K as (_ & K). congruence. Qed.
Lemma carried : forall n s e s', xderives n s e s' -> forall t t' w, goes s w s' -> goes t w t' -> p_at t = p_at s -> ahd n (p_rest t') -> xderives n t e t'.
Proof.
  assert (Two : forall s w1 s1 w2 s2 w t t', goes s w1 s1 -> goes s1 w2 s2 -> goes s w s2 -> goes t w t' -> p_at t = p_at s ->
    exists t1, goes t w1 t1 /\ goes t1 w2 t' /\ p_at t1 = p_at s1 /\ p_rest t1 = w2 ++ p_rest t').
  { intros s w1 s1 w2 s2 w t t' G1 G2 G K E. rewrite (goes_twice _ _ _ _ _ _ G1 G2 G) in K. destruct (goes_split _ _ _ _ K) as (t1 & A & B & C).
    exists t1. split; [exact A|]. split; [exact B|]. split; [exact (goes_at _ _ _ _ _ G1 A E)|exact C]. }
  assert (Stay : forall s w t t', goes s w s -> goes t w t' -> t' = t).
  { intros s w t t' G K. pose proof (goes_word _ _ _ _ G (goes_nil s)) as ->. exact (goes_stay _ _ K). }
  intros n s e s' H. induction H as
    [l w s s' Hw|l s|l c s s' e Hs|l id r s e s' Hn Hd IH|l d s|l d s e s' Hd IH|l d s|l d s e1 s1 e2 s2 H1 IH1 H2 IH2
    |l d s e s' Hd IH|p s|n p s e1 s1 e2 s2 H1 IH1 H2 IH2|f s e s' Hf IH|f x w s e s' Hf IH Hw Hx|s|tm ts s e1 s1 e2 s2 H1 IH1 H2 IH2|ds d s e s' Hi Hd IH];
    intros t t' v G K E A; cbn [ahd] in A; try (rewrite (Stay _ _ _ _ G K); constructor; fail).
  - rewrite <- E. constructor. rewrite (goes_word _ _ _ _ Hw G). exact K.
  - destruct (proj2 (proj2 (proj2 Hc)) l c v t t' A) as (e' & S); [econstructor; eassumption|exact K|].
    rewrite (proj2 Hwords _ _ _ _ _ _ _ _ _ Hs S G K (eq_sym E)). constructor. exact S.
  - rewrite <- E, <- (goes_at _ _ _ _ _ G K E). econstructor; [exact Hn|]. apply (IH _ _ _ G K E). cbn. econstructor; eassumption.
  - apply xd_optional. apply (IH _ _ _ G K E). cbn. econstructor; eassumption.
  - destruct (xderives_xlang _ _ _ _ _ _ H1) as (w1 & G1 & L1). destruct (xderives_xlang _ _ _ _ _ _ H2) as (w2 & G2 & L2).
    destruct (Two _ _ _ _ _ _ _ _ G1 G2 G K E) as (t1 & K1 & K2 & E1 & R). eapply xd_repeated; [apply (IH1 _ _ _ G1 K1 E)|apply (IH2 _ _ _ G2 K2 E1)].
    + cbn. rewrite R. econstructor; eassumption.
    + exact A.
  - apply xd_group. apply (IH _ _ _ G K E). cbn. econstructor; eassumption.
  - destruct A as (m & Hm & A). destruct (xderives_xlang _ _ _ _ _ _ H1) as (w1 & G1 & L1). destruct (xderives_xlang _ _ _ _ _ _ H2) as (w2 & G2 & L2).
    destruct (Two _ _ _ _ _ _ _ _ G1 G2 G K E) as (t1 & K1 & K2 & E1 & R). eapply xd_times; [apply (IH1 _ _ _ G1 K1 E)|apply (IH2 _ _ _ G2 K2 E1)].
    + cbn. rewrite R. eapply ah_factor; [exact A| |exact L2]. lia.
    + cbn. exists m. split; [lia|exact A].
  - apply xd_term. apply (IH _ _ _ G K E). destruct f as [i p]. exists i. split; [lia|]. cbn. eapply ah_term. exact A.
  - eapply xd_except; [|exact K|rewrite <- (goes_word _ _ _ _ Hw G); exact Hx]. apply (IH _ _ _ G K E). destruct f as [i p]. exists i. split; [lia|]. cbn. eapply ah_term. exact A.
  - destruct (xderives_xlang _ _ _ _ _ _ H1) as (w1 & G1 & L1). destruct (xderives_xlang _ _ _ _ _ _ H2) as (w2 & G2 & L2).
    destruct (Two _ _ _ _ _ _ _ _ G1 G2 G K E) as (t1 & K1 & K2 & E1 & R). eapply xd_seq; [apply (IH1 _ _ _ G1 K1 E)|apply (IH2 _ _ _ G2 K2 E1)].
    + cbn. rewrite R. econstructor; eassumption.
    + cbn. eapply ah_rest. exact A.
  - eapply xd_defs; [exact Hi|]. apply (IH _ _ _ G K E). cbn. econstructor; eassumption.
Qed.
End Rules.
