(** Facts about exchanging a part of a text. *)
From Coq Require Import String List NArith Arith Bool Lia.
From Verif Require Import Base Ident Ast Graph Machine SpecText SpecSyntax TextFacts SyntaxFacts SpecParse SpecEvents SpecTotal SpecLL SpecExact SpecDeriv SpecOnly Pure CodeFacts PureFacts ParseFacts EvFacts EventFacts LangFacts TotalFacts ExactFacts DerivFacts OnlyFacts SpecPart PartFacts SpecEdit.
Import ListNotations.
Open Scope nat_scope.

(** ** Events *)
Lemma around_nested : forall a z, around a z -> forall y, nested y -> nested (a ++ y ++ z).
Proof.
  intros a z H. induction H as [r Hr|d l t a z H IH|d l b a z l2 r H IH Hr|d l b p l2 a z Hp H IH]; intros y Hy.
  - rewrite app_nil_l. apply nested_app; assumption.
  - cbn. constructor. apply IH. exact Hy.
  - replace ((EvBegin d l b :: a) ++ y ++ z ++ EvEnd d l2 b :: r) with (EvBegin d l b :: (a ++ y ++ z) ++ EvEnd d l2 b :: r) by (cbn; rewrite <- !app_assoc; reflexivity).
    constructor; [apply IH; exact Hy|exact Hr].
  - replace ((EvBegin d l b :: p ++ EvEnd d l2 b :: a) ++ y ++ z) with (EvBegin d l b :: p ++ EvEnd d l2 b :: (a ++ y ++ z)) by (cbn; rewrite <- !app_assoc; reflexivity).
    constructor; [exact Hp|apply IH; exact Hy].
Qed.
(** A Begin, what it encloses, and its End. *)
Definition block (d l : location) (b : str) (inner : list event) (l2 : location) : list event := EvBegin d l b :: inner ++ [EvEnd d l2 b].
Lemma block_nested : forall d l b inner l2, nested inner -> nested (block d l b inner l2).
Proof. intros d l b inner l2 H. apply (ne_pair _ _ _ _ _ [] H ne_nil). Qed.
Arguments block : simpl never.
Lemma block_app : forall d l b inner l2 z, block d l b inner l2 ++ z = EvBegin d l b :: inner ++ EvEnd d l2 b :: z.
Proof. intros. unfold block. cbn. rewrite <- app_assoc. reflexivity. Qed.
Lemma around_pair : forall d l b inner l2 a z, around a z -> nested inner -> forall d1 l1 b1 a1 l3 r1, nested a1 ->
  a ++ block d l b inner l2 ++ z = EvBegin d1 l1 b1 :: a1 ++ EvEnd d1 l3 b1 :: r1 ->
  (a = [] /\ d = d1 /\ l = l1 /\ b = b1 /\ inner = a1 /\ l2 = l3 /\ z = r1) \/
  (exists a' z', a = EvBegin d1 l1 b1 :: a' /\ z = z' ++ EvEnd d1 l3 b1 :: r1 /\ a1 = a' ++ block d l b inner l2 ++ z' /\ around a' z') \/
  (exists a', a = EvBegin d1 l1 b1 :: a1 ++ EvEnd d1 l3 b1 :: a' /\ r1 = a' ++ block d l b inner l2 ++ z /\ around a' z).
Proof.
  intros d l b inner l2 a z H Hi d1 l1 b1 a1 l3 r1 H1 E. destruct H as [r Hr|d0 l0 t a z H|d0 l0 b0 a z l4 r H Hr|d0 l0 b0 p l4 a z Hp H].
  - left. rewrite app_nil_l, block_app in E. injection E as -> -> -> E. destruct (nested_until _ Hi _ _ _ _ _ _ _ _ _ H1 E) as (-> & A & ->). injection A as ->. auto 10.
  - discriminate E.
  - right. left. cbn in E. injection E as -> -> -> E.
    replace (a ++ EvBegin d l b :: (inner ++ [EvEnd d l2 b]) ++ z ++ EvEnd d1 l4 b1 :: r) with ((a ++ block d l b inner l2 ++ z) ++ EvEnd d1 l4 b1 :: r) in E by (unfold block; cbn; rewrite <- !app_assoc; cbn [app]; rewrite <- ?app_assoc; cbn [app]; rewrite <- ?app_assoc; reflexivity).
    destruct (nested_until _ (around_nested _ _ H _ (block_nested d l b inner l2 Hi)) _ _ _ _ _ _ _ _ _ H1 E) as (A & B & C). injection B as ->. subst.
    exists a, z. auto.
  - right. right. cbn in E. injection E as -> -> -> E. rewrite <- app_assoc in E. cbn in E.
    destruct (nested_until _ Hp _ _ _ _ _ _ _ _ _ H1 E) as (-> & B & C). injection B as ->. exists a. subst. auto.
Qed.
Lemma around_app : forall d l b inner l2, nested inner -> forall e1, nested e1 -> forall a z e2, around a z -> a ++ block d l b inner l2 ++ z = e1 ++ e2 ->
  (exists z1, z = z1 ++ e2 /\ e1 = a ++ block d l b inner l2 ++ z1 /\ around a z1) \/
  (exists a2, a = e1 ++ a2 /\ e2 = a2 ++ block d l b inner l2 ++ z /\ around a2 z).
Proof.
  intros d l b inner l2 Hi e1 H. induction H as [|d1 l1 t1 r1 H IH|d1 l1 l3 b1 a1 r1 Ha IHa Hr IHr]; intros a z e2 Har E.
  - right. exists a. cbn in E. auto.
  - destruct Har as [r Hr|d0 l0 t a z Har|d0 l0 b0 a z l4 r Har Hr|d0 l0 b0 p l4 a z Hp Har]; try discriminate E.
    cbn in E. injection E as -> -> -> E. destruct (IH _ _ _ Har E) as [(z1 & -> & -> & K)|(a2 & -> & -> & K)].
    + left. exists z1. split; [reflexivity|]. split; [reflexivity|]. constructor. exact K.
    + right. exists a2. auto.
  - replace ((EvBegin d1 l1 b1 :: a1 ++ EvEnd d1 l3 b1 :: r1) ++ e2) with (EvBegin d1 l1 b1 :: a1 ++ EvEnd d1 l3 b1 :: (r1 ++ e2)) in E by (cbn; rewrite <- app_assoc; reflexivity).
    destruct (around_pair _ _ _ _ _ _ _ Har Hi _ _ _ _ _ _ Ha E) as [(-> & -> & -> & -> & -> & -> & ->)|[(a' & z' & -> & -> & -> & K)|(a' & -> & F & K)]].
    + left. exists r1. split; [reflexivity|]. split; [rewrite app_nil_l, block_app; reflexivity|]. constructor. exact Hr.
    + left. exists (z' ++ EvEnd d1 l3 b1 :: r1). split; [rewrite <- app_assoc; reflexivity|]. split; [cbn [app]; rewrite <- ?app_assoc; cbn [app]; rewrite <- ?app_assoc; reflexivity|]. constructor; assumption.
    + destruct (IHr _ _ _ K (eq_sym F)) as [(z1 & -> & -> & K1)|(a2 & -> & -> & K1)].
      * left. exists z1. split; [reflexivity|]. split; [cbn [app]; rewrite <- ?app_assoc; cbn [app]; rewrite <- ?app_assoc; reflexivity|]. constructor; assumption.
      * right. exists a2. split; [cbn; rewrite <- app_assoc; reflexivity|]. auto.
Qed.
(** The filter. *)
Lemma solid_pair : forall d l b a l2 r, nested a -> solid (EvBegin d l b :: a ++ EvEnd d l2 b :: r) = match solid a with [] => solid r | _ => EvBegin d l b :: solid a ++ EvEnd d l2 b :: solid r end.
Proof.
  intros d l b a l2 r H. change (solid_step (EvBegin d l b) (solid (a ++ EvEnd d l2 b :: r)) = match solid a with [] => solid r | _ => EvBegin d l b :: solid a ++ EvEnd d l2 b :: solid r end).
  rewrite (solid_app _ _ H). change (solid (EvEnd d l2 b :: r)) with (EvEnd d l2 b :: solid r).
  destruct (solid_nested _ H) as (a' & Na & Ea). assert (Es : solid a = a') by (unfold solid; rewrite Ea; apply app_nil_r). rewrite Es.
  destruct a' as [|[| |] a']; cbn in *; try contradiction; reflexivity.
Qed.
Lemma around_filtered : forall d l b inner l2, nested inner -> forall e, nested e -> forall a z, around a z -> remove_pairs e = a ++ block d l b inner l2 ++ z ->
  exists a0 z0 inner0, e = a0 ++ block d l b inner0 l2 ++ z0 /\ around a0 z0 /\ nested inner0 /\ inner = remove_pairs inner0 /\
    forall y, nested y -> solid (a0 ++ y ++ z0) = solid (a ++ y ++ z).
Proof.
  intros d l b inner l2 Hi e H. induction H as [|d1 l1 t1 r1 H IH|d1 l1 l3 b1 a1 r1 Ha IHa Hr IHr]; intros a z Har E.
  - destruct Har; discriminate E.
  - destruct Har as [r Hr|d0 l0 t a z Har|d0 l0 b0 a z l4 r Har Hr|d0 l0 b0 p l4 a z Hp Har]; try discriminate E.
    cbn in E. injection E as -> -> -> E. destruct (IH _ _ Har E) as (a0 & z0 & i0 & -> & K1 & K2 & K3 & K4).
    exists (EvToken d0 l0 t :: a0), z0, i0. split; [reflexivity|]. split; [constructor; exact K1|]. split; [exact K2|]. split; [exact K3|]. intros y Hy.
    change (solid_step (EvToken d0 l0 t) (solid (a0 ++ y ++ z0)) = solid_step (EvToken d0 l0 t) (solid (a ++ y ++ z))). rewrite (K4 y Hy). reflexivity.
  - destruct a1 as [|x a1].
    + cbn in E. destruct (IHr _ _ Har E) as (a0 & z0 & i0 & -> & K1 & K2 & K3 & K4).
      exists (EvBegin d1 l1 b1 :: [] ++ EvEnd d1 l3 b1 :: a0), z0, i0. split; [reflexivity|]. split; [apply ar_behind; [constructor|exact K1]|]. split; [exact K2|]. split; [exact K3|]. intros y Hy.
      exact (K4 y Hy).
    + set (f := x :: a1) in *. rewrite (filter_pair _ _ _ f) in E; try assumption; try discriminate; [|apply filter_app; exact Ha]. pose proof (filter_nested _ Ha) as Hf.
      destruct (around_pair _ _ _ _ _ _ _ Har Hi _ _ _ _ _ _ Hf (eq_sym E)) as [(-> & -> & -> & -> & -> & -> & ->)|[(a' & z' & -> & -> & F & K)|(a' & -> & F & K)]].
      * exists [], r1, f. split; [rewrite app_nil_l, block_app; reflexivity|]. split; [constructor; exact Hr|]. split; [exact Ha|]. split; [reflexivity|]. intros y Hy. cbn [app].
        rewrite !(solid_app y _ Hy). rewrite (solid_remove _ r1 (le_n _)). reflexivity.
      * destruct (IHa _ _ K F) as (a0 & z0 & i0 & -> & K1 & K2 & K3 & K4).
        exists (EvBegin d1 l1 b1 :: a0), (z0 ++ EvEnd d1 l3 b1 :: r1), i0. split; [cbn [app]; rewrite <- ?app_assoc; cbn [app]; rewrite <- ?app_assoc; reflexivity|]. split; [constructor; assumption|]. split; [exact K2|]. split; [exact K3|]. intros y Hy.
        replace ((EvBegin d1 l1 b1 :: a0) ++ y ++ z0 ++ EvEnd d1 l3 b1 :: r1) with (EvBegin d1 l1 b1 :: (a0 ++ y ++ z0) ++ EvEnd d1 l3 b1 :: r1) by (cbn [app]; rewrite <- ?app_assoc; cbn [app]; rewrite <- ?app_assoc; reflexivity).
        replace ((EvBegin d1 l1 b1 :: a') ++ y ++ z' ++ EvEnd d1 l3 b1 :: remove_pairs r1) with (EvBegin d1 l1 b1 :: (a' ++ y ++ z') ++ EvEnd d1 l3 b1 :: remove_pairs r1) by (cbn [app]; rewrite <- ?app_assoc; cbn [app]; rewrite <- ?app_assoc; reflexivity).
        rewrite !solid_pair by (apply around_nested; assumption). rewrite (K4 y Hy), (solid_remove _ r1 (le_n _)). reflexivity.
      * destruct (IHr _ _ K F) as (a0 & z0 & i0 & -> & K1 & K2 & K3 & K4).
        exists (EvBegin d1 l1 b1 :: f ++ EvEnd d1 l3 b1 :: a0), z0, i0. split; [cbn [app]; rewrite <- ?app_assoc; cbn [app]; rewrite <- ?app_assoc; reflexivity|]. split; [apply ar_behind; assumption|]. split; [exact K2|]. split; [exact K3|]. intros y Hy.
        replace ((EvBegin d1 l1 b1 :: f ++ EvEnd d1 l3 b1 :: a0) ++ y ++ z0) with (EvBegin d1 l1 b1 :: f ++ EvEnd d1 l3 b1 :: (a0 ++ y ++ z0)) by (cbn [app]; rewrite <- ?app_assoc; cbn [app]; rewrite <- ?app_assoc; reflexivity).
        replace ((EvBegin d1 l1 b1 :: remove_pairs f ++ EvEnd d1 l3 b1 :: a') ++ y ++ z) with (EvBegin d1 l1 b1 :: remove_pairs f ++ EvEnd d1 l3 b1 :: (a' ++ y ++ z)) by (cbn [app]; rewrite <- !app_assoc; reflexivity).
        rewrite !solid_pair by assumption. rewrite (K4 y Hy), (solid_remove _ f (le_n _)). reflexivity.
Qed.

(** ** Derivations *)
Section Rules.
Variable rules : list rule.
Variable cfg : config.
Notation xderives := (xderives rules cfg).
Notation xlang := (xlang rules cfg).
Notation uses := (uses rules).
Hypothesis Hsay : says_words cfg.
Hypothesis Hnest : nesting_scanners cfg.

Lemma uses_trans : forall n m k, uses n m -> uses m k -> uses n k.
Proof. intros n m k H K. induction K; [exact H| | | | | | | | | |]; econstructor; eassumption. Qed.
Definition avoids (n : node) : Prop := forall l id,
  match n with NFactor (Factor _ p) => ~ uses (NPrim p) (NPrim (PMeta l id)) | _ => ~ uses n (NPrim (PMeta l id)) end.
Lemma avoids_part : forall n m, uses n m -> (forall l id, ~ uses n (NPrim (PMeta l id))) -> avoids m.
Proof.
  intros n m H K l id. assert (J : ~ uses m (NPrim (PMeta l id))) by (intros J; exact (K l id (uses_trans _ _ _ H J))).
  destruct m; try exact J. destruct f as [i p]. intros J2. apply J. eapply uses_trans; [|exact J2]. eapply us_factor. apply us_self.
Qed.
Lemma tokens_only : forall n s e s', xderives n s e s' -> avoids n -> Forall token e.
Proof.
  intros n s e s' H. induction H as
    [l w s s' Hw|l s|l c s s' e Hs|l id r s e s' Hn Hd IH|l d s|l d s e s' Hd IH|l d s|l d s e1 s1 e2 s2 H1 IH1 H2 IH2
    |l d s e s' Hd IH|p s|n p s e1 s1 e2 s2 H1 IH1 H2 IH2|f s e s' Hf IH|f x w s e s' Hf IH Hw Hx|s|tm ts s e1 s1 e2 s2 H1 IH1 H2 IH2|ds d s e s' Hi Hd IH]; intros U;
    try (apply Forall_nil); try (apply Forall_app; split).
  - constructor; [exact I|constructor].
  - exact (proj1 Hsay _ _ _ _ _ Hs).
  - destruct (U l id (us_self _ _)).
  - apply IH. apply (avoids_part (NPrim (POptional l d))); [eapply us_optional; apply us_self|exact U].
  - apply IH1. apply (avoids_part (NPrim (PRepeated l d))); [eapply us_repeated; apply us_self|exact U].
  - exact (IH2 U).
  - apply IH. apply (avoids_part (NPrim (PGrouped l d))); [eapply us_group; apply us_self|exact U].
  - exact (IH1 U).
  - exact (IH2 U).
  - apply IH. apply (avoids_part (NTerm (Term f None))); [eapply us_term; apply us_self|exact U].
  - apply IH. apply (avoids_part (NTerm (Term f (Some x)))); [eapply us_term; apply us_self|exact U].
  - apply IH1. apply (avoids_part (NSeq (tm :: ts))); [eapply us_head; apply us_self|exact U].
  - apply IH2. apply (avoids_part (NSeq (tm :: ts))); [eapply us_rest; apply us_self|exact U].
  - apply IH. apply (avoids_part (NDefs ds)); [eapply us_defs; [apply us_self|exact Hi]|exact U].
Qed.

Variable start : str.
Hypothesis Hc : committed rules cfg start.
Hypothesis Hfree : free_references rules.
Notation ahd := (ahd rules cfg start).
Lemma two_steps : forall s w1 s1 w2 s2 w t t', goes s w1 s1 -> goes s1 w2 s2 -> goes s w s2 -> goes t w t' ->
  exists t1, goes t w1 t1 /\ goes t1 w2 t' /\ p_rest t1 = w2 ++ p_rest t'.
Proof. intros s w1 s1 w2 s2 w t t' G1 G2 G K. rewrite (goes_twice _ _ _ _ _ _ G1 G2 G) in K. exact (goes_split _ _ _ _ K). Qed.
(** A derivation can be moved to another place. *)
Lemma moved_said : forall n s e s', xderives n s e s' -> forall t t' w, goes s w s' -> goes t w t' -> ahd n (p_rest t') ->
  exists e', xderives n t e' t' /\ map said e' = map said e.
Proof.
  assert (Stay : forall s w t t', goes s w s -> goes t w t' -> t' = t).
  { intros s w t t' G K. pose proof (goes_word _ _ _ _ G (goes_nil s)) as ->. exact (goes_stay _ _ K). }
  intros n s e s' H. induction H as
    [l w s s' Hw|l s|l c s s' e Hs|l id r s e s' Hn Hd IH|l d s|l d s e s' Hd IH|l d s|l d s e1 s1 e2 s2 H1 IH1 H2 IH2
    |l d s e s' Hd IH|p s|n p s e1 s1 e2 s2 H1 IH1 H2 IH2|f s e s' Hf IH|f x w s e s' Hf IH Hw Hx|s|tm ts s e1 s1 e2 s2 H1 IH1 H2 IH2|ds d s e s' Hi Hd IH];
    intros t t' v G K A; cbn [PartFacts.ahd] in A; try (rewrite (Stay _ _ _ _ G K); exists []; split; [constructor|reflexivity]; fail).
  - rewrite <- (goes_word _ _ _ _ Hw G) in K. exists [EvToken l (p_at t) w]. split; [constructor; exact K|reflexivity].
  - destruct (proj2 (proj2 (proj2 Hc)) l c v t t' A) as (e' & S); [econstructor; eassumption|exact K|].
    exists e'. split; [constructor; exact S|]. exact (eq_sym (proj2 Hsay _ _ _ _ _ _ _ _ _ Hs S G K)).
  - destruct (IH _ _ _ G K) as (e' & D & S); [cbn; econstructor; eassumption|]. eexists. split; [econstructor; [exact Hn|exact D]|]. cbn. rewrite !map_app, S. reflexivity.
  - destruct (IH _ _ _ G K) as (e' & D & S); [cbn; econstructor; eassumption|]. exists e'. split; [apply xd_optional; exact D|exact S].
  - destruct (xderives_xlang _ _ _ _ _ _ H1) as (w1 & G1 & L1). destruct (xderives_xlang _ _ _ _ _ _ H2) as (w2 & G2 & L2).
    destruct (two_steps _ _ _ _ _ _ _ _ G1 G2 G K) as (t1 & K1 & K2 & R).
    destruct (IH1 _ _ _ G1 K1) as (a & D1 & S1); [cbn; rewrite R; econstructor; eassumption|]. destruct (IH2 _ _ _ G2 K2 A) as (b & D2 & S2).
    exists (a ++ b). split; [econstructor; eassumption|rewrite !map_app; congruence].
  - destruct (IH _ _ _ G K) as (e' & D & S); [cbn; econstructor; eassumption|]. exists e'. split; [apply xd_group; exact D|exact S].
  - destruct A as (m & Hm & A). destruct (xderives_xlang _ _ _ _ _ _ H1) as (w1 & G1 & L1). destruct (xderives_xlang _ _ _ _ _ _ H2) as (w2 & G2 & L2).
    destruct (two_steps _ _ _ _ _ _ _ _ G1 G2 G K) as (t1 & K1 & K2 & R).
    destruct (IH1 _ _ _ G1 K1) as (a & D1 & S1); [cbn; rewrite R; eapply ah_factor; [exact A| |exact L2]; lia|].
    destruct (IH2 _ _ _ G2 K2) as (b & D2 & S2); [cbn; exists m; split; [lia|exact A]|].
    exists (a ++ b). split; [econstructor; eassumption|rewrite !map_app; congruence].
  - destruct (IH _ _ _ G K) as (e' & D & S); [destruct f as [i p]; exists i; split; [lia|eapply ah_term; exact A]|]. exists e'. split; [apply xd_term; exact D|exact S].
  - destruct (IH _ _ _ G K) as (e' & D & S); [destruct f as [i p]; exists i; split; [lia|eapply ah_term; exact A]|].
    exists e'. split; [|exact S]. eapply xd_except; [exact D|exact K|rewrite <- (goes_word _ _ _ _ Hw G); exact Hx].
  - destruct (xderives_xlang _ _ _ _ _ _ H1) as (w1 & G1 & L1). destruct (xderives_xlang _ _ _ _ _ _ H2) as (w2 & G2 & L2).
    destruct (two_steps _ _ _ _ _ _ _ _ G1 G2 G K) as (t1 & K1 & K2 & R).
    destruct (IH1 _ _ _ G1 K1) as (a & D1 & S1); [cbn; rewrite R; econstructor; eassumption|]. destruct (IH2 _ _ _ G2 K2) as (b & D2 & S2); [cbn; eapply ah_rest; exact A|].
    exists (a ++ b). split; [econstructor; eassumption|rewrite !map_app; congruence].
  - destruct (IH _ _ _ G K) as (e' & D & S); [cbn; econstructor; eassumption|]. exists e'. split; [eapply xd_defs; eassumption|exact S].
Qed.

(** The text [w'] fits wherever a text of [r] may stand. *)
Definition fits (r : rule) (w' : str) (S : list saying) : Prop := forall t1 t2, goes t1 w' t2 ->
  ahead rules cfg start (NDefs (r_defs r)) (p_rest t2) -> exists e1, xderives (NDefs (r_defs r)) t1 e1 t2 /\ map said e1 = S.
Definition edits (n : node) (s s' : pst) (a z : list event) (l : location) (b : str) (inner : list event) (l2 : location) : Prop :=
  exists r s1 s2 u v, In r rules /\ b = r_id r /\ l = p_at s1 /\ l2 = p_at s2 /\ xderives (NDefs (r_defs r)) s1 inner s2 /\ goes s u s1 /\ goes s2 v s' /\
    forall w', xlang (NDefs (r_defs r)) w' -> xlang n (u ++ w' ++ v) /\
      forall S t t', fits r w' S -> goes t (u ++ w' ++ v) t' -> ahd n (p_rest t') ->
        exists e2, xderives n t e2 t' /\ map said e2 = map said a ++ SayBegin b :: S ++ SayEnd b :: map said z.
Lemma edits_wrap : forall n1 n s s' a z l b inner l2, (forall w, xlang n1 w -> xlang n w) -> (forall k, ahd n k -> ahd n1 k) ->
  (forall t e t', xderives n1 t e t' -> xderives n t e t') -> edits n1 s s' a z l b inner l2 -> edits n s s' a z l b inner l2.
Proof.
  intros n1 n s s' a z l b inner l2 HL HA HD (r & s1 & s2 & u & v & K1 & K2 & K3 & K4 & K5 & K6 & K7 & K8). exists r, s1, s2, u, v. do 7 (split; [assumption|]).
  intros w' Lw. destruct (K8 w' Lw) as (X & Y). split; [apply HL; exact X|]. intros S t t' F G A. destruct (Y S t t' F G (HA _ A)) as (e2 & D & E). exists e2. split; [apply HD; exact D|exact E].
Qed.
Lemma edits_left : forall n1 n2 n s e2 s1' s' a z l b inner l2,
  (forall w1 w2, xlang n1 w1 -> xlang n2 w2 -> xlang n (w1 ++ w2)) -> (forall k w, ahd n k -> xlang n2 w -> ahd n1 (w ++ k)) -> (forall k, ahd n k -> ahd n2 k) ->
  (forall t x t1 y t', xderives n1 t x t1 -> xderives n2 t1 y t' -> xderives n t (x ++ y) t') ->
  xderives n2 s1' e2 s' -> edits n1 s s1' a z l b inner l2 -> edits n s s' a (z ++ e2) l b inner l2.
Proof.
  intros n1 n2 n s e2 s1' s' a z l b inner l2 HL HA1 HA2 HD H2 (r & s1 & s2 & u & v & K1 & K2 & K3 & K4 & K5 & K6 & K7 & K8).
  destruct (xderives_xlang _ _ _ _ _ _ H2) as (w2 & G2 & L2). exists r, s1, s2, u, (v ++ w2). do 6 (split; [assumption|]). split; [exact (goes_app _ _ _ _ _ K7 G2)|].
  intros w' Lw. destruct (K8 w' Lw) as (X & Y). replace (u ++ w' ++ v ++ w2) with ((u ++ w' ++ v) ++ w2) by (rewrite <- !app_assoc; reflexivity).
  split; [apply HL; assumption|]. intros S t t' F G A. destruct (goes_split _ _ _ _ G) as (t1 & B1 & B2 & R).
  destruct (Y S t t1 F B1) as (x & D1 & E1); [rewrite R; apply HA1; assumption|]. destruct (moved_said _ _ _ _ H2 _ _ _ G2 B2 (HA2 _ A)) as (y & D2 & E2).
  exists (x ++ y). split; [eapply HD; eassumption|]. rewrite map_app, E1, E2, map_app, <- !app_assoc. cbn. rewrite <- app_assoc. reflexivity.
Qed.
Lemma edits_right : forall n1 n2 n s e1 s1' s' a z l b inner l2,
  (forall w1 w2, xlang n1 w1 -> xlang n2 w2 -> xlang n (w1 ++ w2)) -> (forall k w, ahd n k -> xlang n2 w -> ahd n1 (w ++ k)) -> (forall k, ahd n k -> ahd n2 k) ->
  (forall t x t1 y t', xderives n1 t x t1 -> xderives n2 t1 y t' -> xderives n t (x ++ y) t') ->
  xderives n1 s e1 s1' -> edits n2 s1' s' a z l b inner l2 -> edits n s s' (e1 ++ a) z l b inner l2.
Proof.
  intros n1 n2 n s e1 s1' s' a z l b inner l2 HL HA1 HA2 HD H1 (r & s1 & s2 & u & v & K1 & K2 & K3 & K4 & K5 & K6 & K7 & K8).
  destruct (xderives_xlang _ _ _ _ _ _ H1) as (w1 & G1 & L1). exists r, s1, s2, (w1 ++ u), v. do 5 (split; [assumption|]). split; [exact (goes_app _ _ _ _ _ G1 K6)|]. split; [exact K7|].
  intros w' Lw. destruct (K8 w' Lw) as (X & Y). rewrite <- app_assoc.
  split; [apply HL; assumption|]. intros S t t' F G A. destruct (goes_split _ _ _ _ G) as (t1 & B1 & B2 & R).
  destruct (moved_said _ _ _ _ H1 _ _ _ G1 B1) as (x & D1 & E1); [rewrite R; apply HA1; assumption|]. destruct (Y S t1 t' F B2 (HA2 _ A)) as (y & D2 & E2).
  exists (x ++ y). split; [eapply HD; eassumption|]. rewrite !map_app, E1, E2, <- app_assoc. reflexivity.
Qed.
Lemma deeper : forall n m, construct rules n -> uses n m -> construct rules m.
Proof. intros n m (r & H & U) K. exists r. split; [exact H|]. exact (uses_trans _ _ _ U K). Qed.
Definition held (n : node) : Prop := match n with NFactor (Factor i p) => construct rules (NPrim p) | _ => construct rules n end.
Lemma all_edits : forall n s e s', xderives n s e s' -> held n -> forall a z d l b inner l2, around a z -> nested inner ->
  e = a ++ block d l b inner l2 ++ z -> edits n s s' a z l b inner l2.
Proof.
  intros n s e s' H. induction H as
    [l w s s' Hw|l s|l c s s' e Hs|l id r s e s' Hn Hd IH|l d s|l d s e s' Hd IH|l d s|l d s e1 s1 e2 s2 H1 IH1 H2 IH2
    |l d s e s' Hd IH|p s|n p s e1 s1 e2 s2 H1 IH1 H2 IH2|f s e s' Hf IH|f x w s e s' Hf IH Hw Hx|s|tm ts s e1 s1 e2 s2 H1 IH1 H2 IH2|ds d s e s' Hi Hd IH];
    intros Hh a z d0 l0 b0 inner l2 Har Hin E;
    try (exfalso; destruct Har; discriminate E).
  - exfalso. assert (T : Forall token [EvToken l (p_at s) w]) by (constructor; [exact I|constructor]). rewrite E, block_app in T. apply Forall_app in T as (_ & T). inversion T as [|y ys Hy]. destruct Hy.
  - exfalso. pose proof (proj1 Hsay _ _ _ _ _ Hs) as T. rewrite E, block_app in T. apply Forall_app in T as (_ & T). inversion T as [|y ys Hy]. destruct Hy.
  - pose proof (xnested rules cfg Hnest _ _ _ _ Hd) as Ne.
    assert (HL : forall w, xlang (NDefs (r_defs r)) w -> xlang (NPrim (PMeta l id)) w) by (intros; econstructor; eassumption).
    destruct (around_pair _ _ _ _ _ _ _ Har Hin _ _ _ _ _ _ Ne (eq_sym E)) as [(-> & -> & -> & -> & -> & -> & ->)|[(a' & z' & -> & -> & -> & K)|(a' & -> & F & K)]].
    + exists r, s, s', [], []. split; [exact (proj1 Hn)|]. split; [reflexivity|]. split; [reflexivity|]. split; [reflexivity|]. split; [exact Hd|]. split; [apply goes_nil|]. split; [apply goes_nil|].
      intros w' Lw. rewrite app_nil_r. cbn [app]. split; [apply HL; exact Lw|]. intros S t t' F G A. destruct (F t t' G) as (e1 & D & Es); [eapply ah_meta; [exact A|exact Hn]|].
      eexists. split; [econstructor; [exact Hn|exact D]|]. cbn. rewrite map_app, Es. reflexivity.
    + destruct (IH ltac:(exists r; split; [exact (proj1 Hn)|apply us_self]) _ _ _ _ _ _ _ K Hin eq_refl) as (r2 & s1 & s2 & u & v & K1 & K2 & K3 & K4 & K5 & K6 & K7 & K8).
      exists r2, s1, s2, u, v. do 7 (split; [assumption|]). intros w' Lw. destruct (K8 w' Lw) as (X & Y). split; [apply HL; exact X|]. intros S t t' F G A.
      destruct (Y S t t' F G) as (e2 & D & Es); [cbn; eapply ah_meta; [exact A|exact Hn]|]. eexists. split; [econstructor; [exact Hn|exact D]|]. cbn. rewrite !map_app, Es. cbn. rewrite <- !app_assoc. cbn. rewrite <- app_assoc. reflexivity.
    + exfalso. destruct K; discriminate F.
  - eapply (edits_wrap (NDefs d)); [intros; constructor; assumption|intros; econstructor; eassumption|intros; constructor; assumption|].
    eapply IH; [|exact Har|exact Hin|exact E]. eapply deeper; [exact Hh|]. eapply us_optional. apply us_self.
  - assert (HA : forall k w, ahd (NPrim (PRepeated l d)) k -> xlang (NPrim (PRepeated l d)) w -> ahd (NDefs d) (w ++ k)) by (intros; econstructor; eassumption).
    assert (Hd1 : held (NDefs d)) by (eapply deeper; [exact Hh|]; eapply us_repeated; apply us_self).
    destruct (around_app _ _ _ _ _ Hin _ (xnested rules cfg Hnest _ _ _ _ H1) _ _ _ Har (eq_sym E)) as [(z1 & -> & F & K)|(a2 & -> & F & K)].
    + eapply (edits_left (NDefs d) (NPrim (PRepeated l d))); [intros; econstructor; eassumption|exact HA|auto|intros; econstructor; eassumption|exact H2|]. eapply IH1; eassumption.
    + eapply (edits_right (NDefs d) (NPrim (PRepeated l d))); [intros; econstructor; eassumption|exact HA|auto|intros; econstructor; eassumption|exact H1|]. eapply IH2; eassumption.
  - eapply (edits_wrap (NDefs d)); [intros; constructor; assumption|intros; econstructor; eassumption|intros; constructor; assumption|].
    eapply IH; [|exact Har|exact Hin|exact E]. eapply deeper; [exact Hh|]. eapply us_group. apply us_self.
  - assert (HA : forall k w, ahd (NFactor (Factor (N.succ n) p)) k -> xlang (NFactor (Factor n p)) w -> ahd (NPrim p) (w ++ k)).
    { intros k w (m & Hm & A) L. cbn. eapply ah_factor; [exact A| |exact L]. lia. }
    assert (HA2 : forall k, ahd (NFactor (Factor (N.succ n) p)) k -> ahd (NFactor (Factor n p)) k) by (intros k (m & Hm & A); exists m; split; [lia|exact A]).
    destruct (around_app _ _ _ _ _ Hin _ (xnested rules cfg Hnest _ _ _ _ H1) _ _ _ Har (eq_sym E)) as [(z1 & -> & F & K)|(a2 & -> & F & K)].
    + eapply (edits_left (NPrim p) (NFactor (Factor n p))); [intros; econstructor; eassumption|exact HA|exact HA2|intros; econstructor; eassumption|exact H2|]. eapply IH1; eassumption.
    + eapply (edits_right (NPrim p) (NFactor (Factor n p))); [intros; econstructor; eassumption|exact HA|exact HA2|intros; econstructor; eassumption|exact H1|]. eapply IH2; eassumption.
  - eapply (edits_wrap (NFactor f)); [intros; constructor; assumption|intros k A; destruct f as [i p]; exists i; split; [lia|eapply ah_term; exact A]|intros; constructor; assumption|].
    eapply IH; [|exact Har|exact Hin|exact E]. destruct f as [i p]. cbn. eapply deeper; [exact Hh|]. eapply us_factor, us_term, us_self.
  - exfalso. assert (T : Forall token e).
    { apply (tokens_only _ _ _ _ Hf). apply (avoids_part (NFactor f)); [apply us_self|]. intros l id. exact (Hfree f x l id Hh). }
    rewrite E, block_app in T. apply Forall_app in T as (_ & T). inversion T as [|y ys Hy]. destruct Hy.
  - assert (HA : forall k w, ahd (NSeq (tm :: ts)) k -> xlang (NSeq ts) w -> ahd (NTerm tm) (w ++ k)) by (intros; econstructor; eassumption).
    assert (HA2 : forall k, ahd (NSeq (tm :: ts)) k -> ahd (NSeq ts) k) by (intros; eapply ah_rest; eassumption).
    assert (Hd1 : held (NTerm tm)) by (eapply deeper; [exact Hh|]; eapply us_head; apply us_self).
    assert (Hd2 : held (NSeq ts)) by (eapply deeper; [exact Hh|]; eapply us_rest; apply us_self).
    destruct (around_app _ _ _ _ _ Hin _ (xnested rules cfg Hnest _ _ _ _ H1) _ _ _ Har (eq_sym E)) as [(z1 & -> & F & K)|(a2 & -> & F & K)].
    + eapply (edits_left (NTerm tm) (NSeq ts)); [intros; econstructor; eassumption|exact HA|exact HA2|intros; econstructor; eassumption|exact H2|]. eapply IH1; eassumption.
    + eapply (edits_right (NTerm tm) (NSeq ts)); [intros; econstructor; eassumption|exact HA|exact HA2|intros; econstructor; eassumption|exact H1|]. eapply IH2; eassumption.
  - eapply (edits_wrap (NSeq d)); [intros; econstructor; eassumption|intros; econstructor; eassumption|intros; econstructor; eassumption|].
    eapply IH; [|exact Har|exact Hin|exact E]. eapply deeper; [exact Hh|]. eapply us_defs; [apply us_self|exact Hi].
Qed.
End Rules.
