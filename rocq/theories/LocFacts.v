(** Locations of the constructs of a text. *)
From Coq Require Import String List NArith Arith Bool Lia.
From Verif Require Import Base Ident Tokenizer Ast Lex SpecText TextFacts SpecTok TokFacts TokRun
  SpecLex LexRun SpecGram GramFacts GramText SpecSyntax SpecLoc.
Import ListNotations.
Open Scope nat_scope.

(** [sub w' w]: a stretch of a run. *)
Definition sub (w' w : list token) : Prop := exists a b, w = a ++ w' ++ b.
Lemma sub_refl : forall w, sub w w.
Proof. intros w. exists [], []. cbn. rewrite app_nil_r. reflexivity. Qed.
Lemma sub_app : forall a w b, sub w (a ++ w ++ b).
Proof. intros a w b. exists a, b. reflexivity. Qed.
Lemma sub_trans : forall x y z, sub x y -> sub y z -> sub x z.
Proof. intros x y z (a & b & ->) (c & d & ->). exists (c ++ a), (b ++ d). rewrite <- !app_assoc. reflexivity. Qed.
Lemma sub_right : forall x a w, sub x w -> sub x (a ++ w).
Proof. intros x a w (c & d & ->). exists (a ++ c), d. rewrite <- !app_assoc. reflexivity. Qed.
Lemma sub_left : forall x a w, sub x w -> sub x (w ++ a).
Proof. intros x a w (c & d & ->). exists c, (d ++ a). rewrite <- !app_assoc. reflexivity. Qed.
Lemma sub_cons : forall x t w, sub x w -> sub x (t :: w).
Proof. intros x t w H. apply (sub_right x [t] w H). Qed.
#[local] Hint Resolve sub_refl sub_right sub_left sub_cons : core.

Definition found (p : primary) (w : list token) : Prop := exists w', sub w' w /\ g_primary w' p.
Lemma found_sub : forall p w w', found p w' -> sub w' w -> found p w.
Proof. intros p w w' (x & Hx & Hg) Hs. exists x. split; [eapply sub_trans; eassumption|exact Hg]. Qed.
Definition in_term (p : primary) (t : term) : Prop :=
  inside p (f_prim (t_factor t)) \/ exists e, t_exc t = Some e /\ inside p (f_prim e).

Lemma inside_inv : forall p q, inside p q -> p = q \/
  exists d l s t, (q = POptional l d \/ q = PRepeated l d \/ q = PGrouped l d) /\ In s d /\ In t s /\ in_term p t.
Proof.
  intros p q H. destruct H as [p|p q d l s t Hq Hs Ht Hi]; [left; reflexivity|right].
  exists d, l, s, t. auto.
Qed.

Lemma all_found :
  (forall w q, g_primary w q -> forall p, inside p q -> found p w) /\
  (forall w x, g_factor w x -> forall p, inside p (f_prim x) -> found p w) /\
  (forall w t, g_term w t -> forall p, in_term p t -> found p w) /\
  (forall w s, g_single w s -> forall p t, In t s -> in_term p t -> found p w) /\
  (forall w d, g_defs w d -> forall p s t, In s d -> In t s -> in_term p t -> found p w).
Proof.
  apply g_all_mut.
  - intros l s w d l' s' Hd IH p Hi. apply inside_inv in Hi as [->|(d' & l0 & s0 & t & Hq & Hs & Ht & Hi)].
    + eexists. split; [apply sub_refl|]. constructor. exact Hd.
    + destruct Hq as [Hq|[Hq|Hq]]; try discriminate. injection Hq as <- <-.
      eapply found_sub; [eapply IH; eassumption|auto].
  - intros l s w d l' s' Hd IH p Hi. apply inside_inv in Hi as [->|(d' & l0 & s0 & t & Hq & Hs & Ht & Hi)].
    + eexists. split; [apply sub_refl|]. constructor. exact Hd.
    + destruct Hq as [Hq|[Hq|Hq]]; try discriminate. injection Hq as <- <-.
      eapply found_sub; [eapply IH; eassumption|auto].
  - intros l w d l' Hd IH p Hi. apply inside_inv in Hi as [->|(d' & l0 & s0 & t & Hq & Hs & Ht & Hi)].
    + eexists. split; [apply sub_refl|]. constructor. exact Hd.
    + destruct Hq as [Hq|[Hq|Hq]]; try discriminate. injection Hq as <- <-.
      eapply found_sub; [eapply IH; eassumption|auto].
  - intros w l id H p Hi. apply inside_inv in Hi as [->|(d' & l0 & s0 & t & Hq & _)].
    + eexists. split; [apply sub_refl|]. constructor. exact H.
    + destruct Hq as [Hq|[Hq|Hq]]; discriminate.
  - intros l s q p Hi. apply inside_inv in Hi as [->|(d' & l0 & s0 & t & Hq & _)].
    + eexists. split; [apply sub_refl|]. constructor.
    + destruct Hq as [Hq|[Hq|Hq]]; discriminate.
  - intros l s p Hi. apply inside_inv in Hi as [->|(d' & l0 & s0 & t & Hq & _)].
    + eexists. split; [apply sub_refl|]. constructor.
    + destruct Hq as [Hq|[Hq|Hq]]; discriminate.
  - intros l p Hi. apply inside_inv in Hi as [->|(d' & l0 & s0 & t & Hq & _)].
    + eexists. split; [apply sub_refl|]. constructor.
    + destruct Hq as [Hq|[Hq|Hq]]; discriminate.
  - intros tr1 w tr2 q _ _ IH _ p Hi. eapply found_sub; [apply IH; exact Hi|auto].
  - intros tr1 l s tr2 l' tr3 w tr4 q _ _ _ _ _ _ IH p Hi. eapply found_sub; [apply IH; exact Hi|auto 10].
  - intros w x _ IH p [Hi|(e & He & _)]; [apply IH; exact Hi|discriminate].
  - intros w x l w' e _ IH _ IH' p [Hi|(e' & He & Hi)].
    + eapply found_sub; [apply IH; exact Hi|auto].
    + injection He as <-. eapply found_sub; [apply IH'; exact Hi|auto].
  - intros w t _ IH p t' [<-|[]] Hi. auto.
  - intros w t l w' ts _ IH _ IH' p t' [<-|Ht] Hi.
    + eapply found_sub; [apply IH; exact Hi|auto].
    + eapply found_sub; [eapply IH'; eassumption|auto].
  - intros w s _ IH p s' t' [<-|[]] Ht Hi. eauto.
  - intros w s l c w' ds _ IH _ IH' p s' t' [<-|Hs] Ht Hi.
    + eapply found_sub; [eapply IH; eassumption|auto].
    + eapply found_sub; [eapply IH'; eassumption|auto].
Qed.

Lemma rule_found : forall ts rs, g_syntax ts rs -> forall r, In r rs ->
  (exists w, sub w ts /\ g_ident w (r_loc r) (r_id r)) /\ forall p, part_of p r -> found p ts.
Proof.
  intros ts rs H. induction H as [|w o ts rs Hr _ IH]; intros r Hi; [destruct Hi|].
  apply in_app_or in Hi as [Hi|Hi].
  - destruct o as [r'|]; [|destruct Hi]. destruct Hi as [->|[]].
    inversion Hr as [tr1 w' l id tr2 l' body d t H1 Hid H2 Hd Ht|]; subst. cbn [r_loc r_id]. split.
    + exists w'. split; [auto|exact Hid].
    + intros p (s & t' & Hs & Ht' & Hp). eapply found_sub; [eapply all_found; eassumption|].
      apply sub_left. auto 8.
  - destruct (IH r Hi) as ((w' & Hw & Hid) & Hp). split; [exists w'; auto|].
    intros p H. eapply found_sub; [apply Hp; exact H|auto].
Qed.

(** ** Texts *)
Lemma lexes_member : forall l s ts, lexes l s ts -> forall a t b, ts = a ++ t :: b -> b <> [] ->
  valid_tok t /\ follows t (hd_error (flat_map tok_text b)).
Proof.
  intros l s ts H. induction H as [l|l l' t rest ts Hv Hl Hf Hr Hlex IH]; intros a x b E Hb.
  - destruct a as [|? [|? ?]]; try discriminate. injection E as <- <-. contradiction.
  - destruct a as [|y a]; cbn in E; injection E as -> E; [|eapply IH; eassumption].
    subst ts. rewrite (lexes_text _ _ _ Hlex). auto.
Qed.
Lemma lexes_ends : forall l s a w, lexes l s (a ++ w) -> w <> [] -> exists w0 l', w = w0 ++ [TEOF l'].
Proof.
  intros l s a w H Hw. apply lexes_shape in H as (ts0 & l' & E & _).
  destruct (rev w) as [|t r] eqn:Er.
  - exfalso. apply Hw. rewrite <- (rev_involutive w), Er. reflexivity.
  - exists (rev r), l'. assert (Ew : w = rev r ++ [t]) by (rewrite <- (rev_involutive w), Er; reflexivity).
    rewrite Ew, app_assoc in E. apply app_inj_tail in E as (_ & ->). exact Ew.
Qed.
(** A stretch that does not contain the end. *)
Lemma stretch_text : forall l s a t w b, lexes l s (a ++ (t :: w) ++ b) -> b <> [] ->
  reaches l (flat_map tok_text a) (tok_loc t) /\
  s = flat_map tok_text a ++ (tok_text t ++ flat_map tok_text w) ++ flat_map tok_text b.
Proof.
  intros l s a t w b H Hb. split.
  - eapply lexes_locations; [exact H|]. reflexivity.
  - rewrite <- (lexes_text _ _ _ H), !flat_map_app. reflexivity.
Qed.
Lemma before_end : forall l s a w b, lexes l s (a ++ w ++ b) -> w <> [] ->
  (forall w0 l', w <> w0 ++ [TEOF l']) -> b <> [].
Proof.
  intros l s a w b H Hw Hn ->. rewrite app_nil_r in H. destruct (lexes_ends _ _ _ _ H Hw) as (w0 & l' & ->).
  eapply Hn. reflexivity.
Qed.
Lemma last_not_eof : forall (w : list token) x w0 l', w ++ [x] = w0 ++ [TEOF l'] -> x = TEOF l'.
Proof. intros w x w0 l' E. apply app_inj_tail in E as (_ & E). exact E. Qed.

Lemma ident_begins : forall l s a w b l' id, lexes l s (a ++ w ++ b) -> g_ident w l' id ->
  exists u v, s = u ++ v /\ reaches l u l' /\ begins_ident id v.
Proof.
  intros l s a w b l' id H Hi. destruct (g_ident_last _ _ _ Hi) as (w' & lz & sz & Ez).
  assert (Hn : w <> []) by (rewrite Ez; destruct w'; discriminate).
  assert (Hb : b <> []).
  { eapply before_end; [exact H|exact Hn|]. intros w0 l0 E. rewrite Ez in E. apply last_not_eof in E. discriminate. }
  destruct Hi as [l1 s1 w ws Hw _ Hs]. destruct (stretch_text _ _ _ _ _ _ H Hb) as (Hr & Es).
  exists (flat_map tok_text a), ((tok_text (TMeta l1 s1) ++ flat_map tok_text w) ++ flat_map tok_text b).
  split; [exact Es|]. split; [exact Hr|].
  destruct (lexes_member _ _ _ H a (TMeta l1 s1) (w ++ b)) as ((c & r & -> & Hc & _) & _);
    [reflexivity|destruct w; [exact Hb|discriminate]|].
  exists c, (r ++ flat_map tok_text w), (flat_map tok_text b), ws.
  split; [reflexivity|]. split; [exact Hc|]. split; [exact Hs|]. split; [reflexivity|].
  intros x y Eb. destruct (lexes_member _ _ _ H (a ++ w') (TMeta lz sz) b) as (_ & Hf).
  - rewrite Ez, <- !app_assoc. reflexivity.
  - exact Hb.
  - rewrite Eb in Hf. exact Hf.
Qed.
Lemma primary_begins : forall l s a w b p, lexes l s (a ++ w ++ b) -> g_primary w p -> ~ is_empty p ->
  exists u v, s = u ++ v /\ reaches l u (p_loc p) /\ begins p v.
Proof.
  intros l s a w b p H Hp He.
  assert (B : forall t w0 x, w = t :: w0 ++ [x] -> (forall l', x <> TEOF l') ->
    reaches l (flat_map tok_text a) (tok_loc t) /\ valid_tok t /\
    exists r, s = flat_map tok_text a ++ tok_text t ++ r).
  { intros t w0 x -> Hx.
    assert (Hb : b <> []).
    { eapply before_end; [exact H|discriminate|]. intros w1 l0 E. change (t :: w0 ++ [x]) with ((t :: w0) ++ [x]) in E.
      apply last_not_eof in E. exact (Hx _ E). }
    destruct (stretch_text _ _ _ _ _ _ H Hb) as (Hr & Es). split; [exact Hr|]. split.
    - apply (lexes_member _ _ _ H a t ((w0 ++ [x]) ++ b)); [reflexivity|]. destruct w0; discriminate.
    - rewrite <- app_assoc in Es. eauto. }
  assert (B1 : forall t, w = [t] -> (forall l', t <> TEOF l') ->
    reaches l (flat_map tok_text a) (tok_loc t) /\ valid_tok t /\
    exists r, s = flat_map tok_text a ++ tok_text t ++ r).
  { intros t -> Hx.
    assert (Hb : b <> []).
    { eapply before_end; [exact H|discriminate|]. intros w1 l0 E. 
      apply (last_not_eof [] t) in E. exact (Hx _ E). }
    destruct (stretch_text _ _ _ _ _ _ H Hb) as (Hr & Es). split; [exact Hr|]. split.
    - apply (lexes_member _ _ _ H a t b); [reflexivity|exact Hb].
    - rewrite <- app_assoc in Es. eauto. }
  destruct Hp as [l1 s1 w d l' s' Hd|l1 s1 w d l' s' Hd|l1 w d l' Hd|w l1 id Hi|l1 s1 q|l1 s1|l1].
  - destruct (B (TStartOption l1 s1) _ _ eq_refl ltac:(discriminate)) as (Hr & Hv & r & Es).
    exists (flat_map tok_text a), (tok_text (TStartOption l1 s1) ++ r). split; [exact Es|]. split; [exact Hr|].
    exists r. destruct Hv as [->| ->]; [left|right]; reflexivity.
  - destruct (B (TStartRepeat l1 s1) _ _ eq_refl ltac:(discriminate)) as (Hr & Hv & r & Es).
    exists (flat_map tok_text a), (tok_text (TStartRepeat l1 s1) ++ r). split; [exact Es|]. split; [exact Hr|].
    exists r. destruct Hv as [->| ->]; [left|right]; reflexivity.
  - destruct (B (TStartGroup l1) _ _ eq_refl ltac:(discriminate)) as (Hr & Hv & r & Es).
    exists (flat_map tok_text a), (tok_text (TStartGroup l1) ++ r). split; [exact Es|]. split; [exact Hr|].
    exists r. reflexivity.
  - eapply ident_begins; [exact H|exact Hi].
  - destruct (B1 (TTerminal l1 s1 q) eq_refl ltac:(discriminate)) as (Hr & (Hq & _ & _ & Hni) & r & Es).
    exists (flat_map tok_text a), (tok_text (TTerminal l1 s1 q) ++ r). split; [exact Es|]. split; [exact Hr|].
    exists q, r. split; [exact Hq|]. split; [exact Hni|]. cbn. rewrite <- app_assoc. reflexivity.
  - destruct (B1 (TSpecial l1 s1) eq_refl ltac:(discriminate)) as (Hr & Hv & r & Es).
    exists (flat_map tok_text a), (tok_text (TSpecial l1 s1) ++ r). split; [exact Es|]. split; [exact Hr|].
    exists r. split; [|cbn; rewrite <- app_assoc; reflexivity].
    intros Hin. cbn in Hv. rewrite Forall_forall in Hv. apply Hv in Hin as (E & _). apply E. reflexivity.
  - exfalso. apply He. exact I.
Qed.
Lemma parse_located : forall name s rs r, parse_str name s = Ok rs -> In r rs ->
  (exists u v, s = u ++ v /\ reaches (loc_new name) u (r_loc r) /\ begins_ident (r_id r) v) /\
  (forall p, part_of p r -> ~ is_empty p ->
   exists u v, s = u ++ v /\ reaches (loc_new name) u (p_loc p) /\ begins p v).
Proof.
  intros name s rs r H Hi. apply parse_sound in H as (ts & Hl & Hg).
  destruct (rule_found _ _ Hg r Hi) as ((w & (a & b & E) & Hid) & Hp). split.
  - rewrite E in Hl. eapply ident_begins; eassumption.
  - intros p Hpart He. destruct (Hp p Hpart) as (w' & (a' & b' & E') & Hgp).
    rewrite E' in Hl. eapply primary_begins; eassumption.
Qed.
(** The whole run of the construct. *)
Lemma parse_placed : forall name s rs r p, parse_str name s = Ok rs -> In r rs -> part_of p r ->
  exists a w b, lexes (loc_new name) s (a ++ w ++ b) /\ g_primary w p /\
    (~ is_empty p -> reaches (loc_new name) (flat_map tok_text a) (p_loc p)).
Proof.
  intros name s rs r p H Hi Hp. apply parse_sound in H as (ts & Hl & Hg).
  destruct (rule_found _ _ Hg r Hi) as (_ & F). destruct (F p Hp) as (w & (a & b & E) & Hgp).
  exists a, w, b. subst ts. split; [exact Hl|]. split; [exact Hgp|]. intros He.
  assert (K : forall t w0, w = t :: w0 -> tok_loc t = p_loc p -> reaches (loc_new name) (flat_map tok_text a) (p_loc p)).
  { intros t w0 -> <-. eapply lexes_locations; [exact Hl|]. reflexivity. }
  destruct Hgp as [| | |w l1 id Hid| | |l1]; try (eapply K; reflexivity).
  - destruct Hid. eapply K; reflexivity.
  - exfalso. apply He. exact I.
Qed.
