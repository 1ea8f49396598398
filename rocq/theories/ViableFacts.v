(** Where errors stand: after a text that could be continued. *)
From Coq Require Import String List NArith Arith Bool Lia.
From Verif Require Import Base Ident Ast Graph SpecText SpecSyntax TextFacts SyntaxFacts SpecParse SpecEvents SpecLL SpecDeriv SpecViable Pure ParseFacts EvFacts LangFacts LLFacts.
Import ListNotations.
Open Scope nat_scope.

Section Viable.
Variable rules : list rule.
Variable cfg : config.
Hypothesis Hfwd : no_forwarding cfg.
Hypothesis Hlocal : local_failures cfg.
Notation lang := (lang cfg rules).
Notation ev := (ev rules cfg).
Notation part := (part rules).
Notation words := (words rules cfg).

Definition fault (o : outcome) : option error := match o with No x _ _ | Halt (Failed x) => Some x | _ => None end.
Definition spot (s : pst) (l : location) (u : str) : Prop := exists s1, goes s u s1 /\ l = p_at s1.
Lemma spot_here : forall s, spot s (p_at s) [].
Proof. intros s. exists s. split; [apply goes_nil|reflexivity]. Qed.
Lemma spot_step : forall s w s1 l u, goes s w s1 -> spot s1 l u -> spot s l (w ++ u).
Proof. intros s w s1 l u H (s2 & H2 & ->). exists s2. split; [eapply goes_app; eauto|reflexivity]. Qed.
Lemma spot_cut : forall s w s' l u, goes s w s' -> spot (Pst w (p_at s)) l u -> spot s l u /\ exists v, w = u ++ v.
Proof.
  intros s w s' l u H (s1 & H1 & ->). pose proof (proj1 H) as E. apply goes_push in H1 as (A & B). cbn in A, B. split; [|exists (p_rest s1); exact A].
  exists (Pst (p_rest s1 ++ p_rest s') (loc_push_str (p_at s) u)). split; [apply goes_push; cbn; rewrite E, A, app_assoc; auto|exact B].
Qed.
Lemma ev_spot : forall n s o, ev n s o -> forall x, fault o = Some x -> exists u, spot s (e_loc x) u.
Proof.
  intros n s o H. induction H; intros x0 Hx; try discriminate; try (exfalso; eapply Hfwd; eassumption); cbn in Hx;
    try (injection Hx as <-; exists []; apply spot_here; fail); try (exact (IHev _ Hx)); try (exact (IHev2 _ Hx)).
  - injection Hx as <-. exists []. rewrite (Hlocal _ _ _ _ H). apply spot_here.
  - destruct (ev_moved _ _ _ _ _ H1) as (w & Hw). destruct (IHev2 _ Hx) as (u & Hu). exists (w ++ u). eapply spot_step; eauto.
  - destruct (ev_moved _ _ _ _ _ H1) as (w & Hw). destruct (IHev2 _ Hx) as (u & Hu). exists (w ++ u). eapply spot_step; eauto.
  - destruct (IHev2 _ Hx) as (u & Hu). destruct (spot_cut _ _ _ _ _ H0 Hu) as (K & _). exists u. exact K.
  - destruct (ev_moved _ _ _ _ _ H0) as (w & Hw). destruct o as [s2 e2|y s2 e2|[y|]]; try discriminate; cbn in Hx; destruct (IHev2 _ Hx) as (u & Hu); exists (w ++ u); eapply spot_step; eauto.
  - injection Hx as <-. unfold further. destruct (loc_ltb (e_loc x2) (e_loc x)); [exact (IHev1 _ eq_refl)|exact (IHev2 _ eq_refl)].
Qed.

Hypothesis Hrules : Forall (fun r => groups_last (NDefs (r_defs r))) rules.
Hypothesis Hprod : productive rules cfg.
Fixpoint has_words (n : node) : Prop :=
  match n with
  | NTimes mn mx i b => has_words b /\ exists w, words b w
  | NRef _ _ => True
  | NAlts ds => Forall (fun d => part (NSeq d)) ds
  | NFwd _ => False
  | _ => part n
  end.
Definition goes_on (n : node) (s : pst) (l : location) : Prop := exists u v, spot s l u /\ words n (u ++ v).
Lemma on_wrap : forall n n' s l, (forall w, words n w -> words n' w) -> goes_on n s l -> goes_on n' s l.
Proof. intros n n' s l H (u & v & Hs & Hw). exists u, v. auto. Qed.
Lemma on_here : forall n s, (exists w, words n w) -> goes_on n s (p_at s).
Proof. intros n s (w & Hw). exists [], w. split; [apply spot_here|exact Hw]. Qed.
Lemma times_on : forall mn mx i b s l, (i < mx)%N -> (mn <= mx)%N -> (exists w, words b w) -> goes_on b s l -> goes_on (NTimes mn mx i b) s l.
Proof.
  intros mn mx i b s l Hi Hm (w & Hw) (u & v & Hs & Hu). exists u, (v ++ concat (repeat w (N.to_nat (mn - i - 1)))). split; [exact Hs|].
  exists ((u ++ v) :: repeat w (N.to_nat (mn - i - 1))). split; [constructor; [exact Hu|]; apply Forall_forall; intros x Hx; apply repeat_spec in Hx; subst; exact Hw|].
  split; [cbn; rewrite app_assoc; reflexivity|]. cbn [length]. rewrite repeat_length. lia.
Qed.
Lemma lang_optional : forall l d w, words (NTimes 0 1 0 (NDefs d)) w -> lang (NPrim (POptional l d)) w.
Proof.
  intros l d w (ws & HF & -> & _ & H2). destruct ws as [|w1 [|w2 ws]]; cbn in H2; [apply lg_none| |lia]. cbn. rewrite app_nil_r. apply lg_optional. exact (Forall_inv HF).
Qed.
Lemma lang_repeated : forall l d w, words (NTimes 0 max_count 0 (NDefs d)) w -> lang (NPrim (PRepeated l d)) w.
Proof. intros l d w (ws & HF & -> & _). apply words_repeated. exact HF. Qed.
Lemma lang_factor : forall n p w, words (NTimes n n 0 (NPrim p)) w -> lang (NFactor (Factor n p)) w.
Proof. intros n p w (ws & HF & -> & K1 & K2). replace n with (N.of_nat (length ws)) by lia. apply words_times. exact HF. Qed.
Lemma ev_on : forall n s o, ev n s o -> straight n -> has_words n -> forall x, fault o = Some x -> goes_on n s (e_loc x).
Proof.
  intros n s o H. induction H; intros Ht Hh x0 Hx; try discriminate; try (exfalso; eapply Hfwd; eassumption); cbn [fault before] in Hx.
  - injection Hx as <-. apply on_here. eexists. apply lg_terminal.
  - injection Hx as <-. apply on_here. exact (Hprod _ Hh).
  - injection Hx as <-. rewrite (Hlocal _ _ _ _ H). apply on_here. exact (Hprod _ Hh).
  - exact (IHev I I x0 Hx).
  - eapply on_wrap; [|exact (IHev (rule_straight _ Hrules _ _ H) (pt_rule _ _ (proj1 H)) x0 Hx)]. intros w Hw. eapply lg_meta; eauto.
  - eapply on_wrap; [|exact (IHev (rule_straight _ Hrules _ _ H) (pt_rule _ _ (proj1 H)) x0 Hx)]. intros w Hw. eapply lg_meta; eauto.
  - cbn in Ht, Hh. pose proof (pt_optional _ _ _ Hh) as Hd. apply (on_wrap (NTimes 0 1 0 (NDefs d))); [apply lang_optional|]. apply IHev; [cbn; inversion Ht; subst; split; [assumption|lia]|cbn; split; [exact Hd|exact (Hprod _ Hd)]|exact Hx].
  - cbn in Ht, Hh. pose proof (pt_repeated _ _ _ Hh) as Hd. apply (on_wrap (NTimes 0 max_count 0 (NDefs d))); [apply lang_repeated|]. apply IHev; [cbn; inversion Ht; subst; split; [assumption|unfold max_count; lia]|cbn; split; [exact Hd|exact (Hprod _ Hd)]|exact Hx].
  - cbn in Ht, Hh. pose proof (pt_group _ _ _ Hh) as Hd. apply (on_wrap (NDefs d)); [intros w; apply lg_group|]. apply IHev; [cbn; inversion Ht; subst; assumption|exact Hd|exact Hx].
  - destruct Ht as (Hb & Hm & _), Hh as (Hw & Hex). apply times_on; auto.
  - injection Hx as <-. destruct Ht as (Hb & Hm & _), Hh as (Hw & Hex). apply times_on; auto. apply on_here. exact Hex.
  - destruct Ht as (Hb & Hm & _), Hh as (Hw & Hex). apply times_on; auto.
  - destruct Ht as (Hb & Hm & Hi), Hh as (Hw & Hex). destruct (ev_speaks rules cfg Hfwd Hrules _ _ _ H1 Hb) as (w & Hg & Hl).
    destruct (IHev2 ltac:(split; [exact Hb|lia]) ltac:(split; assumption) x0 Hx) as (u & v & Hs & ws & HF & E & K1 & K2).
    exists (w ++ u), v. split; [eapply spot_step; eauto|]. exists (w :: ws). split; [constructor; assumption|]. split; [cbn; rewrite <- app_assoc, E; reflexivity|]. cbn [length]. lia.
  - destruct Ht as (Hb & Hm & Hi), Hh as (Hw & Hex). destruct (ev_speaks rules cfg Hfwd Hrules _ _ _ H1 Hb) as (w & Hg & Hl).
    destruct (IHev2 ltac:(split; [exact Hb|lia]) ltac:(split; assumption) x0 Hx) as (u & v & Hs & ws & HF & E & K1 & K2).
    exists (w ++ u), v. split; [eapply spot_step; eauto|]. exists (w :: ws). split; [constructor; assumption|]. split; [cbn; rewrite <- app_assoc, E; reflexivity|]. cbn [length]. lia.
  - cbn in Ht, Hh. pose proof (pt_factor _ _ _ Hh) as Hd. apply (on_wrap (NPrim p)); [intros w; apply lang_one|]. apply IHev; [cbn; inversion Ht; subst; assumption|exact Hd|exact Hx].
  - cbn in Ht, Hh. pose proof (pt_factor _ _ _ Hh) as Hd. apply (on_wrap (NTimes n n 0 (NPrim p))); [apply lang_factor|]. apply IHev; [cbn; inversion Ht; subst; split; [assumption|lia]|cbn; split; [exact Hd|exact (Hprod _ Hd)]|exact Hx].
  - cbn in Ht, Hh. pose proof (pt_term _ _ _ Hh) as Hd. apply (on_wrap (NFactor f)); [intros w; apply lg_term|]. apply IHev; [cbn; inversion Ht; subst; assumption|exact Hd|exact Hx].
  - cbn in Ht, Hh. pose proof (pt_term _ _ _ Hh) as Hd. apply (on_wrap (NFactor f)); [intros w; apply lg_term|]. apply IHev; [cbn; inversion Ht; subst; assumption|exact Hd|exact Hx].
  - cbn in Ht, Hh. pose proof (pt_term _ _ _ Hh) as Hd. apply (on_wrap (NFactor f)); [intros w; apply lg_term|]. apply IHev; [cbn; inversion Ht; subst; assumption|exact Hd|exact Hx].
  - injection Hx as <-. apply on_here. exact (Hprod _ Hh).
  - destruct (ev_spot _ _ _ H1 x0 Hx) as (u & Hu). destruct (spot_cut _ _ _ _ _ H0 Hu) as (Hs & v & E).
    exists u, v. split; [exact Hs|]. rewrite <- E. destruct (ev_speaks rules cfg Hfwd Hrules _ _ _ H) as (w' & Hg & Hl); [cbn in *; inversion Ht; subst; assumption|].
    rewrite (goes_word _ _ _ _ Hg H0) in Hl. apply lg_term. exact Hl.
  - cbn in Ht, Hh. inversion Ht as [| | | | | | | | | |t0 Ht0|t0 ts0 Hb0 Ht0 Hs0|]; subst; [|congruence].
    apply (on_wrap (NDefs d)); [intros w Hw; apply lang_last; eapply group_lang; [exact H|exact Hw]|]. apply IHev; [eapply group_straight; eauto|eapply group_part; [exact H|]; eapply pt_head; exact Hh|exact Hx].
  - cbn in Ht, Hh. assert (K : groups_last (NTerm t) /\ groups_last (NSeq ts)) by (inversion Ht; subst; auto using groups_last).
    destruct (ev_speaks rules cfg Hfwd Hrules _ _ _ H0 (proj1 K)) as (w & Hg & Hl).
    assert (Hx' : fault o = Some x0) by (destruct o as [| |[]]; exact Hx).
    destruct (IHev2 (proj2 K) (pt_rest _ _ _ Hh) x0 Hx') as (u & v & Hs & Hw). exists (w ++ u), v. split; [eapply spot_step; eauto|]. rewrite <- app_assoc. apply lg_seq; assumption.
  - cbn in Ht, Hh. assert (K : groups_last (NTerm t)) by (inversion Ht; subst; assumption). destruct (Hprod _ (pt_rest _ _ _ Hh)) as (w2 & Hw2).
    destruct (IHev K (pt_head _ _ _ Hh) x0 Hx) as (u & v & Hs & Hw). exists u, (v ++ w2). split; [exact Hs|]. rewrite app_assoc. apply lg_seq; assumption.
  - cbn in Ht, Hh. assert (K : groups_last (NTerm t)) by (inversion Ht; subst; assumption). destruct (Hprod _ (pt_rest _ _ _ Hh)) as (w2 & Hw2).
    destruct (IHev K (pt_head _ _ _ Hh) x0 Hx) as (u & v & Hs & Hw). exists u, (v ++ w2). split; [exact Hs|]. rewrite app_assoc. apply lg_seq; assumption.
  - cbn in Ht, Hh. inversion Ht as [| | | | | | | | | | | |ds0 HF]; subst. match goal with K9 : ev (NSeq ?d9) _ _ |- _ => apply (on_wrap (NSeq d9)) end; [intros w Hw; eapply lg_defs; [left; reflexivity|exact Hw]|].
    apply IHev; [exact (Forall_inv HF)|eapply pt_defs; [exact Hh|left; reflexivity]|exact Hx].
  - cbn in Hh. apply IHev; [exact Ht|cbn; apply Forall_forall; intros d Hd; eapply pt_defs; eauto|exact Hx].
  - injection Hx as <-. apply on_here. exact (Hprod _ Hh).
  - cbn in Hh. apply IHev; [exact Ht|cbn; apply Forall_forall; intros d Hd; eapply pt_defs; eauto|exact Hx].
  - cbn in Ht, Hh. inversion Ht as [| | | | | | | | | | | |ds0 HF]; subst. match goal with K9 : ev (NSeq ?d9) _ _ |- _ => apply (on_wrap (NSeq d9)) end; [intros w Hw; eapply lg_defs; [left; reflexivity|exact Hw]|].
    apply IHev; [exact (Forall_inv HF)|exact (Forall_inv Hh)|exact Hx].
  - cbn in Ht, Hh. inversion Ht as [| | | | | | | | | | | |ds0 HF]; subst. match goal with K9 : ev (NSeq ?d9) _ _ |- _ => apply (on_wrap (NSeq d9)) end; [intros w Hw; eapply lg_defs; [left; reflexivity|exact Hw]|].
    apply IHev; [exact (Forall_inv HF)|exact (Forall_inv Hh)|exact Hx].
  - cbn in Ht, Hh. inversion Ht as [| | | | | | | | | | | |ds0 HF]; subst. injection Hx as <-. unfold further. destruct (loc_ltb (e_loc x2) (e_loc x)).
    + match goal with K9 : ev (NSeq ?d9) _ _ |- _ => apply (on_wrap (NSeq d9)) end; [intros w Hw; eapply lg_defs; [left; reflexivity|exact Hw]|]. exact (IHev1 (Forall_inv HF) (Forall_inv Hh) _ eq_refl).
    + eapply on_wrap; [|exact (IHev2 (gl_defs _ (Forall_inv_tail HF)) (Forall_inv_tail Hh) _ eq_refl)]. intros w Hw. cbn in Hw. inversion Hw; subst. eapply lg_defs; [right; eassumption|assumption].
  - cbn in Ht, Hh. inversion Ht as [| | | | | | | | | | | |ds0 HF]; subst. eapply on_wrap; [|exact (IHev2 (gl_defs _ (Forall_inv_tail HF)) (Forall_inv_tail Hh) _ Hx)].
    intros w Hw. cbn in Hw. inversion Hw; subst. eapply lg_defs; [right; eassumption|assumption].
  - destruct Ht.
  - destruct Ht.
Qed.
End Viable.
