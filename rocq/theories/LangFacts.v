(** Tokens spell the text; accepted texts are in the language. *)
From Coq Require Import String List NArith Arith Bool Lia.
From Verif Require Import Base Ident Tokenizer Ast Lex Syntax Io Graph Machine SpecText SpecSyntax SpecIo TextFacts SyntaxFacts IoFacts SpecParse SpecMachine SpecEvents Pure ParseFacts CodeFacts EvFacts MachineFacts EventFacts.
Import ListNotations.
Open Scope nat_scope.

Lemma tidy_group : forall t ts d, bare_group t = Some d -> tidy (NSeq (t :: ts)) -> tidy (NDefs d).
Proof.
  intros t ts d H Ht. destruct t as [[k p] ex]. cbn in H. destruct p; try discriminate. destruct ex; try discriminate. destruct (N.eqb_spec k 1); [|discriminate]. injection H as ->.
  inversion Ht; subst. match goal with K : tidy (NTerm _) |- _ => inversion K; subst end. match goal with K : tidy (NFactor _) |- _ => inversion K; subst end.
  match goal with K : tidy (NPrim _) |- _ => inversion K; subst end. assumption.
Qed.
Lemma trail_app : forall s a s1, trail s a s1 -> forall b s2, trail s1 b s2 -> trail s (a ++ b) s2.
Proof. intros s a s1 H. induction H; intros b0 s2 H2; cbn [app]; auto; econstructor; eauto. Qed.
Lemma trail_tokens : forall s a s', trail s a s' -> goes s (tokens a) s'.
Proof. intros s a s' H. induction H; cbn; auto using goes_nil. eapply goes_app; eauto. Qed.
Lemma trail_remove : forall n a s s', length a <= n -> trail s a s' -> trail s (remove_pairs a) s'.
Proof.
  induction n as [|n IH]; intros a s s' Hn H; (destruct a as [|e r]; [exact H|]); cbn in Hn; [lia|].
  inversion H as [|? ? ? ? ? ? H1 H2|? ? ? ? ? H2|? ? ? ? ? H2]; subst.
  - cbn. econstructor; [exact H1|apply IH; [lia|exact H2]].
  - cbn. destruct r as [|[d2 l2 t2|d2 l2 b2|d2 l2 b2] r2].
    1,2,3: apply tr_begin; apply IH; [cbn in *; lia|exact H2].
    inversion H2; subst. cbn in Hn. apply IH; [lia|assumption].
  - cbn. apply tr_end. apply IH; [lia|exact H2].
Qed.
Lemma trail_filter : forall a s s', trail s a s' -> trail s (remove_empty_pairs a) s'.
Proof.
  intros [|e r] s s' H; [exact H|]. cbn. inversion H; subst; econstructor; eauto using trail_remove.
Qed.
Section Spell.
Variable rules : list rule.
Variable cfg : config.
Hypothesis Hcfg : spelling_scanners cfg.
Hypothesis Hfwd : no_forwarding cfg.
Hypothesis Hrules : Forall (fun r => tidy (NDefs (r_defs r))) rules.
Lemma rule_tidy : forall id r, names rules id r -> tidy (NDefs (r_defs r)).
Proof. intros id r (H & _). rewrite Forall_forall in Hrules. apply Hrules. exact H. Qed.
Definition spelled (s : pst) (o : outcome) : Prop := match o with Match s' e => trail s e s' | _ => True end.
Lemma ev_spelled : forall n s o, ev rules cfg n s o -> tidy n -> spelled s o.
Proof.
  intros n s o H. induction H; intros Ht; try exact I; try (exfalso; eapply Hfwd; eassumption).
  all: try (inversion Ht; subst; auto; fail).
  - cbn. eapply tr_token; [exact H|constructor].
  - apply tr_nil.
  - apply Hcfg in H. exact H.
  - apply IHev. constructor.
  - pose proof (IHev (rule_tidy _ _ H)) as K. cbn in *. apply tr_begin. eapply trail_app; [exact K|]. repeat constructor.
  - apply IHev. inversion Ht; subst. apply td_times; assumption.
  - apply IHev. inversion Ht; subst. apply td_times; assumption.
  - apply tr_nil.
  - assert (K : evs = []); [|subst; apply tr_nil]. inversion Ht; subst; [|lia].
    match goal with K : clean b |- _ => exact (clean_ok rules cfg b K _ _ H1) end.
  - assert (K : tidy b) by (inversion Ht; subst; assumption). assert (K2 : tidy (NTimes min max (i + 1) b)) by (inversion Ht; subst; [apply td_times|apply td_times_exact]; assumption).
    cbn. eapply trail_app; [exact (IHev1 K)|exact (IHev2 K2)].
  - inversion Ht; subst. apply IHev. apply td_times_exact. assumption.
  - apply tr_nil.
  - apply IHev. eapply tidy_group; eauto.
  - inversion Ht; subst. destruct o as [s2 e2| |]; try exact I. cbn. eapply trail_app; [apply IHev1; assumption|]. apply (IHev2 ltac:(assumption)).
  - inversion Ht as [| | | | | | | | | | | |ds HF| | |]; subst. apply IHev. exact (Forall_inv HF).
  - inversion Ht; subst. apply IHev. apply td_alts. assumption.
  - inversion Ht as [| | | | | | | | | | | | |ds' HF| |]; subst. apply IHev. exact (Forall_inv HF).
  - inversion Ht as [| | | | | | | | | | | | |ds' HF| |]; subst. apply IHev2. apply td_alts. exact (Forall_inv_tail HF).
Qed.
End Spell.

(** ** The language *)
Section Lang.
Variable rules : list rule.
Variable cfg : config.
Hypothesis Hfwd : no_forwarding cfg.
Hypothesis Hrules : Forall (fun r => groups_last (NDefs (r_defs r))) rules.
Notation lang := (lang cfg rules).
Fixpoint straight (n : node) : Prop :=
  match n with
  | NTimes mn mx i b => straight b /\ (mn <= mx)%N /\ (i <= mx)%N
  | NRef _ _ => True
  | NAlts ds => groups_last (NDefs ds)
  | NFwd _ => False
  | _ => groups_last n
  end.
Fixpoint words (n : node) (w : str) : Prop :=
  match n with
  | NTimes mn mx i b => exists ws, Forall (words b) ws /\ w = concat ws /\ (mn <= i + N.of_nat (length ws))%N /\ (i + N.of_nat (length ws) <= N.max i mx)%N
  | NRef l id => lang (NPrim (PMeta l id)) w
  | NAlts ds => lang (NDefs ds) w
  | NFwd _ => False
  | _ => lang n w
  end.
Definition speaks (n : node) (s : pst) (o : outcome) : Prop :=
  match o with Match s' _ => exists w, goes s w s' /\ words n w | _ => True end.
Lemma words_repeated : forall l d ws, Forall (lang (NDefs d)) ws -> lang (NPrim (PRepeated l d)) (concat ws).
Proof. intros l d ws H. induction H; cbn; [apply lg_stop|apply lg_repeated; assumption]. Qed.
Lemma words_times : forall p ws, Forall (lang (NPrim p)) ws -> lang (NFactor (Factor (N.of_nat (length ws)) p)) (concat ws).
Proof.
  intros p ws H. induction H; cbn; [apply lg_zero|]. replace (N.pos (Pos.of_succ_nat (length l))) with (N.succ (N.of_nat (length l))) by lia. apply lg_times; assumption.
Qed.
Lemma rule_straight : forall id r, names rules id r -> groups_last (NDefs (r_defs r)).
Proof. intros id r (H & _). rewrite Forall_forall in Hrules. apply Hrules. exact H. Qed.
Lemma group_straight : forall t d, bare_group t = Some d -> groups_last (NTerm t) -> groups_last (NDefs d).
Proof.
  intros t d H Ht. destruct t as [[k p] ex]. cbn in H. destruct p; try discriminate. destruct ex; try discriminate. destruct (N.eqb_spec k 1); [|discriminate]. injection H as ->.
  inversion Ht; subst. match goal with K : groups_last (NFactor _) |- _ => inversion K; subst end.
  match goal with K : groups_last (NPrim _) |- _ => inversion K; subst end. assumption.
Qed.
Lemma group_lang : forall t d w, bare_group t = Some d -> lang (NDefs d) w -> lang (NTerm t) w.
Proof.
  intros t d w H Ht. destruct t as [[k p] ex]. cbn in H. destruct p; try discriminate. destruct ex; try discriminate. destruct (N.eqb_spec k 1); [|discriminate]. injection H as ->. subst k.
  apply lg_term. rewrite <- (app_nil_r w). change 1%N with (N.succ 0). apply lg_times; [apply lg_group; exact Ht|apply lg_zero].
Qed.
Lemma lang_last : forall t w, lang (NTerm t) w -> lang (NSeq [t]) w.
Proof. intros t w H. rewrite <- (app_nil_r w). apply lg_seq; [exact H|apply lg_nil]. Qed.
Lemma lang_one : forall p w, lang (NPrim p) w -> lang (NFactor (Factor 1 p)) w.
Proof. intros p w H. rewrite <- (app_nil_r w). change 1%N with (N.succ 0). apply lg_times; [exact H|apply lg_zero]. Qed.
Lemma ev_speaks : forall n s o, ev rules cfg n s o -> straight n -> speaks n s o.
Proof.
  intros n s o H. induction H; intros Ht; try exact I; try (exfalso; eapply Hfwd; eassumption).
  - exists w. split; [exact H|constructor].
  - exists []. split; [apply goes_nil|constructor].
  - destruct (scanned_moved _ _ _ _ H) as (w & Hw). exists w. split; [exact Hw|]. eapply lg_special; eauto.
  - destruct o as [s' e| |]; try exact I. destruct (IHev I) as (w & Hw & Hl). exists w. auto.
  - destruct (IHev (rule_straight _ _ H)) as (w & Hw & Hl). exists w. split; [exact Hw|]. eapply lg_meta; eauto.
  - destruct o as [s' e| |]; try exact I. destruct IHev as (w & Hw & ws & HF & -> & H1 & H2); [cbn in *; inversion Ht; subst; split; [assumption|lia]|].
    exists (concat ws). split; [exact Hw|]. destruct ws as [|w1 [|w2 ws]]; cbn in H2; [apply lg_none| |lia]. cbn. rewrite app_nil_r. apply lg_optional. exact (Forall_inv HF).
  - destruct o as [s' e| |]; try exact I. destruct IHev as (w & Hw & ws & HF & -> & H1 & H2); [cbn in *; inversion Ht; subst; split; [assumption|unfold max_count; lia]|].
    exists (concat ws). split; [exact Hw|]. apply words_repeated. exact HF.
  - destruct o as [s' e| |]; try exact I. destruct IHev as (w & Hw & Hl); [cbn in *; inversion Ht; subst; assumption|]. exists w. split; [exact Hw|]. apply lg_group. exact Hl.
  - destruct Ht as (_ & H1 & H2). exists []. split; [apply goes_nil|]. exists []. cbn. split; [constructor|]. split; [reflexivity|]. lia.
  - exists []. split; [apply goes_nil|]. exists []. cbn. split; [constructor|]. split; [reflexivity|]. lia.
  - destruct Ht as (Hb & Hmm & Hi). destruct (IHev1 Hb) as (w1 & Hw1 & Hl1). destruct IHev2 as (w2 & Hw2 & ws & HF & -> & K1 & K2); [split; [exact Hb|]; lia|].
    exists (w1 ++ concat ws). split; [eapply goes_app; eauto|]. exists (w1 :: ws). split; [constructor; assumption|]. split; [reflexivity|]. cbn [length]. lia.
  - destruct o as [s' e| |]; try exact I. destruct IHev as (w & Hw & Hl); [cbn in *; inversion Ht; subst; assumption|]. exists w. split; [exact Hw|]. apply lang_one. exact Hl.
  - destruct o as [s' e| |]; try exact I. destruct IHev as (w & Hw & ws & HF & -> & K1 & K2); [cbn in *; inversion Ht; subst; split; [assumption|lia]|].
    exists (concat ws). split; [exact Hw|]. replace n with (N.of_nat (length ws)) by lia. apply words_times. exact HF.
  - destruct o as [s' e| |]; try exact I. destruct IHev as (w & Hw & Hl); [cbn in *; inversion Ht; subst; assumption|]. exists w. split; [exact Hw|]. apply lg_term. exact Hl.
  - destruct IHev1 as (w1 & Hw & Hl); [cbn in *; inversion Ht; subst; assumption|]. exists w1. split; [exact Hw|]. apply lg_term. exact Hl.
  - exists []. split; [apply goes_nil|]. apply lg_nil.
  - destruct o as [s' e| |]; try exact I. cbn in Ht. inversion Ht as [| | | | | | | | | |t0 Ht0|t0 ts0 Hb0 Ht0 Hs0|]; subst; [|congruence].
    destruct IHev as (w & Hw & Hl); [eapply group_straight; eauto|]. exists w. split; [exact Hw|]. apply lang_last. eapply group_lang; eauto.
  - destruct o as [s2 e2| |]; try exact I. cbn in Ht.
    assert (K : groups_last (NTerm t) /\ groups_last (NSeq ts)) by (inversion Ht; subst; auto using groups_last).
    destruct (IHev1 (proj1 K)) as (w1 & Hw1 & Hl1). destruct (IHev2 (proj2 K)) as (w2 & Hw2 & Hl2).
    exists (w1 ++ w2). split; [eapply goes_app; eauto|]. apply lg_seq; assumption.
  - destruct o as [s' e| |]; try exact I. cbn in Ht. inversion Ht as [| | | | | | | | | | | |ds0 HF]; subst. destruct (IHev (Forall_inv HF)) as (w & Hw & Hl).
    exists w. split; [exact Hw|]. eapply lg_defs; [left; reflexivity|exact Hl].
  - destruct (IHev Ht) as (w & Hw & Hl). exists w. split; [exact Hw|exact Hl].
  - cbn in Ht. inversion Ht as [| | | | | | | | | | | |ds0 HF]; subst. destruct (IHev (Forall_inv HF)) as (w & Hw & Hl).
    exists w. split; [exact Hw|]. eapply lg_defs; [left; reflexivity|exact Hl].
  - cbn in Ht. inversion Ht as [| | | | | | | | | | | |ds0 HF]; subst. destruct IHev2 as (w & Hw & Hl); [cbn; apply gl_defs; exact (Forall_inv_tail HF)|].
    exists w. split; [exact Hw|]. cbn in *. inversion Hl; subst. eapply lg_defs; [right; eassumption|assumption].
  - destruct Ht.
  - destruct Ht.
Qed.
End Lang.
