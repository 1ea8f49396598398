(** What is kept of a parse spells the text. *)
From Coq Require Import String List NArith Arith Bool Lia.
From Verif Require Import Base Ident Ast Graph Machine SpecText SpecSyntax TextFacts SyntaxFacts SpecParse SpecEvents SpecTotal SpecLL SpecDeriv Pure PureFacts ParseFacts EvFacts EventFacts LangFacts TotalFacts LLFacts DerivFacts SpecTrace.
Import ListNotations.
Open Scope nat_scope.

Lemma events_app : forall a b, events_of (a ++ b) = events_of a ++ events_of b.
Proof. intros. apply map_app. Qed.
Lemma events_kept : forall e, events_of (map Kept e) = e.
Proof. intros e. unfold events_of. rewrite map_map. apply map_id. Qed.
Lemma events_lost : forall e, events_of (map Lost e) = e.
Proof. intros e. unfold events_of. rewrite map_map. apply map_id. Qed.
Lemma kept_app : forall a b, kept (a ++ b) = kept a ++ kept b.
Proof. induction a as [|[e|e] a IH]; intros b; cbn; rewrite ?IH; reflexivity. Qed.
Lemma kept_kept : forall e, kept (map Kept e) = e.
Proof. induction e as [|x e IH]; cbn; rewrite ?IH; reflexivity. Qed.
Lemma kept_lost : forall e, kept (map Lost e) = [].
Proof. induction e as [|x e IH]; cbn; rewrite ?IH; reflexivity. Qed.
Lemma token_count : forall ps, length (tokens (events_of ps)) = length (tokens (kept ps)) + length (tokens (lost ps)).
Proof.
  unfold events_of. induction ps as [|[[]|[]] ps IH]; cbn; rewrite ?app_length, ?IH; lia.
Qed.

Section Traces.
Variable rules : list rule.
Variable cfg : config.
Notation ev := (ev rules cfg).
Notation traces := (traces rules cfg).
Notation failing := (fun d s => exists x s' evs, ev (NSeq d) s (No x s' evs)).

(** ** The matches are the traces *)
Definition traced (n : node) (s : pst) (ps : list piece) (s' : pst) : Prop :=
  match n with
  | NAlts ds => exists n d, nth_error ds n = Some d /\ Forall (fun d' => failing d' s) (firstn n ds) /\ traces (NSeq d) s ps s'
  | _ => traces n s ps s'
  end.
(** The bodies of loops that occur. *)
Fixpoint bodied (n : node) : Prop := match n with NTimes _ _ _ b => bodied b | NAlts _ | NFwd _ => False | _ => True end.
Definition looped (n : node) : Prop := match n with NTimes _ _ _ b => bodied b | NFwd _ => False | _ => True end.
Lemma bodied_looped : forall b, bodied b -> looped b.
Proof. intros [] H; try exact I; try contradiction. exact H. Qed.
Lemma bodied_traced : forall b s ps s', bodied b -> traced b s ps s' -> traces b s ps s'.
Proof. intros [] s ps s' H K; try exact K. contradiction. Qed.
Lemma ev_traced : no_forwarding cfg -> forall n s o, ev n s o -> looped n ->
  match o with Match s' e => exists ps, traced n s ps s' /\ events_of ps = e | _ => True end.
Proof.
  intros Hf n s o H. induction H; intros Hl; try exact I; try contradiction; try (exfalso; eapply Hf; eassumption).
  - exists [Kept (EvToken l (p_at s) w)]. split; [apply tc_terminal; assumption|reflexivity].
  - exists []. split; [apply tc_empty|reflexivity].
  - exists (map Kept evs). split; [apply tc_special; assumption|apply events_kept].
  - destruct o; try exact I. destruct (IHev I) as (ps & A & B). exists ps. split; [apply tc_meta; exact A|exact B].
  - destruct (IHev I) as (ps & A & B). eexists. split; [eapply tc_ref; [exact H|exact A]|]. cbn [app]. rewrite <- B. cbn. rewrite map_app. reflexivity.
  - destruct o; try exact I. destruct (IHev I) as (ps & A & B). exists ps. split; [apply tc_optional; exact A|exact B].
  - destruct o; try exact I. destruct (IHev I) as (ps & A & B). exists ps. split; [apply tc_repeated; exact A|exact B].
  - destruct o; try exact I. destruct (IHev I) as (ps & A & B). exists ps. split; [apply tc_grouped; exact A|exact B].
  - exists []. split; [apply tc_enough; assumption|reflexivity].
  - exists (map Lost evs). split; [eapply tc_given_up; eassumption|apply events_lost].
  - destruct (IHev1 (bodied_looped _ Hl)) as (ps & A & B). destruct (IHev2 Hl) as (ps2 & A2 & B2). exists (ps ++ ps2).
    split; [eapply (tc_more _ _ _ _ _ _ _ _ _ _ _ H H0 (bodied_traced _ _ _ _ Hl A) A2)|]. rewrite events_app, B, B2. reflexivity.
  - destruct o; try exact I. destruct (IHev I) as (ps & A & B). exists ps. split; [apply tc_once; exact A|exact B].
  - destruct o; try exact I. destruct (IHev I) as (ps & A & B). exists ps. split; [apply tc_times; [assumption|exact A]|exact B].
  - destruct o; try exact I. destruct (IHev I) as (ps & A & B). exists ps. split; [apply tc_term; exact A|exact B].
  - destruct (IHev1 I) as (ps & A & B). exists ps. split; [|exact B]. eapply tc_excepting; [exact A|eassumption|].
    destruct H2 as [(s2 & e2 & -> & K)|(x & s2 & e2 & ->)]; [left|right]; eauto.
  - exists []. split; [apply tc_nil|reflexivity].
  - destruct o; try exact I. destruct (IHev I) as (ps & A & B). exists ps. split; [eapply tc_group; [eassumption|exact A]|exact B].
  - destruct o; try exact I. destruct (IHev1 I) as (ps & A & B). destruct (IHev2 I) as (ps2 & A2 & B2). exists (ps ++ ps2).
    split; [eapply tc_seq; [assumption|exact A|exact A2]|]. rewrite events_app, B, B2. reflexivity.
  - destruct o; try exact I. destruct (IHev I) as (ps & A & B). exists ps. split; [|exact B]. apply (tc_defs _ _ [ts] 0 ts); [reflexivity|constructor|exact A].
  - destruct (IHev I) as (ps & (n & d & A1 & A2 & A3) & B). exists ps. split; [|exact B]. eapply tc_defs; eassumption.
  - destruct (IHev I) as (ps & A & B). exists ps. split; [|exact B]. exists 0, d. split; [reflexivity|]. split; [constructor|exact A].
  - destruct (IHev2 I) as (ps & (n & d' & A1 & A2 & A3) & B). exists ps. split; [|exact B]. exists (S n), d'. split; [exact A1|]. split; [|exact A3].
    cbn [firstn]. constructor; [eauto|exact A2].
Qed.
Lemma alts_ev : forall ds n d s s' e, nth_error ds n = Some d -> Forall (fun d' => failing d' s) (firstn n ds) -> ev (NSeq d) s (Match s' e) ->
  ev (NAlts ds) s (Match s' e).
Proof.
  induction ds as [|d0 ds IH]; intros [|n] d s s' e H1 H2 H3; try discriminate; cbn in *.
  - injection H1 as ->. apply ev_alts_first. exact H3.
  - inversion H2 as [|? ? (x & s1 & e1 & K1) K2]; subst. eapply ev_alts_next; [exact K1|]. eapply IH; eassumption.
Qed.
Lemma traces_ev : forall n s ps s', traces n s ps s' -> ev n s (Match s' (events_of ps)).
Proof.
  intros n s ps s' H. induction H; rewrite ?events_app, ?events_kept, ?events_lost.
  - apply ev_terminal. assumption.
  - apply ev_empty.
  - apply ev_special. assumption.
  - apply ev_meta. assumption.
  - cbn [events_of map event_of]. fold (events_of (ps ++ [Kept (EvEnd l (p_at s') (r_id r))])). rewrite events_app. 
    change (EvBegin l (p_at s) (r_id r) :: events_of ps ++ events_of [Kept (EvEnd l (p_at s') (r_id r))]) with ((EvBegin l (p_at s) (r_id r) :: events_of ps) ++ [EvEnd l (p_at s') (r_id r)]).
    eapply ev_ref; eassumption.
  - apply ev_optional. assumption.
  - apply ev_repeated. assumption.
  - apply ev_grouped. assumption.
  - apply ev_times_end. assumption.
  - eapply ev_times_stop; eassumption.
  - eapply ev_times_more; eassumption.
  - apply ev_factor_one. assumption.
  - apply ev_factor_many; assumption.
  - apply ev_term_plain. assumption.
  - destruct H1 as [(s2 & e2 & K1 & K2)|(x & s2 & e2 & K1)].
    + eapply ev_term_kept; [eassumption|eassumption|exact K1|]. left. eauto.
    + eapply ev_term_kept; [eassumption|eassumption|exact K1|]. right. eauto.
  - apply ev_seq_nil.
  - eapply ev_seq_group; eassumption.
  - change (Match s2 (events_of ps ++ events_of ps2)) with (before (events_of ps) (Match s2 (events_of ps2))). eapply ev_seq; eassumption.
  - destruct ds as [|d1 [|d2 ds]].
    + destruct n; discriminate.
    + destruct n as [|[|n]]; try discriminate. injection H as ->. apply ev_defs_one. assumption.
    + apply ev_defs. eapply alts_ev; eassumption.
Qed.

(** ** What is kept *)
Lemma traces_trail : spelling_scanners cfg -> forall n s ps s', traces n s ps s' -> trail s (kept ps) s'.
Proof.
  intros Hs n s ps s' H. induction H; rewrite ?kept_app, ?kept_kept, ?kept_lost; eauto using trail, trail_app; try (eapply Hs; eassumption).
  - cbn [kept]. rewrite kept_app. apply tr_begin. eapply trail_app; [exact IHtraces|]. cbn. apply tr_end. constructor.
Qed.
Hypothesis Hrules : Forall (fun r => groups_last (NDefs (r_defs r))) rules.
Lemma traces_ways : forall n s ps s', traces n s ps s' -> straight n -> ways rules cfg n s (kept ps) s'.
Proof.
  intros n s ps s' H. induction H; intros Ht; rewrite ?kept_app, ?kept_kept, ?kept_lost.
  - apply dv_terminal. assumption.
  - apply dv_empty.
  - apply dv_special. assumption.
  - exact (IHtraces I).
  - cbn [kept]. rewrite kept_app. cbn [kept]. cbn [ways]. eapply dv_meta; [exact H|]. exact (IHtraces (rule_straight _ Hrules _ _ H)).
  - destruct IHtraces as (k & Hc & H1 & H2); [cbn in *; inversion Ht; subst; split; [assumption|lia]|].
    cbn [ways]. inversion Hc as [|k1 s0 e1 s1 e2 s2 Hr Hc' E1 E2]; subst; [apply dv_none|]. inversion Hc' as [|k2 s0 e3 s3 e4 s4 Hr' Hc'']; subst; [|lia]. rewrite app_nil_r. apply dv_optional. exact Hr.
  - destruct IHtraces as (k & Hc & H1 & H2); [cbn in *; inversion Ht; subst; split; [assumption|unfold max_count; lia]|]. eapply chain_repeated; exact Hc.
  - apply dv_group. apply IHtraces. cbn in *. inversion Ht; subst; assumption.
  - destruct Ht as (_ & H1 & H2). exists 0. split; [apply ch_nil|lia].
  - exists 0. split; [apply ch_nil|lia].
  - destruct Ht as (Hb & Hmm & Hi). pose proof (IHtraces1 Hb) as Hw1. destruct IHtraces2 as (k & Hc & K1 & K2); [split; [exact Hb|]; lia|].
    exists (S k). split; [eapply ch_more; eauto|]. lia.
  - apply derives_once. apply IHtraces. cbn in *. inversion Ht; subst; assumption.
  - destruct IHtraces as (k & Hc & K1 & K2); [cbn in *; inversion Ht; subst; split; [assumption|lia]|].
    cbn [ways]. replace n with (N.of_nat k) by lia. apply chain_times; exact Hc.
  - apply dv_term. apply IHtraces. cbn in *. inversion Ht; subst; assumption.
  - apply dv_term. apply IHtraces. cbn in *. inversion Ht; subst; assumption.
  - apply dv_nil.
  - cbn in Ht. inversion Ht as [| | | | | | | | | |t0 Ht0|t0 ts0 Hb0 Ht0 Hs0|]; subst; [|congruence].
    cbn [ways]. apply derives_last. eapply group_derives; [eassumption|]. apply IHtraces. eapply group_straight; eauto.
  - cbn in Ht. assert (K : groups_last (NTerm t) /\ groups_last (NSeq ts)) by (inversion Ht; subst; auto using groups_last).
    eapply dv_seq; [apply IHtraces1; exact (proj1 K)|apply IHtraces2; exact (proj2 K)].
  - cbn in Ht. inversion Ht as [| | | | | | | | | | | |ds0 HF0]; subst. pose proof (nth_error_In _ _ H) as Hin.
    eapply dv_defs; [exact Hin|]. apply IHtraces. rewrite Forall_forall in HF0. exact (HF0 _ Hin).
Qed.
End Traces.
