(** Rules whose choices never have to be undone are parsed exactly. *)
From Coq Require Import String List NArith Arith Bool Lia.
From Verif Require Import Base Ident Ast Graph SpecText SpecSyntax TextFacts SyntaxFacts SpecParse SpecEvents SpecTotal SpecExact Pure CodeFacts PureFacts ParseFacts EvFacts LangFacts TotalFacts.
Import ListNotations.
Open Scope nat_scope.

Section Exact.
Variable rules : list rule.
Variable cfg : config.
Notation lang := (lang cfg rules).
Notation xlang := (xlang rules cfg).
Notation ev := (ev rules cfg).
Notation construct := (construct rules).
Notation uses := (uses rules).

Lemma cs_rule : forall r, In r rules -> construct (NDefs (r_defs r)).
Proof. intros r H. exists r. split; [exact H|apply us_self]. Qed.
Lemma cs_names : forall id r, names rules id r -> construct (NDefs (r_defs r)).
Proof. intros id r (H & _). apply cs_rule. exact H. Qed.
Lemma cs_defs : forall ds d, construct (NDefs ds) -> In d ds -> construct (NSeq d).
Proof. intros ds d (r & Hr & H) Hd. exists r. split; [exact Hr|eapply us_defs; eauto]. Qed.
Lemma cs_head : forall t ts, construct (NSeq (t :: ts)) -> construct (NTerm t).
Proof. intros t ts (r & Hr & H). exists r. split; [exact Hr|eapply us_head; eauto]. Qed.
Lemma cs_rest : forall t ts, construct (NSeq (t :: ts)) -> construct (NSeq ts).
Proof. intros t ts (r & Hr & H). exists r. split; [exact Hr|eapply us_rest; eauto]. Qed.
Lemma cs_term : forall f e, construct (NTerm (Term f e)) -> construct (NFactor f).
Proof. intros f e (r & Hr & H). exists r. split; [exact Hr|eapply us_term; eauto]. Qed.
Lemma cs_except : forall f e, construct (NTerm (Term f (Some e))) -> construct (NFactor e).
Proof. intros f e (r & Hr & H). exists r. split; [exact Hr|eapply us_except; eauto]. Qed.
Lemma cs_factor : forall k p, construct (NFactor (Factor k p)) -> construct (NPrim p).
Proof. intros k p (r & Hr & H). exists r. split; [exact Hr|eapply us_factor; eauto]. Qed.
Lemma cs_optional : forall l d, construct (NPrim (POptional l d)) -> construct (NDefs d).
Proof. intros l d (r & Hr & H). exists r. split; [exact Hr|eapply us_optional; eauto]. Qed.
Lemma cs_repeated : forall l d, construct (NPrim (PRepeated l d)) -> construct (NDefs d).
Proof. intros l d (r & Hr & H). exists r. split; [exact Hr|eapply us_repeated; eauto]. Qed.
Lemma cs_group : forall l d, construct (NPrim (PGrouped l d)) -> construct (NDefs d).
Proof. intros l d (r & Hr & H). exists r. split; [exact Hr|eapply us_group; eauto]. Qed.

(** ** Groups come last *)
Hypothesis Hfree : unhindered rules cfg.
Let Kdefs := proj1 Hfree.
Let Kmeta := proj1 (proj2 Hfree).
Let Kspec := proj1 (proj2 (proj2 Hfree)).
Let Krep := proj1 (proj2 (proj2 (proj2 Hfree))).
Let Kmax := proj1 (proj2 (proj2 (proj2 (proj2 Hfree)))).
Let Kgroup := proj1 (proj2 (proj2 (proj2 (proj2 (proj2 Hfree))))).
Let Kplain := proj1 (proj2 (proj2 (proj2 (proj2 (proj2 (proj2 Hfree)))))).
Let Hfwd : no_forwarding cfg := proj2 (proj2 (proj2 (proj2 (proj2 (proj2 (proj2 Hfree)))))).
Lemma cs_gl_seq : forall ts, (forall t, In t ts -> construct (NPrim (f_prim (t_factor t))) -> groups_last (NPrim (f_prim (t_factor t)))) ->
  construct (NSeq ts) -> groups_last (NSeq ts).
Proof.
  induction ts as [|[[n q] e] ts IHts]; intros Hin Hs; [apply gl_nil|].
  assert (Ht : groups_last (NTerm (Term (Factor n q) e))).
  { apply gl_term, gl_factor. apply (Hin (Term (Factor n q) e) (or_introl eq_refl)). eapply cs_factor, cs_term, cs_head. exact Hs. }
  destruct (bare_group (Term (Factor n q) e)) eqn:Eg.
  - rewrite (Kgroup _ _ Hs) by congruence. apply gl_last. exact Ht.
  - apply gl_seq; [exact Eg|exact Ht|]. apply IHts; [intros t Hin'; apply Hin; right; exact Hin'|]. eapply cs_rest. exact Hs.
Qed.
Lemma cs_gl_defs0 : forall d, (forall ts, In ts d -> forall t, In t ts -> construct (NPrim (f_prim (t_factor t))) -> groups_last (NPrim (f_prim (t_factor t)))) ->
  construct (NDefs d) -> groups_last (NDefs d).
Proof. intros d Hin H. apply gl_defs. rewrite Forall_forall. intros ts Hts. apply cs_gl_seq; [exact (Hin ts Hts)|eapply cs_defs; eauto]. Qed.
Lemma cs_gl_prim : forall p, construct (NPrim p) -> groups_last (NPrim p).
Proof.
  assert (Hin : forall d, Forall (Forall (P_term (fun p => construct (NPrim p) -> groups_last (NPrim p)))) d ->
    forall ts, In ts d -> forall t, In t ts -> construct (NPrim (f_prim (t_factor t))) -> groups_last (NPrim (f_prim (t_factor t)))).
  { intros d HF ts Hts t Ht. rewrite Forall_forall in HF. specialize (HF ts Hts). rewrite Forall_forall in HF. exact (proj1 (HF t Ht)). }
  induction p as [l d IH|l d IH|l d IH|l id|l w|l c|l] using primary_nested; intros H; try (constructor; fail).
  - apply gl_optional. apply cs_gl_defs0; [exact (Hin d IH)|eapply cs_optional; exact H].
  - apply gl_repeated. apply cs_gl_defs0; [exact (Hin d IH)|eapply cs_repeated; exact H].
  - apply gl_group. apply cs_gl_defs0; [exact (Hin d IH)|eapply cs_group; exact H].
Qed.
Lemma cs_gl_s : forall ts, construct (NSeq ts) -> groups_last (NSeq ts).
Proof. intros ts H. apply cs_gl_seq; [|exact H]. intros t _. apply cs_gl_prim. Qed.
Lemma cs_gl_defs : forall d, construct (NDefs d) -> groups_last (NDefs d).
Proof. intros d H. apply cs_gl_defs0; [|exact H]. intros ts _ t _. apply cs_gl_prim. Qed.
Lemma cs_gl_factor : forall f, construct (NFactor f) -> groups_last (NFactor f).
Proof. intros [k p] H. apply gl_factor, cs_gl_prim. eapply cs_factor. exact H. Qed.
Lemma cs_rules : Forall (fun r => groups_last (NDefs (r_defs r))) rules.
Proof. rewrite Forall_forall. intros r Hr. apply cs_gl_defs, cs_rule. exact Hr. Qed.

(** ** Nothing halts *)
Fixpoint calm (n : node) : Prop :=
  match n with
  | NTimes mn mx i b => calm b /\ straight b /\ (mx = max_count -> ~ words rules cfg b [])
  | NRef l id => defined rules id
  | NAlts ds => Forall (fun d => construct (NSeq d)) ds
  | NFwd _ => False
  | _ => construct n
  end.
Lemma cs_bare : forall t d, bare_group t = Some d -> construct (NTerm t) -> construct (NDefs d).
Proof.
  intros t d H Ht. destruct t as [[k p] ex]. cbn in H. destruct p; try discriminate. destruct ex; try discriminate. destruct (N.eqb_spec k 1); [|discriminate]. injection H as <-.
  eapply cs_group, cs_factor, cs_term. exact Ht.
Qed.
Lemma stay_words : forall n s s' e, ev n s (Match s' e) -> straight n -> p_at s' = p_at s -> words rules cfg n [].
Proof.
  intros n s s' e H Hs Ha. destruct (ev_speaks rules cfg Hfwd cs_rules _ _ _ H Hs) as (w & Hw & Hl).
  pose proof (moved_at s s' (ex_intro _ w Hw) Ha) as ->. rewrite (goes_word _ _ _ _ Hw (goes_nil s)) in Hl. exact Hl.
Qed.
Lemma no_halt : forall n s o, ev n s o -> calm n -> forall h, o <> Halt h.
Proof.
  intros n s o H. induction H; intros Hc h0; try discriminate; try (cbn in Hc; exfalso; eapply Hfwd; eassumption).
  - exfalso. cbn in Hc. eapply Kspec; eauto.
  - apply IHev. cbn in *. eapply Kmeta; eauto.
  - apply IHev. cbn in *. eapply cs_names; eauto.
  - exfalso. cbn in Hc. contradiction.
  - apply IHev. cbn in *. split; [eapply cs_optional; eauto|]. split; [apply cs_gl_defs; eapply cs_optional; eauto|unfold max_count; lia].
  - apply IHev. cbn in *. split; [eapply cs_repeated; eauto|]. split; [apply cs_gl_defs; eapply cs_repeated; eauto|]. intros _. eapply Krep. exact Hc.
  - apply IHev. cbn in *. eapply cs_group; eauto.
  - exfalso. destruct Hc as (_ & Hst & Hv). apply (Hv H0). eapply stay_words; eauto.
  - apply IHev. exact (proj1 Hc).
  - apply IHev2. exact Hc.
  - apply IHev. cbn in *. eapply cs_factor; eauto.
  - apply IHev. cbn in *. split; [eapply cs_factor; eauto|]. split; [apply cs_gl_prim; eapply cs_factor; eauto|]. intros ->. eapply Kmax. exact Hc.
  - apply IHev. cbn in *. eapply cs_term; eauto.
  - intros _. cbn in Hc. eapply IHev; [eapply cs_term; eauto|reflexivity].
  - intros _. cbn in Hc. eapply IHev2; [eapply cs_except; eauto|reflexivity].
  - apply IHev. cbn in *. eapply cs_bare; [exact H|]. eapply cs_head; eauto.
  - destruct o as [s2 e2|x2 s2 e2|h2]; cbn; try discriminate. exfalso. cbn in Hc. eapply IHev2; [eapply cs_rest; eauto|reflexivity].
  - exfalso. cbn in Hc. eapply IHev; [eapply cs_head; eauto|reflexivity].
  - apply IHev. cbn in *. eapply cs_defs; [exact Hc|left; reflexivity].
  - exfalso. exact (Kdefs Hc).
  - intros _. eapply IHev; [|reflexivity]. cbn in *. rewrite Forall_forall. intros d Hd. eapply cs_defs; eauto.
  - intros _. cbn in Hc. eapply IHev; [exact (Forall_inv Hc)|reflexivity].
  - intros _. cbn in Hc. eapply IHev2; [exact (Forall_inv_tail Hc)|reflexivity].
  - destruct Hc.
  - destruct Hc.
Qed.

(** ** Everything answers *)
Hypothesis Hleft : forall r, In r rules -> ~ left_recursive rules cfg r.
Lemma seq_ends : forall ts s, exists o, ev (NSeq ts) s o.
Proof. intros ts s. apply (below_all rules cfg Hleft (S (length (p_rest s)))). lia. Qed.
Lemma factor_ends : forall f s, exists o, ev (NFactor f) s o.
Proof.
  intros f s. destruct (seq_ends [Term f None] s) as (o & H). inversion H; subst.
  - destruct f as [k p]. match goal with X : bare_group _ = Some _ |- _ => cbn in X; destruct p; try discriminate X; destruct (N.eqb_spec k 1); [|discriminate X]; injection X as <- end.
    subst k. exists o. apply ev_factor_one, ev_grouped. assumption.
  - match goal with X : SpecParse.ev _ _ (NTerm _) _ _ |- _ => inversion X; subst end. eexists. eassumption.
  - match goal with X : SpecParse.ev _ _ (NTerm _) _ _ |- _ => inversion X; subst end. eexists. eassumption.
  - match goal with X : SpecParse.ev _ _ (NTerm _) _ _ |- _ => inversion X; subst end. eexists. eassumption.
Qed.
Definition answers (n : node) (s : pst) : Prop := (exists s' e, ev n s (Match s' e)) \/ (exists x s' e, ev n s (No x s' e)).
Lemma seq_answers : forall ts s, construct (NSeq ts) -> answers (NSeq ts) s.
Proof.
  intros ts s Hp. destruct (seq_ends ts s) as ([s1 e1|x s1 e1|h] & H); [left|right|]; eauto. exfalso. eapply no_halt; eauto.
Qed.
Lemma defs_answers : forall ds s, construct (NDefs ds) -> answers (NDefs ds) s.
Proof.
  intros ds s Hp. destruct (defs_end rules cfg Hleft ds s) as ([s1 e1|x s1 e1|h] & H); [left|right|]; eauto. exfalso. eapply no_halt; eauto.
Qed.
Lemma factor_answers : forall f s, construct (NFactor f) -> answers (NFactor f) s.
Proof.
  intros f s Hp. destruct (factor_ends f s) as ([s1 e1|x s1 e1|h] & H); [left|right|]; eauto. exfalso. eapply no_halt; eauto.
Qed.

(** ** Every word of the language is matched *)
Variable start : str.
Hypothesis Hahead : committed rules cfg start.
Notation ahead := (ahead rules cfg start).
Lemma ahead_construct : forall n k, ahead n k -> construct n.
Proof.
  intros n k H. induction H; eauto using cs_names, cs_defs, cs_head, cs_rest, cs_term, cs_except, cs_factor, cs_optional, cs_repeated, cs_group.
Qed.
Lemma goes_split : forall s w1 w2 s', goes s (w1 ++ w2) s' -> exists s1, goes s w1 s1 /\ goes s1 w2 s' /\ p_rest s1 = w2 ++ p_rest s'.
Proof.
  intros s w1 w2 s' H. apply goes_push in H as (A & B). exists (Pst (w2 ++ p_rest s') (loc_push_str (p_at s) w1)).
  split; [|split; [|reflexivity]]; apply goes_push; cbn; [rewrite A, app_assoc; auto|]. rewrite B, push_str_app. auto.
Qed.
Lemma goes_moved : forall s w s', goes s w s' -> moved s s'.
Proof. intros s w s' H. exists w. exact H. Qed.
Lemma goes_stay : forall s s', goes s [] s' -> s' = s.
Proof. intros s s' H. exact (goes_fun _ _ _ _ H (goes_nil s)). Qed.
Lemma ev_once : forall b s s' e, ev (NTimes 1 1 0 b) s (Match s' e) -> ev b s (Match s' e).
Proof.
  intros b s s' e H. inversion H; subst; try lia.
  match goal with X : SpecParse.ev _ _ (NTimes 1 1 (0 + 1) b) _ _ |- _ => inversion X; subst; try lia end.
  rewrite app_nil_r. assumption.
Qed.
Lemma ev_bare : forall t d s o, bare_group t = Some d -> ev (NTerm t) s o -> ev (NDefs d) s o.
Proof.
  intros t d s o H He. destruct t as [[k p] ex]. cbn in H. destruct p; try discriminate. destruct ex; try discriminate. destruct (N.eqb_spec k 1); [|discriminate]. injection H as <-. subst k.
  inversion He; subst. match goal with X : SpecParse.ev _ _ (NFactor _) _ _ |- _ => inversion X; subst end; [|congruence].
  match goal with X : SpecParse.ev _ _ (NPrim _) _ _ |- _ => inversion X; subst end. assumption.
Qed.
Lemma alts_reach : forall l1 d l2 s s' e, (forall d0, In d0 l1 -> (exists e1, ev (NSeq d0) s (Match s' e1)) \/ exists x s1 e1, ev (NSeq d0) s (No x s1 e1)) ->
  ev (NSeq d) s (Match s' e) -> exists e2, ev (NAlts (l1 ++ d :: l2)) s (Match s' e2).
Proof.
  induction l1 as [|d0 l1 IH]; intros d l2 s s' e Hno H; [exists e; apply ev_alts_first; exact H|]. cbn.
  destruct (Hno d0 (or_introl eq_refl)) as [(e1 & H1)|(x & s1 & e1 & H1)]; [exists e1; apply ev_alts_first; exact H1|].
  destruct (IH d l2 s s' e) as (e2 & H2); [intros d1 Hd1; apply Hno; right; exact Hd1|exact H|]. exists e2. eapply ev_alts_next; eauto.
Qed.
Lemma defs_reach : forall l1 d l2 s s' e, (forall d0, In d0 l1 -> (exists e1, ev (NSeq d0) s (Match s' e1)) \/ exists x s1 e1, ev (NSeq d0) s (No x s1 e1)) ->
  ev (NSeq d) s (Match s' e) -> exists e2, ev (NDefs (l1 ++ d :: l2)) s (Match s' e2).
Proof.
  intros l1 d l2 s s' e Hno H. destruct (alts_reach l1 d l2 s s' e Hno H) as (e2 & Ha).
  destruct l1 as [|d0 l1]; [destruct l2 as [|d2 l2]|destruct l1 as [|d1 l1]].
  - exists e. apply ev_defs_one. exact H.
  - exists e2. apply ev_defs. exact Ha.
  - exists e2. apply ev_defs. exact Ha.
  - exists e2. apply ev_defs. exact Ha.
Qed.

(** A text with no more characters than the code can count. *)
Definition short (s : pst) : Prop := (N.of_nat (length (p_rest s)) <= max_count)%N.
Lemma short_goes : forall s w s', goes s w s' -> short s -> short s' /\ (N.of_nat (length w) <= max_count)%N.
Proof. intros s w s' (H & _) Hs. unfold short in *. rewrite H, app_length in Hs. split; lia. Qed.

Section Closed.
(** A set of constructs, closed, in which what is matched is a word. *)
Variable P : node -> Prop.
Hypothesis P_meta : forall l id r, P (NPrim (PMeta l id)) -> names rules id r -> P (NDefs (r_defs r)).
Hypothesis P_defs : forall ds d, P (NDefs ds) -> In d ds -> P (NSeq d).
Hypothesis P_head : forall t ts, P (NSeq (t :: ts)) -> P (NTerm t).
Hypothesis P_rest : forall t ts, P (NSeq (t :: ts)) -> P (NSeq ts).
Hypothesis P_term : forall f e, P (NTerm (Term f e)) -> P (NFactor f).
Hypothesis P_factor : forall k p, P (NFactor (Factor k p)) -> P (NPrim p).
Hypothesis P_any : forall k i p, P (NFactor (Factor k p)) -> P (NFactor (Factor i p)).
Hypothesis P_optional : forall l d, P (NPrim (POptional l d)) -> P (NDefs d).
Hypothesis P_repeated : forall l d, P (NPrim (PRepeated l d)) -> P (NDefs d).
Hypothesis P_group : forall l d, P (NPrim (PGrouped l d)) -> P (NDefs d).
Hypothesis sound_defs : forall d s s' e, P (NDefs d) -> short s -> ev (NDefs d) s (Match s' e) -> exists w, goes s w s' /\ xlang (NDefs d) w.
Hypothesis sound_seq : forall d s s' e, P (NSeq d) -> short s -> ev (NSeq d) s (Match s' e) -> exists w, goes s w s' /\ xlang (NSeq d) w.

Definition matched (n : node) (w : str) : Prop :=
  match n with
  | NFactor (Factor k p) => forall M i s s', (i + k = M)%N -> goes s w s' -> ahead (NFactor (Factor M p)) (p_rest s') ->
      short s -> exists e, ev (NTimes M M i (NPrim p)) s (Match s' e)
  | NPrim (PRepeated l d) => forall i s s', goes s w s' -> ahead n (p_rest s') -> short s ->
      (i + N.of_nat (length w) <= max_count)%N -> exists e, ev (NTimes 0 max_count i (NDefs d)) s (Match s' e)
  | _ => forall s s', goes s w s' -> ahead n (p_rest s') -> short s -> exists e, ev n s (Match s' e)
  end.
Lemma matched_prim : forall p w, matched (NPrim p) w ->
  forall s s', goes s w s' -> ahead (NPrim p) (p_rest s') -> short s -> exists e, ev (NPrim p) s (Match s' e).
Proof.
  intros p w H s s' Hg Ha Hl. destruct p; try exact (H s s' Hg Ha Hl). pose proof (proj2 (short_goes _ _ _ Hg Hl)) as Hw.
  destruct (H 0%N s s' Hg Ha Hl ltac:(lia)) as (e & He). exists e. apply ev_repeated. exact He.
Qed.
Lemma matched_factor : forall f w, matched (NFactor f) w ->
  forall s s', goes s w s' -> ahead (NFactor f) (p_rest s') -> short s -> exists e, ev (NFactor f) s (Match s' e).
Proof.
  intros [k p] w H s s' Hg Ha Hl. destruct (H k 0%N s s' ltac:(lia) Hg Ha Hl) as (e & He). exists e.
  destruct (N.eq_dec k 1) as [->|Hk]; [apply ev_factor_one; apply ev_once; exact He|apply ev_factor_many; assumption].
Qed.
Lemma xlang_lang : forall n w, xlang n w -> lang n w.
Proof. intros n w H. induction H; eauto using SpecEvents.lang. Qed.
Lemma all_matched : forall n w, xlang n w -> P n -> matched n w.
Proof.
  destruct Hahead as (Achoice & Aopt & Arep & Aspec).
  intros n w H. induction H; intros HP; cbn [matched].
  - intros s s' Hg _ _. eexists. apply ev_terminal. exact Hg.
  - intros s s' Hg _ _. rewrite (goes_stay _ _ Hg). eexists. apply ev_empty.
  - intros s1 s1' Hg Ha _. destruct (Aspec l c w s1 s1' Ha) as (e1 & He); [eapply xl_special; eauto|exact Hg|]. eexists. apply ev_special. exact He.
  - intros s s' Hg Ha Hl. destruct (IHxlang (P_meta _ _ _ HP H) s s' Hg (ah_meta _ _ _ _ _ _ _ Ha H) Hl) as (e & He). eexists. apply ev_meta. eapply ev_ref; eauto.
  - intros s s' Hg Ha Hl. rewrite (goes_stay _ _ Hg) in *. pose proof (cs_optional _ _ (ahead_construct _ _ Ha)) as Hp.
    destruct (defs_answers d s Hp) as [(s1 & e1 & H1)|(x & s1 & e1 & H1)].
    + destruct (sound_defs _ _ _ _ (P_optional _ _ HP) Hl H1) as (u & Hu & Hlu). pose proof Ha as Ha'. rewrite (proj1 Hu) in Ha'. pose proof (Aopt _ _ _ _ Ha' Hlu) as ->.
      rewrite (goes_stay _ _ Hu) in H1. eexists. apply ev_optional. eapply ev_times_more; [lia|unfold max_count; lia|exact H1|]. apply ev_times_end. lia.
    + eexists. apply ev_optional. eapply ev_times_stop; [lia|lia|exact H1].
  - intros s s' Hg Ha Hl. destruct (IHxlang (P_optional _ _ HP) s s' Hg (ah_optional _ _ _ _ _ _ Ha) Hl) as (e & He). eexists. apply ev_optional. eapply ev_times_more; [lia|unfold max_count; lia|exact He|]. apply ev_times_end. lia.
  - intros i s s' Hg Ha Hl Hi. rewrite (goes_stay _ _ Hg) in *. pose proof (cs_repeated _ _ (ahead_construct _ _ Ha)) as Hp.
    destruct (N.lt_ge_cases i max_count) as [Hlt|Hge]; [|eexists; apply ev_times_end; exact Hge].
    destruct (defs_answers d s Hp) as [(s1 & e1 & H1)|(x & s1 & e1 & H1)].
    + exfalso. destruct (sound_defs _ _ _ _ (P_repeated _ _ HP) Hl H1) as (u & Hu & Hlu). rewrite (proj1 Hu) in Ha. exact (Arep _ _ _ _ Ha Hlu).
    + eexists. eapply ev_times_stop; [exact Hlt|lia|exact H1].
  - intros i s s' Hg Ha Hl Hi. pose proof (ahead_construct _ _ Ha) as Hp0. destruct (goes_split _ _ _ _ Hg) as (s1 & Hg1 & Hg2 & Hr1). pose proof (proj1 (short_goes _ _ _ Hg1 Hl)) as Hl1. rewrite app_length in Hi.
    destruct w1 as [|c1 w1]; [exfalso; exact (Krep _ _ Hp0 (xlang_lang _ _ H))|]. cbn [length] in Hi.
    assert (Ha1 : ahead (NDefs d) (p_rest s1)) by (rewrite Hr1; eapply ah_repeated; [exact Ha|exact H0]).
    destruct (IHxlang1 (P_repeated _ _ HP) s s1 Hg1 Ha1 Hl) as (e1 & He1). destruct (IHxlang2 HP (i + 1)%N s1 s' Hg2 Ha Hl1) as (e2 & He2); [lia|].
    eexists. eapply ev_times_more; [lia| |exact He1|exact He2]. intros _ E.
    pose proof (moved_at s s1 (goes_moved _ _ _ Hg1) E) as ->. pose proof (goes_word _ _ _ _ Hg1 (goes_nil s)). discriminate.
  - intros s s' Hg Ha Hl. destruct (IHxlang (P_group _ _ HP) s s' Hg (ah_group _ _ _ _ _ _ Ha) Hl) as (e & He). eexists. apply ev_grouped. exact He.
  - intros M i s s' HM Hg _ _. rewrite (goes_stay _ _ Hg). eexists. apply ev_times_end. lia.
  - intros M i s s' HM Hg Ha Hl. destruct (goes_split _ _ _ _ Hg) as (s1 & Hg1 & Hg2 & Hr1). pose proof (proj1 (short_goes _ _ _ Hg1 Hl)) as Hl1.
    assert (Ha1 : ahead (NPrim p) (p_rest s1)) by (rewrite Hr1; eapply ah_factor; [exact Ha| |exact H0]; lia).
    destruct (matched_prim _ _ (IHxlang1 (P_factor _ _ HP)) s s1 Hg1 Ha1 Hl) as (e1 & He1).
    destruct (IHxlang2 (P_any _ _ _ HP) M (i + 1)%N s1 s' ltac:(lia) Hg2 Ha Hl1) as (e2 & He2).
    eexists. eapply ev_times_more; [lia| |exact He1|exact He2]. intros EM E. subst M. rewrite EM in Ha.
    pose proof (moved_at s s1 (goes_moved _ _ _ Hg1) E) as ->. apply (Kmax p (ahead_construct _ _ Ha)).
    rewrite (goes_word _ _ _ _ Hg1 (goes_nil s)) in H. exact (xlang_lang _ _ H).
  - intros s s' Hg Ha Hl. destruct (matched_factor _ _ (IHxlang (P_term _ _ HP)) s s' Hg (ah_term _ _ _ _ _ _ Ha) Hl) as (e & He).
    exists e. apply ev_term_plain. exact He.
  - intros s s' Hg Ha Hl. destruct (matched_factor _ _ (IHxlang (P_term _ _ HP)) s s' Hg (ah_term _ _ _ _ _ _ Ha) Hl) as (e1 & He).
    exists e1. pose proof (cs_except _ _ (ahead_construct _ _ Ha)) as Hp.
    destruct (factor_answers e (Pst w (p_at s)) Hp) as [(s2 & e2 & H2)|(x & s2 & e2 & H2)].
    + eapply ev_term_kept; [exact He|exact Hg|exact H2|]. left. exists s2, e2. split; [reflexivity|]. intros En. apply H0.
      destruct (ev_speaks rules cfg Hfwd cs_rules _ _ _ H2 (cs_gl_factor _ Hp)) as (w2 & (Hw2 & _) & Hl2). rewrite En, app_nil_r in Hw2. cbn in Hw2. subst w2. exact Hl2.
    + eapply ev_term_kept; [exact He|exact Hg|exact H2|]. right. eauto.
  - intros s s' Hg _ _. rewrite (goes_stay _ _ Hg). eexists. apply ev_seq_nil.
  - intros s s' Hg Ha Hl. destruct (goes_split _ _ _ _ Hg) as (s1 & Hg1 & Hg2 & Hr1). pose proof (proj1 (short_goes _ _ _ Hg1 Hl)) as Hl1.
    assert (Ha1 : ahead (NTerm t) (p_rest s1)) by (rewrite Hr1; eapply ah_head; [exact Ha|exact H0]).
    destruct (IHxlang1 (P_head _ _ HP) s s1 Hg1 Ha1 Hl) as (e1 & He1). destruct (bare_group t) as [d|] eqn:Eg.
    + pose proof (Kgroup _ _ (ahead_construct _ _ Ha) ltac:(congruence)) as ->. inversion H0; subst. rewrite (goes_stay _ _ Hg2).
      exists e1. eapply ev_seq_group; [exact Eg|]. eapply ev_bare; eauto.
    + destruct (IHxlang2 (P_rest _ _ HP) s1 s' Hg2 (ah_rest _ _ _ _ _ _ Ha) Hl1) as (e2 & He2). eexists. exact (ev_seq _ _ _ _ _ _ _ _ Eg He1 He2).
  - intros s s' Hg Ha Hl. pose proof (ahead_construct _ _ Ha) as Hp. destruct (IHxlang (P_defs _ _ HP H) s s' Hg (ah_defs _ _ _ _ _ _ Ha H) Hl) as (e & He).
    apply in_split in H as (l1 & l2 & ->). apply (defs_reach l1 d l2 s s' e); [|exact He]. intros d0 Hd0.
    assert (Hp0 : construct (NSeq d0)) by (eapply cs_defs; [exact Hp|apply in_or_app; left; exact Hd0]).
    destruct (seq_answers d0 s Hp0) as [(s1 & e1 & H1)|Hn]; [|right; exact Hn]. left. exists e1.
    assert (HP0 : P (NSeq d0)) by (eapply P_defs; [exact HP|apply in_or_app; left; exact Hd0]).
    destruct (sound_seq _ _ _ _ HP0 Hl H1) as (u & Hu & Hlu).
    apply in_split in Hd0 as (m1 & m2 & ->). rewrite <- app_assoc in Ha. cbn [app] in Ha.
    assert (E : w ++ p_rest s' = u ++ p_rest s1) by (rewrite <- (proj1 Hg); exact (proj1 Hu)).
    pose proof (Achoice _ _ _ _ _ _ _ _ _ Ha H0 E Hlu) as ->. rewrite (goes_fun _ _ _ _ Hg Hu). exact H1.
Qed.
End Closed.

(** ** What is matched is a word *)
Lemma uses_construct : forall n m, uses n m -> construct n -> construct m.
Proof.
  intros n m H Hn. induction H; eauto using cs_names, cs_defs, cs_head, cs_rest, cs_term, cs_except, cs_factor, cs_optional, cs_repeated, cs_group.
Qed.
Section Plain.
(** An exception. *)
Variable root : node.
Hypothesis Hroot : construct root.
Hypothesis Hplain : forall f e, ~ uses root (NTerm (Term f (Some e))).
Definition inside (n : node) : Prop := match n with NFactor (Factor k p) => uses root (NPrim p) | _ => uses root n end.
Lemma plain_xlang : forall n w, lang n w -> inside n -> xlang n w.
Proof.
  intros n w H. induction H; intros Hi; cbn [inside] in *; eauto using SpecExact.xlang, us_meta, us_optional, us_repeated, us_group.
  - destruct f as [k p], e as [e|]; [exfalso; exact (Hplain _ _ Hi)|]. apply xl_term. apply IHlang. eapply us_factor, us_term. exact Hi.
  - apply xl_seq; [apply IHlang1; eapply us_head; exact Hi|apply IHlang2; eapply us_rest; exact Hi].
  - eapply xl_defs; [exact H|]. apply IHlang. eapply us_defs; eauto.
Qed.
Lemma plain_matched : forall n w, xlang n w -> inside n -> matched n w.
Proof.
  apply all_matched; cbn [inside]; eauto using us_meta, us_defs, us_head, us_rest, us_optional, us_repeated, us_group.
  - intros [k p] e H. eapply us_factor, us_term. exact H.
  - intros d s s' e Hi _ H. destruct (ev_speaks rules cfg Hfwd cs_rules _ _ _ H (cs_gl_defs _ (uses_construct _ _ Hi Hroot))) as (w & Hw & Hl).
    exists w. split; [exact Hw|]. apply plain_xlang; assumption.
  - intros d s s' e Hi _ H. destruct (ev_speaks rules cfg Hfwd cs_rules _ _ _ H (cs_gl_s _ (uses_construct _ _ Hi Hroot))) as (w & Hw & Hl).
    exists w. split; [exact Hw|]. apply plain_xlang; assumption.
Qed.
End Plain.
(** An exception is matched by the whole of each of its words. *)
Lemma except_matched : forall f e w at_, construct (NTerm (Term f (Some e))) -> lang (NFactor e) w -> (N.of_nat (length w) <= max_count)%N ->
  exists s2 e2, ev (NFactor e) (Pst w at_) (Match s2 e2) /\ p_rest s2 = [].
Proof.
  intros f e w at_ Hc Hl Hn. assert (Hi : inside (NFactor e) (NFactor e)) by (destruct e as [k p]; cbn; eapply us_factor, us_self).
  pose proof (plain_xlang _ (fun f' e' => Kplain f e f' e' Hc) _ _ Hl Hi) as Hx.
  pose proof (plain_matched _ (cs_except _ _ Hc) (fun f' e' => Kplain f e f' e' Hc) _ _ Hx Hi) as Hm.
  assert (Hg : goes (Pst w at_) w (Pst [] (loc_push_str at_ w))) by (apply goes_push; cbn; rewrite app_nil_r; auto).
  destruct (matched_factor _ _ Hm _ _ Hg (ah_except _ _ _ _ _ Hc) Hn) as (e2 & He2). eauto.
Qed.

Hypothesis Hunique : no_repeat rules.
Hypothesis Hdollar : no_dollar rules.
Fixpoint xwords (n : node) (w : str) : Prop :=
  match n with
  | NTimes mn mx i b => exists ws, Forall (xwords b) ws /\ w = concat ws /\ (mn <= i + N.of_nat (length ws))%N /\ (i + N.of_nat (length ws) <= N.max i mx)%N
  | NRef l id => xlang (NPrim (PMeta l id)) w
  | NAlts ds => xlang (NDefs ds) w
  | NFwd _ => False
  | _ => xlang n w
  end.
Fixpoint fit (n : node) : Prop :=
  match n with
  | NTimes mn mx i b => fit b /\ (mn <= mx)%N /\ (i <= mx)%N
  | NRef _ _ => True
  | NAlts ds => Forall (fun d => construct (NSeq d)) ds
  | NFwd _ => False
  | _ => construct n
  end.
Definition xspeaks (n : node) (s : pst) (o : outcome) : Prop :=
  match o with Match s' _ => exists w, goes s w s' /\ xwords n w | _ => True end.
Lemma xwords_repeated : forall l d ws, Forall (xlang (NDefs d)) ws -> xlang (NPrim (PRepeated l d)) (concat ws).
Proof. intros l d ws H. induction H; cbn; [apply xl_stop|apply xl_repeated; assumption]. Qed.
Lemma xwords_times : forall p ws, Forall (xlang (NPrim p)) ws -> xlang (NFactor (Factor (N.of_nat (length ws)) p)) (concat ws).
Proof.
  intros p ws H. induction H; cbn; [apply xl_zero|]. replace (N.pos (Pos.of_succ_nat (length l))) with (N.succ (N.of_nat (length l))) by lia. apply xl_times; assumption.
Qed.
Lemma xlang_one : forall p w, xlang (NPrim p) w -> xlang (NFactor (Factor 1 p)) w.
Proof. intros p w H. rewrite <- (app_nil_r w). change 1%N with (N.succ 0). apply xl_times; [exact H|apply xl_zero]. Qed.
Lemma xlang_last : forall t w, xlang (NTerm t) w -> xlang (NSeq [t]) w.
Proof. intros t w H. rewrite <- (app_nil_r w). apply xl_seq; [exact H|apply xl_nil]. Qed.
Lemma xgroup : forall t d w, bare_group t = Some d -> xlang (NDefs d) w -> xlang (NTerm t) w.
Proof.
  intros t d w H Ht. destruct t as [[k p] ex]. cbn in H. destruct p; try discriminate. destruct ex; try discriminate. destruct (N.eqb_spec k 1); [|discriminate]. injection H as ->. subst k.
  apply xl_term, xlang_one, xl_group. exact Ht.
Qed.
Lemma ev_xspeaks : forall n s o, ev n s o -> fit n -> short s -> xspeaks n s o.
Proof.
  intros n s o H. induction H; intros Ht Hs; try exact I; try (exfalso; eapply Hfwd; eassumption); cbn [fit] in Ht.
  - exists w. split; [exact H|constructor].
  - exists []. split; [apply goes_nil|constructor].
  - destruct (scanned_moved _ _ _ _ H) as (w & Hw). exists w. split; [exact Hw|]. eapply xl_special; eauto.
  - destruct o as [s' e| |]; try exact I. destruct (IHev I Hs) as (w & Hw & Hl). exists w. auto.
  - destruct (IHev (cs_names _ _ H) Hs) as (w & Hw & Hl). exists w. split; [exact Hw|]. eapply xl_meta; eauto.
  - destruct o as [s' e| |]; try exact I. destruct IHev as (w & Hw & ws & HF & -> & H1 & H2); [split; [eapply cs_optional; exact Ht|lia]|exact Hs|].
    exists (concat ws). split; [exact Hw|]. destruct ws as [|w1 [|w2 ws]]; cbn in H2; [apply xl_none| |lia]. cbn. rewrite app_nil_r. apply xl_optional. exact (Forall_inv HF).
  - destruct o as [s' e| |]; try exact I. destruct IHev as (w & Hw & ws & HF & -> & H1 & H2); [split; [eapply cs_repeated; exact Ht|unfold max_count; lia]|exact Hs|].
    exists (concat ws). split; [exact Hw|]. apply xwords_repeated. exact HF.
  - destruct o as [s' e| |]; try exact I. destruct IHev as (w & Hw & Hl); [eapply cs_group; exact Ht|exact Hs|]. exists w. split; [exact Hw|]. apply xl_group. exact Hl.
  - destruct Ht as (_ & H1 & H2). exists []. split; [apply goes_nil|]. exists []. cbn. split; [constructor|]. split; [reflexivity|]. lia.
  - exists []. split; [apply goes_nil|]. exists []. cbn. split; [constructor|]. split; [reflexivity|]. lia.
  - destruct Ht as (Hb & Hmm & Hi). destruct (IHev1 Hb Hs) as (w1 & Hw1 & Hl1). destruct IHev2 as (w2 & Hw2 & ws & HF & -> & K1 & K2); [split; [exact Hb|]; lia|exact (proj1 (short_goes _ _ _ Hw1 Hs))|].
    exists (w1 ++ concat ws). split; [eapply goes_app; eauto|]. exists (w1 :: ws). split; [constructor; assumption|]. split; [reflexivity|]. cbn [length]. lia.
  - destruct o as [s' e| |]; try exact I. destruct IHev as (w & Hw & Hl); [eapply cs_factor; exact Ht|exact Hs|]. exists w. split; [exact Hw|]. apply xlang_one. exact Hl.
  - destruct o as [s' e| |]; try exact I. destruct IHev as (w & Hw & ws & HF & -> & K1 & K2); [split; [eapply cs_factor; exact Ht|lia]|exact Hs|].
    exists (concat ws). split; [exact Hw|]. replace n with (N.of_nat (length ws)) by lia. apply xwords_times. exact HF.
  - destruct o as [s' e| |]; try exact I. destruct IHev as (w & Hw & Hl); [eapply cs_term; exact Ht|exact Hs|]. exists w. split; [exact Hw|]. apply xl_term. exact Hl.
  - destruct IHev1 as (w1 & Hw & Hl); [eapply cs_term; exact Ht|exact Hs|]. exists w1. split; [exact Hw|]. apply xl_except; [exact Hl|]. intros Hx.
    pose proof (goes_word _ _ _ _ H0 Hw) as ->. destruct (except_matched f e w1 (p_at s) Ht Hx (proj2 (short_goes _ _ _ Hw Hs))) as (s3 & e3 & He3 & Hn3).
    pose proof (ev_fun rules cfg Hunique Hdollar _ _ _ H1 _ He3) as ->. destruct H2 as [(s2 & evs2 & E & Hne)|(x & s2 & evs2 & E)]; [|discriminate].
    injection E as <- _. contradiction.
  - exists []. split; [apply goes_nil|]. apply xl_nil.
  - destruct o as [s' e| |]; try exact I. pose proof (Kgroup _ _ Ht ltac:(congruence)) as ->.
    destruct IHev as (w & Hw & Hl); [eapply cs_bare; [exact H|]; eapply cs_head; exact Ht|exact Hs|]. exists w. split; [exact Hw|]. apply xlang_last. eapply xgroup; eauto.
  - destruct o as [s2 e2| |]; try exact I.
    destruct (IHev1 (cs_head _ _ Ht) Hs) as (w1 & Hw1 & Hl1). destruct (IHev2 (cs_rest _ _ Ht) (proj1 (short_goes _ _ _ Hw1 Hs))) as (w2 & Hw2 & Hl2).
    exists (w1 ++ w2). split; [eapply goes_app; eauto|]. apply xl_seq; assumption.
  - destruct o as [s' e| |]; try exact I. destruct (IHev (cs_defs _ _ Ht (or_introl eq_refl)) Hs) as (w & Hw & Hl).
    exists w. split; [exact Hw|]. eapply xl_defs; [left; reflexivity|exact Hl].
  - destruct IHev as (w & Hw & Hl); [cbn [fit]; rewrite Forall_forall; intros d Hd; eapply cs_defs; eauto|exact Hs|]. exists w. split; [exact Hw|exact Hl].
  - destruct (IHev (Forall_inv Ht) Hs) as (w & Hw & Hl). exists w. split; [exact Hw|]. eapply xl_defs; [left; reflexivity|exact Hl].
  - destruct (IHev2 (Forall_inv_tail Ht) Hs) as (w & Hw & Hl).
    exists w. split; [exact Hw|]. cbn in *. inversion Hl; subst. eapply xl_defs; [right; eassumption|assumption].
  - destruct Ht.
  - destruct Ht.
Qed.

(** ** A rule, on a whole text *)
Definition made (n : node) : Prop := match n with NFactor (Factor k p) => construct (NPrim p) | _ => construct n end.
Lemma word_matched : forall n w, xlang n w -> made n -> matched n w.
Proof.
  apply all_matched; cbn [made]; eauto using cs_names, cs_defs, cs_head, cs_rest, cs_optional, cs_repeated, cs_group.
  - intros [k p] e H. eapply cs_factor, cs_term. exact H.
  - intros d s s' e Hi Hs H. exact (ev_xspeaks _ _ _ H Hi Hs).
  - intros d s s' e Hi Hs H. exact (ev_xspeaks _ _ _ H Hi Hs).
Qed.
Lemma start_matched : forall r s, names rules start r -> xlang (NDefs (r_defs r)) (p_rest s) -> short s ->
  exists s' e, means rules cfg start s (Match s' e) /\ p_rest s' = [].
Proof.
  intros r s Hr Hl Hn. set (s' := Pst [] (loc_push_str (p_at s) (p_rest s))).
  assert (Hg : goes s (p_rest s) s') by (apply goes_push; cbn; rewrite app_nil_r; auto).
  destruct (word_matched _ _ Hl (cs_names _ _ Hr) s s' Hg (ah_start _ _ _ _ Hr) Hn) as (e & He). exists s'. eexists. split; [|reflexivity]. exists r. split; [exact Hr|]. eapply ev_ref; [|exact He].
  split; [exact (proj1 Hr)|]. apply same_name_keyed. reflexivity.
Qed.
End Exact.
