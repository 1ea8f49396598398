(** What the laws of the notation keep. *)
From Coq Require Import String List NArith Arith Bool Lia Relations.
From Verif Require Import Base Ident Tokenizer Ast Lex Syntax Io Graph Machine SpecText SpecSyntax SpecIo TextFacts SyntaxFacts IoFacts SpecGram SpecParse SpecMachine SpecLaws Pure ParseFacts CodeFacts EvFacts MachineFacts FuelFacts.
Import ListNotations.
Open Scope nat_scope.

(** ** Errors and outcomes *)
Lemma sp_refl : forall e, same_place e e.
Proof. left. reflexivity. Qed.
Lemma sp_loc : forall e e', same_place e e' -> e_loc e = e_loc e'.
Proof. intros e e' [->|(H & _)]; auto. Qed.
Lemma sp_trans : forall a b c, same_place a b -> same_place b c -> same_place a c.
Proof.
  intros a b c [->|(H1 & H2 & H3)] [<-|(K1 & K2 & K3)].
  - left. reflexivity.
  - right. auto.
  - right. auto.
  - right. split; [congruence|]. auto.
Qed.
Lemma sp_wanted : forall s x s' x', p_at s = p_at s' -> same_place (wanted s x) (wanted s' x').
Proof. intros. right. split; [assumption|]. unfold wanted. cbn. split; eauto. Qed.
Lemma sp_further : forall a a' b b', same_place a a' -> same_place b b' -> same_place (further a b) (further a' b').
Proof. intros a a' b b' H1 H2. unfold further. rewrite (sp_loc _ _ H1), (sp_loc _ _ H2). destruct (loc_ltb (e_loc a') (e_loc b')); assumption. Qed.

Section Outcomes.
Variable EV : list event -> list event -> Prop.
Inductive same_outcome : outcome -> outcome -> Prop :=
| so_match : forall s a b, EV a b -> same_outcome (Match s a) (Match s b)
| so_no : forall e e' s a b, same_place e e' -> EV a b -> same_outcome (No e s a) (No e' s b)
| so_halt : forall e e', same_place e e' -> same_outcome (Halt (Failed e)) (Halt (Failed e'))
| so_crash : same_outcome (Halt Crashed) (Halt Crashed).
Inductive same_halt : halt -> halt -> Prop :=
| sh_failed : forall e e', same_place e e' -> same_halt (Failed e) (Failed e')
| sh_crashed : same_halt Crashed Crashed.
Lemma so_halt_inv : forall h o, same_outcome (Halt h) o -> exists h', o = Halt h' /\ same_halt h h'.
Proof. intros h o H. inversion H; subst; eexists; split; try reflexivity; constructor; assumption. Qed.
Lemma so_halt_intro : forall h h', same_halt h h' -> same_outcome (Halt h) (Halt h').
Proof. intros h h' H. inversion H; subst; constructor; assumption. Qed.
Lemma so_match_inv : forall s a o, same_outcome (Match s a) o -> exists b, o = Match s b /\ EV a b.
Proof. intros s a o H. inversion H; subst. eauto. Qed.
Lemma so_no_inv : forall e s a o, same_outcome (No e s a) o -> exists e' b, o = No e' s b /\ same_place e e' /\ EV a b.
Proof. intros e s a o H. inversion H; subst. eauto. Qed.
Hypothesis EVtrans : forall a b c, EV a b -> EV b c -> EV a c.
Lemma so_trans : forall a b c, same_outcome a b -> same_outcome b c -> same_outcome a c.
Proof.
  intros a b c H K. inversion H; subst; inversion K; subst; constructor; eauto using sp_trans.
Qed.
Hypothesis EVrefl : forall a, EV a a.
Lemma so_refl : forall o, same_outcome o o.
Proof. intros [s e|x s e|[x|]]; constructor; auto using sp_refl. Qed.
End Outcomes.

Lemma forall2_left : forall A B (P : A -> B -> Prop) l l', Forall2 P l l' -> forall x, In x l -> exists y, In y l' /\ P x y.
Proof. intros A B P l l' H. induction H as [|x y l l' H K IH]; intros z Hz; [destruct Hz|]. destruct Hz as [->|Hz]; [exists y; cbn; auto|]. destruct (IH z Hz) as (w & H1 & H2). exists w. cbn. auto. Qed.
Lemma forall2_right : forall A B (P : A -> B -> Prop) l l', Forall2 P l l' -> forall y, In y l' -> exists x, In x l /\ P x y.
Proof. intros A B P l l' H. induction H as [|x y l l' H K IH]; intros z Hz; [destruct Hz|]. destruct Hz as [->|Hz]; [exists x; cbn; auto|]. destruct (IH z Hz) as (w & H1 & H2). exists w. cbn. auto. Qed.

(** ** Rules whose nodes correspond, up to laws *)
Section Sim.
Variables rules1 rules2 : list rule.
Variable cfg : config.
Variable EV : list event -> list event -> Prop.
Variable lw : node -> node -> Prop.
Notation ev1 := (ev rules1 cfg).
Notation ev2 := (ev rules2 cfg).
Notation same_outcome := (same_outcome EV).
Hypothesis EVrefl : forall a, EV a a.
Hypothesis EVtrans : forall a b c, EV a b -> EV b c -> EV a c.
Hypothesis EVapp : forall a a' b b', EV a a' -> EV b b' -> EV (a ++ b) (a' ++ b').
Hypothesis Hlaw : forall n n' s o, lw n n' -> ev2 n s o -> exists o', ev2 n' s o' /\ same_outcome o o'.

Inductive sim : node -> node -> Prop :=
| sm_law : forall n n0 n', sim n n0 -> lw n0 n' -> sim n n'
| sm_terminal : forall l w, sim (NPrim (PTerminal l w)) (NPrim (PTerminal l w))
| sm_special : forall l w, sim (NPrim (PSpecial l w)) (NPrim (PSpecial l w))
| sm_meta : forall l w, sim (NPrim (PMeta l w)) (NPrim (PMeta l w))
| sm_empty : forall l, sim (NPrim (PEmpty l)) (NPrim (PEmpty l))
| sm_optional : forall l d d', sim (NDefs d) (NDefs d') -> sim (NPrim (POptional l d)) (NPrim (POptional l d'))
| sm_repeated : forall l d d', sim (NDefs d) (NDefs d') -> sim (NPrim (PRepeated l d)) (NPrim (PRepeated l d'))
| sm_grouped : forall l d d', sim (NDefs d) (NDefs d') -> sim (NPrim (PGrouped l d)) (NPrim (PGrouped l d'))
| sm_times : forall min max i b b', sim b b' -> sim (NTimes min max i b) (NTimes min max i b')
| sm_ref : forall l id, sim (NRef l id) (NRef l id)
| sm_fwd : forall id, sim (NFwd id) (NFwd id)
| sm_factor : forall n p p', sim (NPrim p) (NPrim p') -> sim (NFactor (Factor n p)) (NFactor (Factor n p'))
| sm_term : forall f f', sim (NFactor f) (NFactor f') -> sim (NTerm (Term f None)) (NTerm (Term f' None))
| sm_except : forall f f' e e', sim (NFactor f) (NFactor f') -> sim (NFactor e) (NFactor e') -> sim (NTerm (Term f (Some e))) (NTerm (Term f' (Some e')))
| sm_seq_nil : sim (NSeq []) (NSeq [])
| sm_seq_group : forall t t' d d' ts ts', bare_group t = Some d -> bare_group t' = Some d' -> sim (NDefs d) (NDefs d') -> sim (NSeq (t :: ts)) (NSeq (t' :: ts'))
| sm_seq_cons : forall t t' ts ts', bare_group t = None -> bare_group t' = None -> sim (NTerm t) (NTerm t') -> sim (NSeq ts) (NSeq ts') -> sim (NSeq (t :: ts)) (NSeq (t' :: ts'))
| sm_alts_none : sim (NAlts []) (NAlts [])
| sm_alts_last : forall d d', sim (NSeq d) (NSeq d') -> sim (NAlts [d]) (NAlts [d'])
| sm_alts : forall d d' e ds e' ds', sim (NSeq d) (NSeq d') -> sim (NAlts (e :: ds)) (NAlts (e' :: ds')) -> sim (NAlts (d :: e :: ds)) (NAlts (d' :: e' :: ds'))
| sm_defs_none : sim (NDefs []) (NDefs [])
| sm_defs_one : forall d d', sim (NSeq d) (NSeq d') -> sim (NDefs [d]) (NDefs [d'])
| sm_defs : forall a b d a' b' d', sim (NAlts (a :: b :: d)) (NAlts (a' :: b' :: d')) -> sim (NDefs (a :: b :: d)) (NDefs (a' :: b' :: d')).

Definition sim_rule (r r' : rule) : Prop := r_loc r = r_loc r' /\ r_id r = r_id r' /\ sim (NDefs (r_defs r)) (NDefs (r_defs r')).
Hypothesis Hrules : Forall2 sim_rule rules1 rules2.
Lemma in_left : forall r, In r rules1 -> exists r', In r' rules2 /\ sim_rule r r'.
Proof. intros r Hr. exact (forall2_left _ _ _ _ _ Hrules r Hr). Qed.
Lemma in_right : forall r', In r' rules2 -> exists r, In r rules1 /\ sim_rule r r'.
Proof. intros r Hr. exact (forall2_right _ _ _ _ _ Hrules r Hr). Qed.
Lemma sim_names : forall id r, names rules1 id r -> exists r', names rules2 id r' /\ sim_rule r r'.
Proof. intros id r (Hr & Hn). destruct (in_left _ Hr) as (r' & H1 & H2). exists r'. split; [|exact H2]. split; [exact H1|]. destruct H2 as (_ & <- & _). exact Hn. Qed.
Lemma sim_undef : forall id, ~ defined rules1 id -> ~ defined rules2 id.
Proof.
  intros id H K. apply H. unfold defined in *. destruct K as (r' & Hr' & Hn). destruct (in_right _ Hr') as (r & Hr & _ & E & _).
  exists r. split; [exact Hr|]. rewrite E. exact Hn.
Qed.

Definition goal (n : node) (s : pst) (o : outcome) : Prop :=
  forall n', sim n n' -> exists o', ev2 n' s o' /\ same_outcome o o'.

Ltac outc := match goal with
  | H : LawFacts.same_outcome _ (Match _ _) _ |- _ => apply so_match_inv in H as (? & -> & ?)
  | H : LawFacts.same_outcome _ (No _ _ _) _ |- _ => apply so_no_inv in H as (? & ? & -> & ? & ?)
  | H : LawFacts.same_outcome _ (Halt ?h) _ |- _ => is_var h; apply so_halt_inv in H as (? & -> & ?)
  end.
Ltac bylaw := match goal with L : lw ?n0 ?n', IH : ?nd = _ -> _, E : ?nd = _ |- _ =>
  destruct (IH E) as (?o & ?He & ?Ho); destruct (Hlaw _ _ _ _ L He) as (?o2 & ?He2 & ?Ho2); eexists; split; [exact He2|eapply so_trans; [exact EVtrans|exact Ho|exact Ho2]] end.
Ltac ih IH n := let o := fresh "o" in let Ho := fresh "Ho" in let He := fresh "He" in
  destruct (IH n) as (o & He & Ho); [first [assumption|constructor; assumption|constructor; constructor; assumption]|].
Lemma times_no_nil : forall rules n s o, ev rules cfg n s o -> forall min max i b x s' e, n = NTimes min max i b -> o = No x s' e -> e = [].
Proof. intros rules n s o H. destruct H; intros; try discriminate; congruence. Qed.
Lemma sim_ev : forall n s o, ev1 n s o -> goal n s o.
Proof.
  intros n s o H. induction H; intros n9 Hn; unfold goal in *;
    match type of Hn with sim ?x _ => remember x as nd eqn:End end;
    revert End; induction Hn; intros End; try discriminate End; try bylaw; clear IHHn || idtac; try clear IHHn1; try clear IHHn2; try (injection End; intros; subst); try clear End.
  - eexists. split; [apply ev_terminal; eassumption|]. constructor. apply EVrefl.
  - eexists. split; [apply ev_terminal_no; eassumption|]. constructor; [apply sp_refl|apply EVrefl].
  - eexists. split; [apply ev_empty|]. constructor. apply EVrefl.
  - eexists. split; [eapply ev_special; eassumption|]. constructor. apply EVrefl.
  - eexists. split; [eapply ev_special_no; eassumption|]. constructor; [apply sp_refl|apply EVrefl].
  - eexists. split; [eapply ev_special_fail; eassumption|]. constructor. apply sp_refl.
  - ih IHev (NFwd id). outc. eexists. split; [eapply ev_forward; eassumption|]. constructor. assumption.
  - ih IHev (NFwd id). outc. eexists. split; [eapply ev_forward_no; eassumption|]. constructor. assumption.
  - ih IHev (NFwd id). outc. eexists. split; [eapply ev_forward_halt; eassumption|]. apply so_halt_intro. assumption.
  - eexists. split; [eapply ev_forward_unknown; [eassumption|apply sim_undef; assumption|]|constructor; apply sp_refl].
    intros r Hr Hd. destruct (in_right _ Hr) as (r1 & Hr1 & _ & E & _). apply (H1 r1 Hr1). unfold dollar in *. rewrite E. exact Hd.
  - ih IHev (NRef l id). eexists. split; [apply ev_meta; eassumption|assumption].
  - destruct (sim_names _ _ H) as (r' & Hr' & Hl & Hi & Hd). ih IHev (NDefs (r_defs r')). outc.
    eexists. split; [eapply ev_ref; eassumption|]. rewrite Hi. constructor. apply (EVapp (_ :: evs) (_ :: _)); [|apply EVrefl].
    match goal with |- EV (?a :: ?b) (?a :: ?c) => apply (EVapp [a] [a] b c) end; [apply EVrefl|assumption].
  - destruct (sim_names _ _ H) as (r' & Hr' & Hl & Hi & Hd). ih IHev (NDefs (r_defs r')). outc.
    eexists. split; [eapply ev_ref_no; eassumption|]. constructor; [assumption|apply EVrefl].
  - destruct (sim_names _ _ H) as (r' & Hr' & Hl & Hi & Hd). ih IHev (NDefs (r_defs r')). outc.
    eexists. split; [eapply ev_ref_halt; eassumption|]. apply so_halt_intro. assumption.
  - eexists. split; [apply ev_ref_undefined, sim_undef; assumption|constructor].
  - ih IHev (NTimes 0 1 0 (NDefs d')). eexists. split; [apply ev_optional; eassumption|assumption].
  - ih IHev (NTimes 0 max_count 0 (NDefs d')). eexists. split; [apply ev_repeated; eassumption|assumption].
  - ih IHev (NDefs d'). eexists. split; [apply ev_grouped; eassumption|assumption].
  - eexists. split; [apply ev_times_end; assumption|]. constructor. apply EVrefl.
  - ih IHev b'. outc. eexists. split; [eapply ev_times_short; eassumption|]. constructor; [assumption|apply EVrefl].
  - ih IHev b'. outc. eexists. split; [eapply ev_times_stop; eassumption|]. constructor; assumption.
  - ih IHev b'. outc. eexists. split; [eapply ev_times_livelock; [assumption|reflexivity|eassumption|assumption]|]. constructor. apply sp_refl.
  - ih IHev b'. outc. eexists. split; [eapply ev_times_halt; eassumption|]. apply so_halt_intro. assumption.
  - ih IHev1 b'. outc. ih IHev2 (NTimes min max (i + 1) b'). outc.
    eexists. split; [eapply ev_times_more; eassumption|]. constructor. apply EVapp; assumption.
  - ih IHev1 b'. outc. ih IHev2 (NTimes min max (i + 1) b'). outc.
    match goal with K : ev2 (NTimes _ _ _ _) _ (No _ _ ?e) |- _ => pose proof (times_no_nil _ _ _ _ K _ _ _ _ _ _ _ eq_refl eq_refl); subst e end.
    eexists. split; [eapply ev_times_no; eassumption|]. constructor; [assumption|apply EVrefl].
  - ih IHev1 b'. outc. ih IHev2 (NTimes min max (i + 1) b'). outc.
    eexists. split; [eapply ev_times_more_halt; eassumption|]. apply so_halt_intro. assumption.
  - ih IHev (NPrim p'). eexists. split; [apply ev_factor_one; eassumption|assumption].
  - ih IHev (NTimes n n 0 (NPrim p')). eexists. split; [apply ev_factor_many; eassumption|assumption].
  - ih IHev (NFactor f'). eexists. split; [apply ev_term_plain; eassumption|assumption].
  - ih IHev (NFactor f'). outc. eexists. split; [eapply ev_term_no; eassumption|]. constructor; [assumption|apply EVrefl].
  - ih IHev (NFactor f'). outc. eexists. split; [eapply ev_term_halt; eassumption|]. apply so_halt_intro. assumption.
  - ih IHev1 (NFactor f'). outc. ih IHev2 (NFactor e'). outc. eexists. split; [eapply ev_term_excepted; eassumption|].
    constructor; [apply sp_wanted; reflexivity|apply EVrefl].
  - ih IHev1 (NFactor f'). outc. ih IHev2 (NFactor e').
    eexists. split; [eapply ev_term_kept; [eassumption|eassumption|eassumption|]|constructor; assumption].
    destruct H2 as [(s2 & e2 & Eo & K)|(y & s2 & e2 & Eo)]; rewrite Eo in *; outc.
    + left. eauto.
    + right. eauto.
  - ih IHev1 (NFactor f'). outc. ih IHev2 (NFactor e'). outc. eexists. split; [eapply ev_term_exc_halt; eassumption|]. apply so_halt_intro. assumption.
  - eexists. split; [apply ev_seq_nil|]. constructor. apply EVrefl.
  - match goal with K : bare_group t = Some ?x |- _ => rewrite H in K; injection K as <- end. ih IHev (NDefs d').
    eexists. split; [eapply ev_seq_group; eassumption|assumption].
  - congruence.
  - congruence.
  - ih IHev1 (NTerm t'). outc. ih IHev2 (NSeq ts'). eexists. split; [eapply ev_seq; eassumption|].
    match goal with Ho : LawFacts.same_outcome _ o _ |- _ => inversion Ho; subst; cbn [before]; constructor; try assumption; apply EVapp; assumption end.
  - congruence.
  - ih IHev (NTerm t'). outc. eexists. split; [eapply ev_seq_no; eassumption|]. constructor; assumption.
  - congruence.
  - ih IHev (NTerm t'). outc. eexists. split; [eapply ev_seq_halt; eassumption|]. apply so_halt_intro. assumption.
  - ih IHev (NSeq d'). eexists. split; [eapply ev_defs_one; eassumption|assumption].
  - eexists. split; [apply ev_defs_none|constructor].
  - ih IHev (NAlts (a' :: b' :: d')). outc. eexists. split; [eapply ev_defs; eassumption|]. constructor; assumption.
  - ih IHev (NAlts (a' :: b' :: d')). outc. eexists. split; [eapply ev_defs_halt; eassumption|]. apply so_halt_intro; assumption.
  - ih IHev (NAlts (a' :: b' :: d')). outc. match goal with K : same_place e _ |- _ => pose proof (sp_loc _ _ K) as Hx end.
    eexists. split; [eapply ev_defs_here; [eassumption|congruence]|]. constructor; [apply sp_wanted; reflexivity|assumption].
  - ih IHev (NAlts (a' :: b' :: d')). outc. match goal with K : same_place e _ |- _ => pose proof (sp_loc _ _ K) as Hx end.
    eexists. split; [eapply ev_defs_ahead; [eassumption|congruence]|]. constructor; assumption.
  - ih IHev (NSeq d'). outc. eexists. split; [eapply ev_alts_first; eassumption|]. constructor; assumption.
  - ih IHev (NSeq d'). outc. eexists. split; [eapply ev_alts_first; eassumption|]. constructor; assumption.
  - ih IHev (NSeq d'). outc. eexists. split; [eapply ev_alts_halt; eassumption|]. apply so_halt_intro; assumption.
  - ih IHev (NSeq d'). outc. eexists. split; [eapply ev_alts_halt; eassumption|]. apply so_halt_intro; assumption.
  - ih IHev (NSeq d'). outc. eexists. split; [eapply ev_alts_last; eassumption|]. constructor; [assumption|apply EVrefl].
  - inversion H0.
  - ih IHev1 (NSeq d'). outc. ih IHev2 (NAlts (e' :: ds')). outc. eexists. split; [eapply ev_alts_next; eassumption|]. constructor; assumption.
  - inversion H0.
  - ih IHev1 (NSeq d'). outc. ih IHev2 (NAlts (e' :: ds')). outc.
    match goal with K : ev2 (NAlts _) _ (No _ _ ?e) |- _ => pose proof (alts_no _ _ _ _ _ _ _ K) as (_ & Enil & _); subst e end.
    eexists. split; [eapply ev_alts_no; eassumption|]. constructor; [apply sp_further; assumption|apply EVrefl].
  - inversion H0.
  - ih IHev1 (NSeq d'). outc. ih IHev2 (NAlts (e' :: ds')). outc. eexists. split; [eapply ev_alts_next_halt; eassumption|]. apply so_halt_intro; assumption.
  - destruct (sim_names _ _ H) as (r' & Hr' & Hl & Hi & Hd). ih IHev (NDefs (r_defs r')).
    eexists. split; [eapply ev_fwd; eassumption|assumption].
  - destruct (in_left _ H) as (r' & Hr' & Hl & Hi & Hd). ih IHev (NRef (r_loc r) (r_id r)).
    eexists. split; [eapply (ev_fwd_alias _ _ _ r'); [exact Hr'|unfold dollar in *; rewrite <- Hi; assumption|rewrite <- Hl, <- Hi; eassumption]|assumption].
Qed.

Lemma sim_means : forall id s o, means rules1 cfg id s o -> exists o', means rules2 cfg id s o' /\ same_outcome o o'.
Proof.
  intros id s o (r & Hr & Ho). destruct (sim_names _ _ Hr) as (r' & Hr' & Hl & Hi & Hd).
  destruct (sim_ev _ _ _ Ho (NRef (r_loc r) (r_id r))) as (o' & He & Hlo); [constructor|].
  exists o'. split; [exists r'; rewrite <- Hl, <- Hi; auto|exact Hlo].
Qed.

End Sim.

(** ** Everything corresponds to itself; rewriting *)
Section Refl.
Variable lw0 : node -> node -> Prop.
Definition lw (a b : node) : Prop := lw0 a b \/ lw0 b a.
Notation sim := (sim lw).
Definition gsim (p p' : primary) : Prop :=
  match p, p' with
  | PGrouped _ d, PGrouped _ d' => sim (NDefs d) (NDefs d')
  | PGrouped _ _, _ | _, PGrouped _ _ => False
  | _, _ => True
  end.
Definition tsim (t t' : term) : Prop :=
  match bare_group t, bare_group t' with
  | Some d, Some d' => sim (NDefs d) (NDefs d')
  | None, None => True
  | _, _ => False
  end.
Definition nsim (n n' : node) : Prop :=
  match n, n' with NPrim p, NPrim p' => gsim p p' | NTerm t, NTerm t' => tsim t t' | _, _ => True end.
(** A law does not make a group of what is none. *)
Hypothesis Hshape : forall n n', lw0 n n' ->
  match n, n' with
  | NPrim p, NPrim p' => ~ grouped p /\ ~ grouped p'
  | NTerm t, NTerm t' => bare_group t = None /\ bare_group t' = None
  | _, _ => True
  end.
Lemma sim_term : forall n p p' x, sim (NPrim p) (NPrim p') -> (forall f, x = Some f -> sim (NFactor f) (NFactor f)) ->
  sim (NTerm (Term (Factor n p) x)) (NTerm (Term (Factor n p') x)).
Proof. intros n p p' [f|] H Hx; constructor; try (constructor; exact H). apply Hx. reflexivity. Qed.
Lemma gsim_tsim : forall n p p' x, gsim p p' -> tsim (Term (Factor n p) x) (Term (Factor n p') x).
Proof.
  intros n p p' x H. unfold tsim. cbn. destruct p, p'; cbn in H; try contradiction; destruct x; try exact I. destruct (N.eqb n 1); [exact H|exact I].
Qed.
Lemma sim_cons : forall t t' ts ts', sim (NTerm t) (NTerm t') -> tsim t t' -> sim (NSeq ts) (NSeq ts') -> sim (NSeq (t :: ts)) (NSeq (t' :: ts')).
Proof.
  intros t t' ts ts' H1 H2 H3. unfold tsim in H2. destruct (bare_group t) as [d|] eqn:E, (bare_group t') as [d'|] eqn:E'; try contradiction.
  - eapply sm_seq_group; eauto.
  - eapply sm_seq_cons; eauto.
Qed.
Definition both (p : primary) : Prop := sim (NPrim p) (NPrim p) /\ gsim p p.
Lemma term_refl : forall t, P_term both t -> sim (NTerm t) (NTerm t) /\ tsim t t.
Proof.
  intros [[n p] x] ((Hp & Hg) & Hx). cbn in *. split; [|apply gsim_tsim; exact Hg]. apply sim_term; [exact Hp|].
  intros f ->. destruct f as [m q]. destruct Hx as (Hx & _). constructor. exact Hx.
Qed.
Lemma seq_refl : forall ts, Forall (P_term both) ts -> sim (NSeq ts) (NSeq ts).
Proof. intros ts H. induction H as [|t ts Ht H IH]; [constructor|]. destruct (term_refl _ Ht). apply sim_cons; assumption. Qed.
Lemma sim_alts : forall d d', Forall2 (fun s s' => sim (NSeq s) (NSeq s')) d d' -> d <> [] -> sim (NAlts d) (NAlts d').
Proof.
  intros d d' H. induction H as [|s s' d d' Hs H IH]; intros Hne; [contradiction|].
  inversion H; subst; constructor; try assumption. apply IH. discriminate.
Qed.
Lemma sim_defs : forall d d', Forall2 (fun s s' => sim (NSeq s) (NSeq s')) d d' -> sim (NDefs d) (NDefs d').
Proof.
  intros d d' H. destruct H as [|s s' d d' Hs H]; [constructor|]. destruct H as [|t t' d d' Ht H]; [constructor; assumption|].
  constructor. apply sim_alts; [|discriminate]. repeat constructor; assumption.
Qed.
Lemma defs_refl : forall d, Forall (Forall (P_term both)) d -> sim (NDefs d) (NDefs d).
Proof. intros d H. apply sim_defs. induction H as [|s d Hs H IH]; constructor; [apply seq_refl; exact Hs|exact IH]. Qed.
Lemma prim_refl : forall p, both p.
Proof.
  intros p. induction p as [l d IH|l d IH|l d IH|l id|l w|l w|l] using primary_nested; split; cbn; try exact I; try (constructor; fail).
  all: try constructor; apply defs_refl; exact IH.
Qed.
Lemma all_terms : forall t, P_term both t.
Proof. intros [[n p] x]. split; [apply prim_refl|]. destruct x; [apply prim_refl|exact I]. Qed.
Lemma all_seqs : forall ts, Forall (P_term both) ts.
Proof. intros ts. induction ts; constructor; [apply all_terms|assumption]. Qed.
Lemma sim_refl : forall n, sim n n.
Proof.
  intros n. induction n as [d|d|ts|t|[n p]|p|min max i b IH|l id|id].
  - apply defs_refl. induction d; constructor; [apply all_seqs|assumption].
  - destruct d as [|s d]; [constructor|]. apply sim_alts; [|discriminate]. induction (s :: d); constructor; [apply seq_refl, all_seqs|assumption].
  - apply seq_refl, all_seqs.
  - apply term_refl, all_terms.
  - constructor. apply prim_refl.
  - apply prim_refl.
  - constructor. exact IH.
  - constructor.
  - constructor.
Qed.
Lemma rewrites_sim : forall n n', rewrites lw0 n n' -> sim n n' /\ nsim n n'.
Proof.
  intros n n' H. induction H as [n n' H|n n' H|l d d' H (IH & _)|l d d' H (IH & _)|l d d' H (IH & _)|n p p' x H (IH & IHn)|f n p p' H (IH & IHn)|t t' ts H (IH & IHn)|t ts ts' H (IH & _)|a ts ts' b H (IH & _)]; split;
    try exact I.
  - eapply sm_law; [apply sim_refl|]. left. exact H.
  - apply Hshape in H. destruct n, n'; cbn; try exact I.
    + destruct H as (H1 & H2). unfold tsim. rewrite H1, H2. exact I.
    + destruct H as (H1 & H2). destruct p, p0; try exact I; exfalso; first [apply H1; eexists; eexists; reflexivity|apply H2; eexists; eexists; reflexivity].
  - eapply sm_law; [apply sim_refl|]. right. exact H.
  - apply Hshape in H. destruct n, n'; cbn; try exact I.
    + destruct H as (H1 & H2). unfold tsim. rewrite H1, H2. exact I.
    + destruct H as (H1 & H2). destruct p, p0; try exact I; exfalso; first [apply H1; eexists; eexists; reflexivity|apply H2; eexists; eexists; reflexivity].
  - constructor. exact IH.
  - constructor. exact IH.
  - constructor. exact IH.
  - exact IH.
  - apply sim_term; [exact IH|]. intros f ->. apply sim_refl.
  - apply gsim_tsim. exact IHn.
  - destruct f. constructor; [apply sim_refl|]. constructor. exact IH.
  - cbn. unfold tsim. destruct f as [m q]. cbn. destruct q; exact I.
  - apply sim_cons; [exact IH|exact IHn|apply sim_refl].
  - apply sim_cons; [apply sim_refl|apply term_refl, all_terms|exact IH].
  - apply sim_defs. apply Forall2_app; [induction a; constructor; [apply sim_refl|assumption]|].
    constructor; [exact IH|]. induction b; constructor; [apply sim_refl|assumption].
Qed.
Lemma rewrites_back : forall n n', rewrites lw0 n n' -> rewrites lw0 n' n.
Proof. intros n n' H. induction H; try (constructor; assumption). Qed.
Lemma rules_sim : forall rs rs', rewrites_rules lw0 rs rs' -> Forall2 (sim_rule lw) rs rs'.
Proof.
  intros rs rs' (a & l & id & d & d' & b & -> & -> & H). assert (R : forall r, sim_rule lw r r) by (intros r; split; [reflexivity|]; split; [reflexivity|apply sim_refl]).
  apply Forall2_app; [induction a; constructor; auto|]. constructor; [|induction b; constructor; auto].
  split; [reflexivity|]. split; [reflexivity|]. apply rewrites_sim. exact H.
Qed.
Lemma rules_back : forall rs rs', rewrites_rules lw0 rs rs' -> rewrites_rules lw0 rs' rs.
Proof. intros rs rs' (a & l & id & d & d' & b & -> & -> & H). exists a, l, id, d', d, b. split; [reflexivity|]. split; [reflexivity|]. apply rewrites_back. exact H. Qed.
End Refl.

(** ** Answers of [parse] *)
Section Answers.
Variables rules1 rules2 : list rule.
Variable cfg : config.
Variable EV : list event -> list event -> Prop.
Notation same_outcome := (same_outcome EV).
Variable id : str.
Hypothesis sim_means : forall s o, means rules1 cfg id s o -> exists o', means rules2 cfg id s o' /\ same_outcome o o'.
Definition answer (a b : res (list event)) : Prop :=
  match a, b with
  | Ok x, Ok y => EV x y
  | Err e, Err e' => same_place e e'
  | Panic _, Panic _ => True
  | _, _ => False
  end.
Variable debug : bool.
Hypothesis EVremove : forall a b, EV a b -> EV (remove_empty_pairs a) (remove_empty_pairs b).
Hypothesis EVagree : forall s s' a b, debug = true -> means rules1 cfg id s (Match s' a) -> means rules2 cfg id s (Match s' b) -> EV a b ->
  removed_labels_agree (List.tl a) = removed_labels_agree (List.tl b).
Lemma sim_agree : forall s s' a b, means rules1 cfg id s (Match s' a) -> means rules2 cfg id s (Match s' b) -> EV a b ->
  (debug && negb (removed_labels_agree (List.tl a)) = debug && negb (removed_labels_agree (List.tl b)))%bool.
Proof. intros s s' a b H K E. destruct debug eqn:D; [|reflexivity]. cbn [andb]. f_equal. eapply EVagree; eauto. Qed.
Lemma parse_sim : forall g1 g2 m1 m2 fuel1 rd,
  parser_for rules1 cfg g1 id m1 -> parser_for rules2 cfg g2 id m2 -> reader rd -> ending_of rd = None ->
  fst (parser_parse debug g1 fuel1 m1 rd) <> OutOfFuel ->
  exists f0, forall fuel, f0 <= fuel ->
    answer (fst (parser_parse debug g1 fuel1 m1 rd)) (fst (parser_parse debug g2 fuel m2 rd)).
Proof.
  intros g1 g2 m1 m2 fuel1 rd Hp1 Hp2 Hr He Hf.
  pose proof (parse_sound_api rules1 cfg g1 id m1 debug fuel1 rd Hp1 Hr He) as S.
  destruct (fst (parser_parse debug g1 fuel1 m1 rd)) as [evs|e|p|] eqn:E1; [| | |congruence].
  - destruct S as (raw & Hm & ->). pose proof (parse_all_read _ _ _ _ _ _ Hr E1) as (_ & Hall).
    destruct (parse_complete_api rules1 cfg g1 id m1 debug rd _ Hp1 Hr He Hm) as (f1 & Hf1).
    destruct (sim_means _ _ Hm) as (o' & Hm' & Ho). apply so_match_inv in Ho as (raw' & -> & Hl).
    destruct (parse_complete_api rules2 cfg g2 id m2 debug rd _ Hp2 Hr He Hm') as (f0 & Hf0). exists f0. intros fuel Hle.
    specialize (Hf0 fuel Hle). cbv iota in Hf0. specialize (Hf1 (fuel1 + f1) ltac:(lia)). cbv iota in Hf1.
    pose proof (sim_agree _ _ _ _ Hm Hm' Hl) as Hag.
    change (p_rest (stand (snd (parser_parse debug g1 fuel1 m1 rd)))) with (unread (snd (parser_parse debug g1 fuel1 m1 rd))) in *.
    rewrite Hall in Hf0, Hf1. rewrite <- Hag in Hf0.
    assert (Hok : (debug && negb (removed_labels_agree (List.tl raw)))%bool = false).
    { destruct (debug && negb (removed_labels_agree (List.tl raw)))%bool; [|reflexivity]. exfalso.
      rewrite (parse_more_fuel debug g1 fuel1 (fuel1 + f1) m1 rd) in Hf1 by (lia || (rewrite E1; discriminate)). rewrite E1 in Hf1. discriminate. }
    rewrite Hok in Hf0. rewrite Hf0. cbn. apply EVremove. exact Hl.
  - destruct S as [(s' & raw & Hm)|[(s' & raw & Hm & Hne & ->)|Hm]];
      destruct (sim_means _ _ Hm) as (o' & Hm' & Ho).
    + apply so_no_inv in Ho as (e' & raw' & -> & Hx & _).
      destruct (parse_complete_api rules2 cfg g2 id m2 debug rd _ Hp2 Hr He Hm') as (f0 & Hf0). exists f0. intros fuel Hle.
      specialize (Hf0 fuel Hle). cbv iota in Hf0. rewrite Hf0. exact Hx.
    + apply so_match_inv in Ho as (raw' & -> & Hl).
      destruct (parse_complete_api rules2 cfg g2 id m2 debug rd _ Hp2 Hr He Hm') as (f0 & Hf0). exists f0. intros fuel Hle.
      specialize (Hf0 fuel Hle). cbv iota in Hf0. destruct (p_rest s') as [|c w] eqn:Ep; [contradiction|]. rewrite Hf0.
      apply sp_refl.
    + inversion Ho; subst. destruct (parse_complete_api rules2 cfg g2 id m2 debug rd _ Hp2 Hr He Hm') as (f0 & Hf0). exists f0. intros fuel Hle.
      specialize (Hf0 fuel Hle). cbv iota in Hf0. rewrite Hf0. assumption.
  - destruct S as [Hm|(Hd & s' & raw & Hm & Ha & Hend)];
      destruct (sim_means _ _ Hm) as (o' & Hm' & Ho).
    + inversion Ho; subst. destruct (parse_complete_api rules2 cfg g2 id m2 debug rd _ Hp2 Hr He Hm') as (f0 & Hf0). exists f0. intros fuel Hle.
      destruct (Hf0 fuel Hle) as (q & Hq). rewrite Hq. exact I.
    + apply so_match_inv in Ho as (raw' & -> & Hl). pose proof (sim_agree _ _ _ _ Hm Hm' Hl) as Hag.
      destruct (parse_complete_api rules2 cfg g2 id m2 debug rd _ Hp2 Hr He Hm') as (f0 & Hf0). exists f0. intros fuel Hle.
      specialize (Hf0 fuel Hle). cbv iota in Hf0. rewrite Hend in Hf0. rewrite <- Hag, Hd, Ha in Hf0. cbn [andb negb] in Hf0. rewrite Hd, Hf0. exact I.
Qed.
End Answers.
