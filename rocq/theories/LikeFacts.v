(** Corresponding rules do corresponding things. *)
From Coq Require Import String List NArith Arith Bool Lia.
From Verif Require Import Base Ident Tokenizer Ast Lex Syntax Io Graph Machine SpecText SpecSyntax SpecIo TextFacts SyntaxFacts IoFacts SpecGram SpecParse SpecMachine SpecLike Pure ParseFacts CodeFacts EvFacts MachineFacts FuelFacts.
Import ListNotations.
Open Scope nat_scope.

Scheme like_ind2 := Induction for like Sort Prop
with like_defs_ind2 := Induction for like_defs Sort Prop
with like_seq_ind2 := Induction for like_seq Sort Prop
with like_term_ind2 := Induction for like_term Sort Prop.
Combined Scheme like_mut from like_ind2, like_defs_ind2, like_seq_ind2, like_term_ind2.

Section Like.
Variable L : location -> location -> Prop.
Variables N B X F : str -> str -> Prop.
Variables rules1 rules2 : list rule.
Variables cfg1 cfg2 : config.
Notation like := (like L N).
Notation like_defs := (like_defs L N).
Notation like_seq := (like_seq L N).
Notation like_term := (like_term L N).
Notation like_events := (like_events L B).
Notation like_error := (like_error L X F).
Notation like_sres := (like_sres L B X F).
Notation like_rule := (like_rule L N).
Notation ev1 := (ev rules1 cfg1).
Notation ev2 := (ev rules2 cfg2).

(** Names. *)
Hypothesis Hname : forall id id' r, N id id' -> names rules1 id r ->
  exists r', names rules2 id' r' /\ like_rule r r' /\ B (r_id r) (r_id r').
Hypothesis Hundef : forall id id', N id id' -> defined rules2 id' -> defined rules1 id.
Hypothesis Hfwd : forall id id' r, F id id' -> names rules1 id r ->
  exists r', names rules2 id' r' /\ like_rule r r'.
Hypothesis Hdollar : forall id id' r, F id id' -> In r rules1 -> dollar id r ->
  exists r', In r' rules2 /\ dollar id' r' /\ like_rule r r'.
Hypothesis Hfundef : forall id id', F id id' -> defined rules2 id' -> defined rules1 id.
Hypothesis Hdundef : forall id id' r', F id id' -> In r' rules2 -> dollar id' r' -> exists r, In r rules1 /\ dollar id r.
(** Scanners. *)
Hypothesis Hscan : forall l l' c s a, L l l' -> scanned (cfg1 l c) l s a ->
  exists b, scanned (cfg2 l' c) l' s b /\ like_sres a b.
(** Names of constructs. *)
Hypothesis Xspecial : forall l l' c, L l l' -> X (scanner_symbol (cfg1 l c)) (scanner_symbol (cfg2 l' c)).
Hypothesis Xterm : forall t t', like_term t t' -> X (show_term t) (show_term t').
Hypothesis Xdefs : forall d d', like_defs d d' -> X (defs_name cfg1 d) (defs_name cfg2 d').

Inductive like_factor : factor -> factor -> Prop :=
| lk_factor : forall n p p', like p p' -> like_factor (Factor n p) (Factor n p').
Inductive like_node : node -> node -> Prop :=
| ln_defs : forall d d', like_defs d d' -> like_node (NDefs d) (NDefs d')
| ln_alts : forall d d', like_defs d d' -> like_node (NAlts d) (NAlts d')
| ln_seq : forall s s', like_seq s s' -> like_node (NSeq s) (NSeq s')
| ln_term : forall t t', like_term t t' -> like_node (NTerm t) (NTerm t')
| ln_factor : forall f f', like_factor f f' -> like_node (NFactor f) (NFactor f')
| ln_prim : forall p p', like p p' -> like_node (NPrim p) (NPrim p')
| ln_times : forall min max i b b', like_node b b' -> like_node (NTimes min max i b) (NTimes min max i b')
| ln_ref : forall l l' id id', L l l' -> N id id' -> like_node (NRef l id) (NRef l' id')
| ln_fwd : forall id id', F id id' -> like_node (NFwd id) (NFwd id').
Inductive like_outcome : outcome -> outcome -> Prop :=
| lo_match : forall s a b, like_events a b -> like_outcome (Match s a) (Match s b)
| lo_no : forall e e' s a b, like_error e e' -> like_events a b -> like_outcome (No e s a) (No e' s b)
| lo_halt : forall e e', like_error e e' -> like_outcome (Halt (Failed e)) (Halt (Failed e'))
| lo_crash : like_outcome (Halt Crashed) (Halt Crashed).
Inductive like_halt : halt -> halt -> Prop :=
| lh_failed : forall e e', like_error e e' -> like_halt (Failed e) (Failed e')
| lh_crashed : like_halt Crashed Crashed.

Lemma lo_halt_inv : forall h o, like_outcome (Halt h) o -> exists h', o = Halt h' /\ like_halt h h'.
Proof. intros h o H. inversion H; subst; eexists; split; try reflexivity; constructor; assumption. Qed.
Lemma lo_halt_intro : forall h h', like_halt h h' -> like_outcome (Halt h) (Halt h').
Proof. intros h h' H. inversion H; subst; constructor; assumption. Qed.
Lemma lo_match_inv : forall s a o, like_outcome (Match s a) o -> exists b, o = Match s b /\ like_events a b.
Proof. intros s a o H. inversion H; subst. eauto. Qed.
Lemma lo_no_inv : forall e s a o, like_outcome (No e s a) o -> exists e' b, o = No e' s b /\ like_error e e' /\ like_events a b.
Proof. intros e s a o H. inversion H; subst. eauto. Qed.
Lemma le_nil_inv : forall a, like_events [] a -> a = [].
Proof. intros a H. inversion H. reflexivity. Qed.
Lemma le_app : forall a a' b b', like_events a a' -> like_events b b' -> like_events (a ++ b) (a' ++ b').
Proof. intros. apply Forall2_app; assumption. Qed.
Lemma le_loc : forall e e', like_error e e' -> e_loc e = e_loc e'.
Proof. intros e e' H. inversion H; reflexivity. Qed.
Lemma le_wanted : forall s x x', X x x' -> like_error (wanted s x) (wanted s x').
Proof. intros. apply lx_expected. assumption. Qed.
Lemma le_further : forall a a' b b', like_error a a' -> like_error b b' -> like_error (further a b) (further a' b').
Proof. intros a a' b b' H1 H2. unfold further. rewrite (le_loc _ _ H1), (le_loc _ _ H2). destruct (loc_ltb (e_loc a') (e_loc b')); assumption. Qed.
Lemma like_group : forall t t', like_term t t' ->
  match bare_group t, bare_group t' with
  | Some d, Some d' => like_defs d d'
  | None, None => True
  | _, _ => False
  end.
Proof.
  intros t t' H. inversion H as [n p p' Hp|n p p' m q q' Hp Hq]; subst; cbn.
  - inversion Hp; subst; try exact I. destruct (N.eqb n 1); [assumption|exact I].
  - inversion Hp; subst; exact I.
Qed.
Lemma group_some : forall t t' d, like_term t t' -> bare_group t = Some d -> exists d', bare_group t' = Some d' /\ like_defs d d'.
Proof. intros t t' d H E. apply like_group in H. rewrite E in H. destruct (bare_group t') as [d'|]; [eauto|contradiction]. Qed.
Lemma group_none : forall t t', like_term t t' -> bare_group t = None -> bare_group t' = None.
Proof. intros t t' H E. apply like_group in H. rewrite E in H. destruct (bare_group t') as [d'|]; [contradiction|reflexivity]. Qed.

Definition goal (n : node) (s : pst) (o : outcome) : Prop :=
  forall n', like_node n n' -> exists o', ev2 n' s o' /\ like_outcome o o'.

Ltac opn := match goal with
  | H : like_node (_ _) _ |- _ => inversion H; subst; clear H
  | H : like_node (NTimes _ _ _ _) _ |- _ => inversion H; subst; clear H
  | H : like_node (NRef _ _) _ |- _ => inversion H; subst; clear H
  end.
Ltac opp := match goal with
  | H : SpecLike.like _ _ (_ _) _ |- _ => inversion H; subst; clear H
  | H : SpecLike.like _ _ (_ _ _) _ |- _ => inversion H; subst; clear H
  | H : like_factor (Factor _ _) _ |- _ => inversion H; subst; clear H
  | H : SpecLike.like_term _ _ (Term _ _) _ |- _ => inversion H; subst; clear H
  | H : SpecLike.like_seq _ _ [] _ |- _ => inversion H; subst; clear H
  | H : SpecLike.like_seq _ _ (_ :: _) _ |- _ => inversion H; subst; clear H
  | H : SpecLike.like_defs _ _ [] _ |- _ => inversion H; subst; clear H
  | H : SpecLike.like_defs _ _ (_ :: _) _ |- _ => inversion H; subst; clear H
  end.
Ltac outc := match goal with
  | H : like_outcome (Match _ _) _ |- _ => apply lo_match_inv in H as (? & -> & ?)
  | H : like_outcome (No _ _ _) _ |- _ => apply lo_no_inv in H as (? & ? & -> & ? & ?)
  | H : like_outcome (Halt ?h) _ |- _ => is_var h; apply lo_halt_inv in H as (? & -> & ?)
  | H : SpecLike.like_events _ _ [] _ |- _ => apply le_nil_inv in H; subst
  end.
Ltac ih IH := let o := fresh "o" in let Ho := fresh "Ho" in let He := fresh "He" in
  edestruct IH as (o & He & Ho); [constructor; eassumption|].
Ltac ihf IH := let o := fresh "o" in let Ho := fresh "Ho" in let He := fresh "He" in
  edestruct IH as (o & He & Ho); [apply ln_factor, lk_factor; eassumption|].
Ltac ihd IH := let o := fresh "o" in let Ho := fresh "Ho" in let He := fresh "He" in
  edestruct IH as (o & He & Ho); [apply ln_alts; repeat (apply lk_defs_cons; [eassumption|]); eassumption|].
Ltac scan := match goal with H : scanned (cfg1 ?l ?c) _ _ _, K : L ?l ?l' |- _ =>
  let b := fresh "b" in let Hb := fresh "Hb" in let Hs := fresh "Hs" in
  destruct (Hscan _ _ _ _ _ K H) as (b & Hs & Hb); destruct b; cbn in Hb; try contradiction end.

Lemma like_ev : forall n s o, ev1 n s o -> goal n s o.
Proof.
  intros n s o H. induction H; intros n' Hn; unfold goal in *; opn; repeat opp.
  all: try (eexists; split; [econstructor; eassumption|constructor; solve [assumption|constructor]]).
  - eexists. split; [eapply ev_terminal; eassumption|]. constructor. repeat constructor. assumption.
  - scan. destruct Hb as (-> & Hb). eexists. split; [eapply ev_special; eassumption|]. constructor. assumption.
  - scan. eexists. split; [eapply ev_special_no; eassumption|]. constructor; [apply le_wanted, Xspecial; assumption|constructor].
  - scan. eexists. split; [eapply ev_special_fail; eassumption|]. constructor. assumption.
  - scan. destruct Hb as (-> & Hb). edestruct IHev as (o & He & Ho); [apply ln_fwd; eassumption|]. outc.
    eexists. split; [eapply ev_forward; eassumption|]. constructor. assumption.
  - scan. destruct Hb as (-> & Hb). edestruct IHev as (o & He & Ho); [apply ln_fwd; eassumption|]. outc.
    eexists. split; [eapply ev_forward_no; eassumption|]. constructor. assumption.
  - scan. destruct Hb as (-> & Hb). edestruct IHev as (o & He & Ho); [apply ln_fwd; eassumption|]. outc.
    eexists. split; [eapply ev_forward_halt; eassumption|]. apply lo_halt_intro. assumption.
  - scan. destruct Hb as (-> & Hb). eexists. split; [eapply ev_forward_unknown; [eassumption| |]|].
    + intros K. apply (Hfundef _ _ Hb) in K. contradiction.
    + intros r Hr Hd. destruct (Hdundef _ _ _ Hb Hr Hd) as (r1 & Hr1 & Hd1). eapply H1; eassumption.
    + constructor. apply lx_forward; [assumption|apply Xspecial; assumption|assumption].
  - destruct (IHev (NRef l' id')) as (o' & He & Ho); [constructor; assumption|]. eexists. split; [apply ev_meta; eassumption|assumption].
  - match goal with Hn : N id _, Hr : names _ _ _ |- _ => destruct (Hname _ _ _ Hn Hr) as (r' & Hr' & (Hrl & Hrn & Hrd) & Hb) end.
    destruct (IHev (NDefs (r_defs r'))) as (o' & He & Ho); [constructor; assumption|]. outc.
    eexists. split; [eapply ev_ref; eassumption|]. constructor. apply le_app; [constructor; [constructor; assumption|assumption]|].
    constructor; [constructor; assumption|constructor].
  - match goal with Hn : N id _, Hr : names _ _ _ |- _ => destruct (Hname _ _ _ Hn Hr) as (r' & Hr' & (Hrl & Hrn & Hrd) & Hb) end.
    destruct (IHev (NDefs (r_defs r'))) as (o' & He & Ho); [constructor; assumption|]. outc.
    eexists. split; [eapply ev_ref_no; eassumption|]. constructor; [assumption|constructor].
  - match goal with Hn : N id _, Hr : names _ _ _ |- _ => destruct (Hname _ _ _ Hn Hr) as (r' & Hr' & (Hrl & Hrn & Hrd) & Hb) end.
    destruct (IHev (NDefs (r_defs r'))) as (o' & He & Ho); [constructor; assumption|]. outc.
    eexists. split; [eapply ev_ref_halt; eassumption|]. apply lo_halt_intro. assumption.
  - eexists. split; [eapply ev_ref_undefined|constructor]. intros K. match goal with Hn : N id _ |- _ => apply (Hundef _ _ Hn) in K end. contradiction.
  - destruct (IHev (NTimes 0 1 0 (NDefs d'))) as (o' & He & Ho); [do 2 constructor; assumption|]. eexists. split; [apply ev_optional; eassumption|assumption].
  - destruct (IHev (NTimes 0 max_count 0 (NDefs d'))) as (o' & He & Ho); [do 2 constructor; assumption|]. eexists. split; [apply ev_repeated; eassumption|assumption].
  - destruct (IHev (NDefs d')) as (o' & He & Ho); [constructor; assumption|]. eexists. split; [apply ev_grouped; eassumption|assumption].
  - destruct (IHev b') as (o' & He & Ho); [assumption|]. outc. eexists. split; [eapply ev_times_short; eassumption|]. constructor; [assumption|constructor].
  - destruct (IHev b') as (o' & He & Ho); [assumption|]. outc. eexists. split; [eapply ev_times_stop; eassumption|]. constructor; assumption.
  - destruct (IHev b') as (o' & He & Ho); [assumption|]. outc. eexists. split; [eapply ev_times_livelock; [assumption|reflexivity|eassumption|assumption]|]. constructor. constructor.
  - destruct (IHev b') as (o' & He & Ho); [assumption|]. outc. eexists. split; [eapply ev_times_halt; eassumption|]. apply lo_halt_intro. assumption.
  - destruct (IHev1 b') as (o' & He & Ho); [assumption|]. outc. destruct (IHev2 (NTimes min max (i + 1) b')) as (o2 & He2 & Ho2); [constructor; assumption|]. outc.
    eexists. split; [eapply ev_times_more; eassumption|]. constructor. apply le_app; assumption.
  - destruct (IHev1 b') as (o' & He & Ho); [assumption|]. outc. destruct (IHev2 (NTimes min max (i + 1) b')) as (o2 & He2 & Ho2); [constructor; assumption|]. outc. outc.
    eexists. split; [eapply ev_times_no; eassumption|]. constructor; [assumption|constructor].
  - destruct (IHev1 b') as (o' & He & Ho); [assumption|]. outc. destruct (IHev2 (NTimes min max (i + 1) b')) as (o2 & He2 & Ho2); [constructor; assumption|]. outc.
    eexists. split; [eapply ev_times_more_halt; eassumption|]. apply lo_halt_intro. assumption.
  - ih IHev. eexists. split; [apply ev_factor_one; eassumption|assumption].
  - edestruct IHev as (o' & He & Ho); [apply ln_times, ln_prim; eassumption|]. eexists. split; [apply ev_factor_many; eassumption|assumption].
  - ihf IHev. eexists. split; [apply ev_term_plain; eassumption|assumption].
  - ihf IHev. outc. eexists. split; [eapply ev_term_no; eassumption|]. constructor; [assumption|constructor].
  - ihf IHev. outc. eexists. split; [eapply ev_term_halt; eassumption|]. apply lo_halt_intro. assumption.
  - ihf IHev1. outc. ihf IHev2. outc. eexists. split; [eapply ev_term_excepted; eassumption|].
    constructor; [apply le_wanted, Xterm; constructor; assumption|constructor].
  - ihf IHev1. outc. ihf IHev2. eexists. split; [eapply ev_term_kept; [eassumption|eassumption|eassumption|]|constructor; assumption].
    destruct H2 as [(s2 & e2 & Eo & K)|(y & s2 & e2 & Eo)]; rewrite Eo in *; outc.
    + left. eauto.
    + right. eauto.
  - ihf IHev1. outc. ihf IHev2. outc. eexists. split; [eapply ev_term_exc_halt; eassumption|]. apply lo_halt_intro. assumption.
  - match goal with K : SpecLike.like_term _ _ t _, E : bare_group t = _ |- _ => destruct (group_some _ _ _ K E) as (d' & E' & Hd') end.
    ih IHev. eexists. split; [eapply ev_seq_group; eassumption|assumption].
  - match goal with K : SpecLike.like_term _ _ t _, E : bare_group t = _ |- _ => pose proof (group_none _ _ K E) as E' end.
    ih IHev1. outc. ih IHev2. eexists. split; [eapply ev_seq; eassumption|].
    match goal with Ho : like_outcome o _ |- _ => inversion Ho; subst; cbn [before]; constructor; try assumption; apply le_app; assumption end.
  - match goal with K : SpecLike.like_term _ _ t _, E : bare_group t = _ |- _ => pose proof (group_none _ _ K E) as E' end.
    ih IHev. outc. eexists. split; [eapply ev_seq_no; eassumption|]. constructor; assumption.
  - match goal with K : SpecLike.like_term _ _ t _, E : bare_group t = _ |- _ => pose proof (group_none _ _ K E) as E' end.
    ih IHev. outc. eexists. split; [eapply ev_seq_halt; eassumption|]. apply lo_halt_intro. assumption.
  - ih IHev. eexists. split; [eapply ev_defs_one; eassumption|assumption].
  - ihd IHev. outc. eexists. split; [eapply ev_defs; eassumption|]. constructor; assumption.
  - ihd IHev. outc. eexists. split; [eapply ev_defs_halt; eassumption|]. apply lo_halt_intro; assumption.
  - ihd IHev. outc. match goal with K : SpecLike.like_error _ _ _ e _ |- _ => pose proof (le_loc _ _ K) as Hx end.
    eexists. split; [eapply ev_defs_here; [eassumption|congruence]|]. constructor; [apply le_wanted, Xdefs; repeat constructor; assumption|assumption].
  - ihd IHev. outc. match goal with K : SpecLike.like_error _ _ _ e _ |- _ => pose proof (le_loc _ _ K) as Hx end.
    eexists. split; [eapply ev_defs_ahead; [eassumption|congruence]|]. constructor; assumption.
  - ih IHev. outc. eexists. split; [eapply ev_alts_first; eassumption|]. constructor; assumption.
  - ih IHev. outc. eexists. split; [eapply ev_alts_halt; eassumption|]. apply lo_halt_intro; assumption.
  - ih IHev. outc. eexists. split; [eapply ev_alts_last; eassumption|]. constructor; [assumption|constructor].
  - ih IHev1. outc. ih IHev2. outc. eexists. split; [eapply ev_alts_next; eassumption|]. constructor; assumption.
  - ih IHev1. outc. ih IHev2. outc. outc. eexists. split; [eapply ev_alts_no; eassumption|]. constructor; [apply le_further; assumption|constructor].
  - ih IHev1. outc. ih IHev2. outc. eexists. split; [eapply ev_alts_next_halt; eassumption|]. apply lo_halt_intro; assumption.
  - match goal with Hf : F id _, Hr : names _ _ _ |- _ => destruct (Hfwd _ _ _ Hf Hr) as (r' & Hr' & Hrl & Hrn & Hrd) end.
    ih IHev. eexists. split; [eapply ev_fwd; eassumption|assumption].
  - match goal with Hf : F id _, Hr : In r _, Hd : dollar _ _ |- _ => destruct (Hdollar _ _ _ Hf Hr Hd) as (r' & Hr' & Hd' & Hrl & Hrn & Hrd) end.
    ih IHev. eexists. split; [eapply ev_fwd_alias; eassumption|assumption].
Qed.

(** ** Answers of [parse] *)
Hypothesis Xeof : X (of_string "EOF") (of_string "EOF").
Hypothesis Bone : forall a b a' b', B a b -> B a' b' -> (a = a' <-> b = b').
Lemma remove_like_n : forall n a b, length a <= n -> like_events a b -> like_events (remove_pairs a) (remove_pairs b).
Proof.
  induction n as [|n IH]; intros a b Hn H.
  { destruct a; [|cbn in Hn; lia]. apply le_nil_inv in H. subst. constructor. }
  destruct H as [|x y a b Hxy H]; [constructor|]. cbn [length] in Hn.
  destruct Hxy as [d d' l w Hd|d d' l p q Hd Hb|d d' l p q Hd Hb].
  - cbn [remove_pairs]. constructor; [constructor; assumption|]. apply IH; [lia|assumption].
  - destruct H as [|x y a b Hxy H]; [constructor; [constructor; assumption|constructor]|]. cbn [length] in Hn.
    destruct Hxy as [e e' l2 w He|e e' l2 p2 q2 He Hb2|e e' l2 p2 q2 He Hb2].
    + change (like_events (EvBegin d l p :: remove_pairs (EvToken e l2 w :: a)) (EvBegin d' l q :: remove_pairs (EvToken e' l2 w :: b))).
      constructor; [constructor; assumption|]. apply IH; [cbn; lia|]. constructor; [constructor; assumption|assumption].
    + change (like_events (EvBegin d l p :: remove_pairs (EvBegin e l2 p2 :: a)) (EvBegin d' l q :: remove_pairs (EvBegin e' l2 q2 :: b))).
      constructor; [constructor; assumption|]. apply IH; [cbn; lia|]. constructor; [constructor; assumption|assumption].
    + cbn [remove_pairs]. apply IH; [lia|assumption].
  - cbn [remove_pairs]. constructor; [constructor; assumption|]. apply IH; [lia|assumption].
Qed.
Lemma remove_like : forall a b, like_events a b -> like_events (remove_empty_pairs a) (remove_empty_pairs b).
Proof. intros a b H. destruct H as [|x y a b Hxy H]; [constructor|]. constructor; [assumption|]. eapply remove_like_n; [apply le_n|assumption]. Qed.
Lemma agree_like_n : forall n a b, length a <= n -> like_events a b -> removed_labels_agree a = removed_labels_agree b.
Proof.
  induction n as [|n IH]; intros a b Hn H.
  { destruct a; [|cbn in Hn; lia]. apply le_nil_inv in H. subst. reflexivity. }
  destruct H as [|x y a b Hxy H]; [reflexivity|]. cbn [length] in Hn.
  destruct Hxy as [d d' l w Hd|d d' l p q Hd Hb|d d' l p q Hd Hb].
  - cbn [removed_labels_agree]. apply IH; [lia|assumption].
  - destruct H as [|x y a b Hxy H]; [reflexivity|]. cbn [length] in Hn.
    destruct Hxy as [e e' l2 w He|e e' l2 p2 q2 He Hb2|e e' l2 p2 q2 He Hb2].
    + change (removed_labels_agree (EvToken e l2 w :: a) = removed_labels_agree (EvToken e' l2 w :: b)).
      apply IH; [cbn; lia|]. constructor; [constructor; assumption|assumption].
    + change (removed_labels_agree (EvBegin e l2 p2 :: a) = removed_labels_agree (EvBegin e' l2 q2 :: b)).
      apply IH; [cbn; lia|]. constructor; [constructor; assumption|assumption].
    + cbn [removed_labels_agree]. rewrite (IH a b) by (lia || assumption). f_equal.
      pose proof (Bone _ _ _ _ Hb Hb2) as K. destruct (str_eqb p p2) eqn:E1; destruct (str_eqb q q2) eqn:E2; try reflexivity; exfalso.
      * apply str_eqb_eq in E1. apply K in E1. subst. rewrite str_eqb_refl in E2. discriminate.
      * apply str_eqb_eq in E2. apply K in E2. subst. rewrite str_eqb_refl in E1. discriminate.
  - cbn [removed_labels_agree]. apply IH; [lia|assumption].
Qed.
Lemma agree_like : forall a b, like_events a b -> removed_labels_agree (List.tl a) = removed_labels_agree (List.tl b).
Proof. intros a b H. destruct H as [|x y a b Hxy H]; [reflexivity|]. cbn. eapply agree_like_n; [apply le_n|assumption]. Qed.

Definition start_like (id id' : str) : Prop :=
  forall r, names rules1 id r -> exists r', names rules2 id' r' /\ like_rule r r'.
Lemma means_like : forall id id' s o, start_like id id' -> means rules1 cfg1 id s o -> exists o', means rules2 cfg2 id' s o' /\ like_outcome o o'.
Proof.
  intros id id' s o Hn (r & Hr & Ho). destruct (Hn _ Hr) as (r' & Hr' & Hl & Hi & Hd).
  destruct (like_ev _ _ _ Ho (NRef (r_loc r') (r_id r'))) as (o' & He & Hlo); [constructor; assumption|].
  exists o'. split; [exists r'; auto|exact Hlo].
Qed.
Lemma parse_like : forall g1 g2 id id' m1 m2 debug fuel1 rd, start_like id id' ->
  parser_for rules1 cfg1 g1 id m1 -> parser_for rules2 cfg2 g2 id' m2 -> reader rd -> ending_of rd = None ->
  fst (parser_parse debug g1 fuel1 m1 rd) <> OutOfFuel ->
  exists f0, forall fuel, f0 <= fuel ->
    like_answer L B X F (fst (parser_parse debug g1 fuel1 m1 rd)) (fst (parser_parse debug g2 fuel m2 rd)).
Proof.
  intros g1 g2 id id' m1 m2 debug fuel1 rd Hn Hp1 Hp2 Hr He Hf.
  pose proof (parse_sound_api rules1 cfg1 g1 id m1 debug fuel1 rd Hp1 Hr He) as S.
  destruct (fst (parser_parse debug g1 fuel1 m1 rd)) as [evs|e|p|] eqn:E1; [| | |congruence].
  - destruct S as (raw & Hm & ->). pose proof (parse_all_read _ _ _ _ _ _ Hr E1) as (_ & Hall).
    destruct (parse_complete_api rules1 cfg1 g1 id m1 debug rd _ Hp1 Hr He Hm) as (f1 & Hf1).
    destruct (means_like _ _ _ _ Hn Hm) as (o' & Hm' & Ho). apply lo_match_inv in Ho as (raw' & -> & Hl).
    destruct (parse_complete_api rules2 cfg2 g2 id' m2 debug rd _ Hp2 Hr He Hm') as (f0 & Hf0). exists f0. intros fuel Hle.
    specialize (Hf0 fuel Hle). cbv iota in Hf0. specialize (Hf1 (fuel1 + f1) ltac:(lia)). cbv iota in Hf1.
    change (p_rest (stand (snd (parser_parse debug g1 fuel1 m1 rd)))) with (unread (snd (parser_parse debug g1 fuel1 m1 rd))) in *.
    rewrite Hall in Hf0, Hf1. rewrite <- (agree_like _ _ Hl) in Hf0.
    assert (Hok : (debug && negb (removed_labels_agree (List.tl raw)))%bool = false).
    { destruct (debug && negb (removed_labels_agree (List.tl raw)))%bool; [|reflexivity]. exfalso.
      rewrite (parse_more_fuel debug g1 fuel1 (fuel1 + f1) m1 rd) in Hf1 by (lia || (rewrite E1; discriminate)). rewrite E1 in Hf1. discriminate. }
    rewrite Hok in Hf0. rewrite Hf0. cbn. apply remove_like. exact Hl.
  - destruct S as [(s' & raw & Hm)|[(s' & raw & Hm & Hne & ->)|Hm]];
      destruct (means_like _ _ _ _ Hn Hm) as (o' & Hm' & Ho).
    + apply lo_no_inv in Ho as (e' & raw' & -> & Hx & _).
      destruct (parse_complete_api rules2 cfg2 g2 id' m2 debug rd _ Hp2 Hr He Hm') as (f0 & Hf0). exists f0. intros fuel Hle.
      specialize (Hf0 fuel Hle). cbv iota in Hf0. rewrite Hf0. exact Hx.
    + apply lo_match_inv in Ho as (raw' & -> & Hl).
      destruct (parse_complete_api rules2 cfg2 g2 id' m2 debug rd _ Hp2 Hr He Hm') as (f0 & Hf0). exists f0. intros fuel Hle.
      specialize (Hf0 fuel Hle). cbv iota in Hf0. destruct (p_rest s') as [|c w] eqn:Ep; [contradiction|]. rewrite Hf0.
      apply le_wanted. exact Xeof.
    + inversion Ho; subst. destruct (parse_complete_api rules2 cfg2 g2 id' m2 debug rd _ Hp2 Hr He Hm') as (f0 & Hf0). exists f0. intros fuel Hle.
      specialize (Hf0 fuel Hle). cbv iota in Hf0. rewrite Hf0. assumption.
  - destruct S as [Hm|(-> & s' & raw & Hm & Ha & Hend)];
      destruct (means_like _ _ _ _ Hn Hm) as (o' & Hm' & Ho).
    + inversion Ho; subst. destruct (parse_complete_api rules2 cfg2 g2 id' m2 debug rd _ Hp2 Hr He Hm') as (f0 & Hf0). exists f0. intros fuel Hle.
      destruct (Hf0 fuel Hle) as (q & Hq). rewrite Hq. exact I.
    + apply lo_match_inv in Ho as (raw' & -> & Hl).
      destruct (parse_complete_api rules2 cfg2 g2 id' m2 true rd _ Hp2 Hr He Hm') as (f0 & Hf0). exists f0. intros fuel Hle.
      specialize (Hf0 fuel Hle). cbv iota in Hf0. rewrite Hend in Hf0. rewrite <- (agree_like _ _ Hl), Ha in Hf0. rewrite Hf0. exact I.
Qed.
End Like.
