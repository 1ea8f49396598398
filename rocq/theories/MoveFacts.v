(** A text at another place gives the same events at other places. *)
From Coq Require Import String List NArith Arith Bool Lia.
From Verif Require Import Base Ident Tokenizer Ast Lex Syntax Io Graph Machine SpecText SpecSyntax SpecIo TextFacts SyntaxFacts IoFacts SpecGram SpecParse SpecMachine SpecLike SpecMove TokRun Pure ParseFacts CodeFacts EvFacts MachineFacts FuelFacts.
Import ListNotations.
Open Scope nat_scope.

Section Facts.
Variables a b : location.
Notation shifted := (shifted a b).
Notation shifted_error := (shifted_error a b).
Notation shifted_events := (shifted_events a b).
Notation shifted_event := (shifted_event a b).
Notation shifted_prog := (shifted_prog a b).

(** ** Locations *)
Lemma shifted_refl : shifted a b.
Proof. split; [reflexivity|]. split; [reflexivity|]. left. exists 0%N. lia. Qed.
Lemma shifted_push : forall w l l', shifted l l' -> shifted (loc_push_str l w) (loc_push_str l' w).
Proof.
  induction w as [|c w IH]; intros l l' H; [exact H|]. cbn [loc_push_str fold_left]. apply IH. destruct H as (A1 & A2 & A3). unfold loc_push.
  destruct (N.eqb c c_lf); (split; [exact A1|]; split; [exact A2|]); cbn [l_lines l_columns].
  - right. destruct A3 as [(n & ? & ? & ? & ?)|(k & ? & ? & ? & ?)]; [exists 1%N; lia|exists (k + 1)%N; lia].
  - destruct A3 as [(n & ? & ? & ? & ?)|(k & ? & ? & ? & ?)]; [left; exists (n + 1)%N; lia|right; exists k; lia].
Qed.
Lemma shifted_go : forall l l' w m, shifted l l' -> reaches l w m -> exists m', reaches l' w m' /\ shifted m m'.
Proof.
  intros l l' w m H R. apply reaches_push in R. subst m. exists (loc_push_str l' w). split; [apply reaches_push; reflexivity|apply shifted_push; exact H].
Qed.
Lemma shifted_one : forall l l' m m', shifted l l' -> shifted m m' -> (l = m <-> l' = m').
Proof.
  intros [n1 i1 c1] [n2 i2 c2] [n3 i3 c3] [n4 i4 c4] (A1 & A2 & A3) (B1 & B2 & B3); cbn in *; subst.
  destruct A3 as [(n & ? & ? & ? & ?)|(k & ? & ? & ? & ?)]; destruct B3 as [(n' & ? & ? & ? & ?)|(k' & ? & ? & ? & ?)]; subst;
    split; intros E; injection E; intros; f_equal; lia.
Qed.
Lemma str_cmp_same : forall s, str_cmp s s = Eq.
Proof. induction s as [|c s IH]; [reflexivity|]. cbn. rewrite N.compare_refl. exact IH. Qed.
Lemma compare_eq : forall x y x' y' : N, ((x < y)%N <-> (x' < y')%N) -> (x = y <-> x' = y') -> N.compare x y = N.compare x' y'.
Proof. intros x y x' y' A B. destruct (N.compare_spec x y); destruct (N.compare_spec x' y'); try reflexivity; exfalso; lia. Qed.
Lemma shifted_lt : forall l l' m m', shifted l l' -> shifted m m' -> loc_ltb l m = loc_ltb l' m'.
Proof.
  intros [n1 i1 c1] [n2 i2 c2] [n3 i3 c3] [n4 i4 c4] (A1 & A2 & A3) (B1 & B2 & B3). unfold loc_ltb, loc_partial_cmp. cbn in *. subst.
  rewrite !str_cmp_same.
  assert (E : N.compare i1 i3 = N.compare i2 i4).
  { apply compare_eq; destruct A3 as [(n & ? & ? & ? & ?)|(k & ? & ? & ? & ?)]; destruct B3 as [(n' & ? & ? & ? & ?)|(k' & ? & ? & ? & ?)]; lia. }
  rewrite E. destruct (N.compare_spec i2 i4) as [K|K|K]; [|reflexivity|reflexivity].
  assert (E' : N.compare c1 c3 = N.compare c2 c4).
  { apply compare_eq; destruct A3 as [(n & ? & ? & ? & ?)|(k & ? & ? & ? & ?)]; destruct B3 as [(n' & ? & ? & ? & ?)|(k' & ? & ? & ? & ?)]; lia. }
  rewrite E'. reflexivity.
Qed.

(** ** Places *)
Definition at_place (s t : pst) : Prop := p_rest s = p_rest t /\ shifted (p_at s) (p_at t).
Lemma place_go : forall s t w s', at_place s t -> goes s w s' -> exists t', goes t w t' /\ at_place s' t'.
Proof.
  intros s t w s' (E & M) (H & R). destruct (shifted_go _ _ _ _ M R) as (m' & R' & M'). exists (Pst (p_rest s') m').
  split; [split; [cbn; congruence|exact R']|]. split; [reflexivity|exact M'].
Qed.
Lemma place_go_back : forall s t w t', at_place s t -> goes t w t' -> exists s', goes s w s'.
Proof.
  intros s t w t' (E & M) (H & R). exists (Pst (p_rest t') (loc_push_str (p_at s) w)). split; [cbn; congruence|apply reaches_push; reflexivity].
Qed.
Lemma goes_one : forall s w s1 s2, goes s w s1 -> goes s w s2 -> s1 = s2.
Proof.
  intros s w [r1 l1] [r2 l2] (A & B) (C & D). cbn in *. rewrite A in C. apply app_inv_head in C. subst. f_equal. eapply reaches_unique; eassumption.
Qed.
(** Two places with what lies between them. *)
Lemma place_go2 : forall s t w s' t', at_place s t -> at_place s' t' -> goes s w s' -> goes t w t'.
Proof.
  intros s t w s' t' (E & M) (E' & M') (H & R). destruct (shifted_go _ _ _ _ M R) as (m' & R' & K). split; [congruence|].
  assert (m' = p_at t') by (apply (shifted_one _ _ _ _ K M'); reflexivity). subst. exact R'.
Qed.

(** ** Scanners *)
Definition shifted_sres (x y : sres) : Prop :=
  match x, y with
  | SMatch s evs, SMatch t evs' => at_place s t /\ shifted_events evs evs'
  | SUnmatch, SUnmatch => True
  | SForward id s, SForward id' t => id = id' /\ at_place s t
  | SFail e, SFail e' => shifted_error e e'
  | _, _ => False
  end.
Lemma at_length : forall x y, Forall2 at_place x y -> length x = length y.
Proof. intros x y H. induction H; cbn; congruence. Qed.
Lemma place_middle : forall newer s older own, Forall2 at_place (newer ++ s :: older) own ->
  exists newer' t older', own = newer' ++ t :: older' /\ length newer' = length newer /\ at_place s t /\ Forall2 at_place older older'.
Proof.
  intros newer s older own H. apply Forall2_app_inv_l in H as (n' & o' & Hn & Ho & ->). inversion Ho; subst.
  eexists _, _, _. split; [reflexivity|]. split; [symmetry; apply at_length; assumption|]. split; assumption.
Qed.
Lemma shifted_programmed : forall own p s r, programmed own p s r -> forall own' p' t, Forall2 at_place own own' -> shifted_prog p p' -> at_place s t ->
  exists r', programmed own' p' t r' /\ shifted_sres r r'.
Proof.
  intros own p s r H. induction H; intros own' p' t Ho Hp Ht; inversion Hp; subst.
  - exists (reacts t r'). split; [constructor|]. destruct r, r'; cbn in *; try contradiction; auto.
  - eexists. split; [constructor|]. assumption.
  - destruct (place_go _ _ _ _ Ht H) as (t' & G & T). edestruct IHprogrammed as (r' & P & S); [eassumption|eauto|exact T|]. exists r'. split; [eapply pg_char; eassumption|exact S].
  - edestruct IHprogrammed as (r' & P & S); [eassumption|eauto|exact Ht|]. exists r'. split; [apply pg_end; [destruct Ht; congruence|exact P]|exact S].
  - edestruct IHprogrammed as (r' & P & S); [eassumption|match goal with K : forall l l', SpecMove.shifted _ _ l l' -> _ |- _ => apply K, Ht end|exact Ht|]. exists r'. split; [apply pg_loc; exact P|exact S].
  - edestruct IHprogrammed as (r' & P & S); [eassumption|eauto|exact Ht|]. exists r'. split; [eapply pg_eof; [destruct Ht as (E & _); rewrite <- E; exact H|exact P]|exact S].
  - edestruct IHprogrammed as (r' & P & S); [eassumption|eauto|exact Ht|]. exists r'. split; [eapply pg_prefix; [destruct Ht as (E & _); rewrite <- E; exact H|exact P]|exact S].
  - destruct (place_go _ _ _ _ Ht H) as (t' & G & T). edestruct IHprogrammed as (r' & P & S); [eassumption|eauto|exact Ht|]. exists r'. split; [eapply pg_peek; [exact G|exact H0| |exact P]|exact S].
    destruct T as (E & _). rewrite <- E. assumption.
  - destruct (place_go _ _ _ _ Ht H) as (t' & G & T). edestruct IHprogrammed as (r' & P & S); [eassumption|eauto|exact T|]. exists r'. split; [eapply pg_skip; [exact G|exact H0| |exact P]|exact S].
    destruct T as (E & _). rewrite <- E. assumption.
  - edestruct IHprogrammed as (r' & P & S); [constructor; eassumption|eassumption|exact Ht|]. exists r'. split; [apply pg_mark; exact P|exact S].
  - destruct (place_middle _ _ _ _ Ho) as (n' & t' & o' & -> & L & T & Ho'). edestruct IHprogrammed as (r' & P & S); [eassumption|eauto|exact T|].
    exists r'. split; [|exact S]. rewrite <- L. eapply pg_reset; [|exact P]. destruct Ht as (<- & _), T as (<- & _). exact H.
  - destruct (place_middle _ _ _ _ Ho) as (n' & t' & o' & -> & L & T & Ho'). edestruct IHprogrammed as (r' & P & S); [eassumption|eauto|exact Ht|].
    exists r'. split; [|exact S]. rewrite <- L. eapply pg_unmark; exact P.
  - edestruct IHprogrammed as (r' & P & S); [eassumption|eauto|exact Ht|]. exists r'. split; [|exact S]. apply pg_no_reset; [rewrite <- (at_length _ _ Ho); assumption|exact P].
  - edestruct IHprogrammed as (r' & P & S); [eassumption|eauto|exact Ht|]. exists r'. split; [|exact S]. apply pg_no_unmark; [rewrite <- (at_length _ _ Ho); assumption|exact P].
Qed.
Lemma place_run : forall pred max s t w s', at_place s t -> longest_run pred max s w s' -> exists t', longest_run pred max t w t' /\ at_place s' t'.
Proof.
  intros pred max s t w s' Ht (G & F & M & E). destruct (place_go _ _ _ _ Ht G) as (t' & G' & T). exists t'. split; [|exact T].
  split; [exact G'|]. split; [exact F|]. split; [exact M|]. destruct T as (<- & _). exact E.
Qed.
Lemma place_token : forall d s t w, at_place s t -> shifted_events [EvToken d (p_at s) w] [EvToken d (p_at t) w].
Proof. intros d s t w (_ & M). constructor; [apply sv_token; exact M|constructor]. Qed.
Lemma shifted_scanned : forall sc def s t r, match sc with ScUser _ prog => shifted_prog (prog def) (prog def) | _ => True end ->
  at_place s t -> scanned sc def s r -> exists r', scanned sc def t r' /\ shifted_sres r r'.
Proof.
  intros sc def s t r Hs Ht H. assert (W : window s = window t) by (unfold window; rewrite (proj1 Ht); reflexivity).
  inversion H; subst.
  - eexists. split; [constructor|]. split; [exact Ht|constructor].
  - destruct (place_run _ _ _ _ _ _ Ht H0) as (t' & R & T). eexists. split; [eapply sn_chars; eassumption|]. split; [exact T|apply place_token; exact Ht].
  - destruct (place_run _ _ _ _ _ _ Ht H0) as (t' & R & T). eexists. split; [eapply sn_chars_no; eassumption|]. exact I.
  - rewrite W in *. destruct (place_go _ _ _ _ Ht H1) as (t' & G & T). eexists. split; [eapply sn_regex; eassumption|]. split; [exact T|apply place_token; exact Ht].
  - rewrite W in *. eexists. split; [eapply sn_regex_long; eassumption|]. split; [reflexivity|apply Ht].
  - rewrite W in *. eexists. split; [eapply sn_regex_no; eassumption|]. exact I.
  - destruct (shifted_programmed _ _ _ _ H0 [] (prog def) t (Forall2_nil _) Hs Ht) as (r' & P & S). exists r'. split; [constructor; exact P|exact S].
Qed.

(** ** Rules *)
Section Rules.
Variable rules : list rule.
Variable cfg : config.
Hypothesis Hcfg : forall l c, match cfg l c with ScUser _ prog => shifted_prog (prog l) (prog l) | _ => True end.
Notation ev := (ev rules cfg).
Inductive shifted_outcome : outcome -> outcome -> Prop :=
| sh_match : forall s t x y, at_place s t -> shifted_events x y -> shifted_outcome (Match s x) (Match t y)
| sh_no : forall e e' s t x y, shifted_error e e' -> at_place s t -> shifted_events x y -> shifted_outcome (No e s x) (No e' t y)
| sh_halt : forall e e', shifted_error e e' -> shifted_outcome (Halt (Failed e)) (Halt (Failed e'))
| sh_crash : shifted_outcome (Halt Crashed) (Halt Crashed).
Inductive shifted_halt : halt -> halt -> Prop :=
| shh_failed : forall e e', shifted_error e e' -> shifted_halt (Failed e) (Failed e')
| shh_crashed : shifted_halt Crashed Crashed.
Lemma sh_halt_inv : forall h o, shifted_outcome (Halt h) o -> exists h', o = Halt h' /\ shifted_halt h h'.
Proof. intros h o H. inversion H; subst; eexists; split; try reflexivity; constructor; assumption. Qed.
Lemma sh_halt_intro : forall h h', shifted_halt h h' -> shifted_outcome (Halt h) (Halt h').
Proof. intros h h' H. inversion H; subst; constructor; assumption. Qed.
Lemma sh_match_inv : forall s x o, shifted_outcome (Match s x) o -> exists t y, o = Match t y /\ at_place s t /\ shifted_events x y.
Proof. intros s x o H. inversion H; subst. eauto. Qed.
Lemma sh_no_inv : forall e s x o, shifted_outcome (No e s x) o -> exists e' t y, o = No e' t y /\ shifted_error e e' /\ at_place s t /\ shifted_events x y.
Proof. intros e s x o H. inversion H; subst. eexists _, _, _. eauto. Qed.
Lemma sh_nil_inv : forall x, shifted_events [] x -> x = [].
Proof. intros x H. inversion H. reflexivity. Qed.
Lemma sh_app : forall x x' y y', shifted_events x x' -> shifted_events y y' -> shifted_events (x ++ y) (x' ++ y').
Proof. intros. apply Forall2_app; assumption. Qed.
Lemma sh_nil : shifted_events [] [].
Proof. constructor. Qed.
Lemma sh_wanted : forall s t x, at_place s t -> shifted_error (wanted s x) (wanted t x).
Proof. intros s t x (E & M). split; [cbn; rewrite E; reflexivity|exact M]. Qed.
Lemma sh_further : forall x x' y y', shifted_error x x' -> shifted_error y y' -> shifted_error (further x y) (further x' y').
Proof. intros x x' y y' H1 H2. unfold further. rewrite (shifted_lt _ _ _ _ (proj2 H1) (proj2 H2)). destruct (loc_ltb (e_loc x') (e_loc y')); assumption. Qed.
Lemma same_spot : forall s t s' t', at_place s t -> at_place s' t' -> (p_at s = p_at s' <-> p_at t = p_at t').
Proof. intros s t s' t' (_ & A) (_ & B). apply shifted_one; assumption. Qed.
Lemma place_one : forall s t t', at_place s t -> at_place s t' -> t = t'.
Proof.
  intros s [r l] [r' l'] (A & B) (C & D). cbn in *. assert (l = l') by (apply (shifted_one _ _ _ _ B D); reflexivity). congruence.
Qed.
Lemma place_within : forall s t w, at_place s t -> at_place (Pst w (p_at s)) (Pst w (p_at t)).
Proof. intros s t w (_ & M). split; [reflexivity|exact M]. Qed.

Ltac outc := match goal with
  | H : shifted_outcome (Match _ _) _ |- _ => apply sh_match_inv in H as (? & ? & -> & ? & ?)
  | H : shifted_outcome (No _ _ _) _ |- _ => apply sh_no_inv in H as (? & ? & ? & -> & ? & ? & ?)
  | H : shifted_outcome (Halt ?h) _ |- _ => is_var h; apply sh_halt_inv in H as (? & -> & ?)
  | H : SpecMove.shifted_events _ _ [] _ |- _ => apply sh_nil_inv in H; subst
  end.
Ltac ih IH := let o := fresh "o" in let Ho := fresh "Ho" in let He := fresh "He" in
  edestruct IH as (o & He & Ho); [eassumption|]; repeat outc.
Ltac scan := match goal with H : scanned (cfg ?l ?c) _ ?s _, K : at_place ?s ?t |- _ =>
  let r := fresh "r" in let Hr := fresh "Hr" in let Hs := fresh "Hs" in
  destruct (shifted_scanned _ _ _ _ _ (Hcfg l c) K H) as (r & Hs & Hr); destruct r; cbn in Hr; try contradiction end.
Ltac fin := first [assumption | apply sh_nil | apply sh_wanted; assumption | apply sh_app; assumption | apply sh_further; assumption].
Ltac done := eexists; split; [econstructor; eassumption|first [assumption | constructor; fin | apply sh_halt_intro; assumption]].
Lemma shifted_ev : forall n s o, ev n s o -> forall u, at_place s u -> exists o', ev n u o' /\ shifted_outcome o o'.
Proof.
  intros n s o H. induction H; intros u Hu.
  all: try (done; fail).
  all: try (ih IHev; done; fail).
  - destruct (place_go _ _ _ _ Hu H) as (t' & G & T). eexists. split; [apply ev_terminal; exact G|]. constructor; [exact T|apply place_token; exact Hu].
  - eexists. split; [apply ev_terminal_no|constructor; fin]. intros t' G. destruct (place_go_back _ _ _ _ Hu G) as (s' & K). exact (H _ K).
  - scan. destruct Hr as (T & E). done.
  - scan. done.
  - scan. done.
  - scan. destruct Hr as (<- & T). ih IHev. done.
  - scan. destruct Hr as (<- & T). ih IHev. eexists. split; [eapply ev_forward_no; eassumption|constructor; assumption].
  - scan. destruct Hr as (<- & T). ih IHev. eexists. split; [eapply ev_forward_halt; eassumption|apply sh_halt_intro; assumption].
  - scan. destruct Hr as (<- & T). eexists. split; [eapply ev_forward_unknown; eassumption|]. constructor. split; [reflexivity|apply Hu].
  - ih IHev. eexists. split; [eapply ev_ref; eassumption|]. constructor; [assumption|]. apply sh_app; [constructor; [constructor; apply Hu|assumption]|].
    constructor; [|constructor]. match goal with K : at_place s' _ |- _ => apply sv_end, K end.
  - ih IHev. eexists. split; [eapply ev_times_livelock; [assumption|assumption|eassumption|]|].
    + match goal with K : at_place s' _ |- _ => apply (same_spot _ _ _ _ K Hu); assumption end.
    + constructor. split; [reflexivity|apply Hu].
  - ih IHev1. ih IHev2. eexists. split; [eapply ev_times_more; [assumption| |eassumption|eassumption]|constructor; fin].
    intros M E. match goal with K : at_place s' _ |- _ => apply (same_spot _ _ _ _ K Hu) in E end. exact (H0 M E).
  - ih IHev1. ih IHev2. eexists. split; [eapply ev_times_no; [assumption| |eassumption|eassumption]|constructor; fin].
    intros M E. match goal with K : at_place s' _ |- _ => apply (same_spot _ _ _ _ K Hu) in E end. exact (H0 M E).
  - ih IHev1. ih IHev2. eexists. split; [eapply ev_times_more_halt; [assumption| |eassumption|eassumption]|apply sh_halt_intro; assumption].
    intros M E. match goal with K : at_place s' _ |- _ => apply (same_spot _ _ _ _ K Hu) in E end. exact (H0 M E).
  - ih IHev1. destruct (IHev2 _ (place_within _ _ w Hu)) as (o2 & He2 & Ho2). outc.
    eexists. split; [eapply ev_term_excepted; [eassumption|eapply place_go2; eassumption|eassumption|]|constructor; fin].
    match goal with K : at_place s2 _ |- _ => destruct K as (E & _); congruence end.
  - ih IHev1. destruct (IHev2 _ (place_within _ _ w Hu)) as (o2 & He2 & Ho2).
    eexists. split; [eapply ev_term_kept; [eassumption|eapply place_go2; eassumption|eassumption|]|constructor; fin].
    destruct H2 as [(s2 & e2 & -> & K)|(y & s2 & e2 & ->)]; outc.
    + left. eexists _, _. split; [reflexivity|]. match goal with J : at_place s2 _ |- _ => destruct J as (E & _); congruence end.
    + right. eauto.
  - ih IHev1. destruct (IHev2 _ (place_within _ _ w Hu)) as (o2 & He2 & Ho2). outc.
    eexists. split; [eapply ev_term_exc_halt; [eassumption|eapply place_go2; eassumption|eassumption]|apply sh_halt_intro; assumption].
  - ih IHev1. edestruct IHev2 as (o2 & He2 & Ho2); [eassumption|]. eexists. split; [eapply ev_seq; eassumption|].
    inversion Ho2; subst; cbn [before]; constructor; try assumption; apply sh_app; assumption.
  - ih IHev. eexists. split; [eapply ev_defs_here; [eassumption|]|constructor; fin].
    match goal with K : SpecMove.shifted_error _ _ e _ |- _ => apply (shifted_one _ _ _ _ (proj2 K) (proj2 Hu)); assumption end.
  - ih IHev. eexists. split; [eapply ev_defs_ahead; [eassumption|]|constructor; fin].
    intros E. match goal with K : SpecMove.shifted_error _ _ e _ |- _ => apply (shifted_one _ _ _ _ (proj2 K) (proj2 Hu)) in E end. contradiction.
  - ih IHev1. ih IHev2. eexists. split; [eapply ev_alts_next; eassumption|constructor; fin].
  - ih IHev1. edestruct IHev2 as (o2 & He2 & Ho2); [exact Hu|]. inversion Ho2; subst. outc.
    match goal with K : at_place s ?t, J : at_place s ?t2 |- _ => assert_fails (unify t t2); rewrite (place_one _ _ _ K J) in * end. eexists. split; [eapply ev_alts_no; eassumption|constructor; fin].
  - ih IHev1. ih IHev2. eexists. split; [eapply ev_alts_next_halt; eassumption|apply sh_halt_intro; assumption].
Qed.

(** ** Answers of [parse] *)
Lemma remove_shifted_n : forall n x y, length x <= n -> shifted_events x y -> shifted_events (remove_pairs x) (remove_pairs y).
Proof.
  induction n as [|n IH]; intros x y Hn H.
  { destruct x; [|cbn in Hn; lia]. apply sh_nil_inv in H. subst. constructor. }
  destruct H as [|e f x y Hef H]; [constructor|]. cbn [length] in Hn.
  destruct Hef as [d l l' w Hl|d l l' w Hl|d l l' w Hl].
  - cbn [remove_pairs]. constructor; [constructor; assumption|]. apply IH; [lia|assumption].
  - destruct H as [|e f x y Hef H]; [constructor; [constructor; assumption|constructor]|]. cbn [length] in Hn.
    destruct Hef as [d2 m m' w2 Hm|d2 m m' w2 Hm|d2 m m' w2 Hm].
    + change (shifted_events (EvBegin d l w :: remove_pairs (EvToken d2 m w2 :: x)) (EvBegin d l' w :: remove_pairs (EvToken d2 m' w2 :: y))).
      constructor; [constructor; assumption|]. apply IH; [cbn; lia|]. constructor; [constructor; assumption|assumption].
    + change (shifted_events (EvBegin d l w :: remove_pairs (EvBegin d2 m w2 :: x)) (EvBegin d l' w :: remove_pairs (EvBegin d2 m' w2 :: y))).
      constructor; [constructor; assumption|]. apply IH; [cbn; lia|]. constructor; [constructor; assumption|assumption].
    + cbn [remove_pairs]. apply IH; [lia|assumption].
  - cbn [remove_pairs]. constructor; [constructor; assumption|]. apply IH; [lia|assumption].
Qed.
Lemma remove_shifted : forall x y, shifted_events x y -> shifted_events (remove_empty_pairs x) (remove_empty_pairs y).
Proof. intros x y H. destruct H as [|e f x y Hef H]; [constructor|]. constructor; [assumption|]. eapply remove_shifted_n; [apply le_n|assumption]. Qed.
Lemma agree_shifted_n : forall n x y, length x <= n -> shifted_events x y -> removed_labels_agree x = removed_labels_agree y.
Proof.
  induction n as [|n IH]; intros x y Hn H.
  { destruct x; [|cbn in Hn; lia]. apply sh_nil_inv in H. subst. reflexivity. }
  destruct H as [|e f x y Hef H]; [reflexivity|]. cbn [length] in Hn.
  destruct Hef as [d l l' w Hl|d l l' w Hl|d l l' w Hl].
  - cbn [removed_labels_agree]. apply IH; [lia|assumption].
  - destruct H as [|e f x y Hef H]; [reflexivity|]. cbn [length] in Hn.
    destruct Hef as [d2 m m' w2 Hm|d2 m m' w2 Hm|d2 m m' w2 Hm].
    + change (removed_labels_agree (EvToken d2 m w2 :: x) = removed_labels_agree (EvToken d2 m' w2 :: y)).
      apply IH; [cbn; lia|]. constructor; [constructor; assumption|assumption].
    + change (removed_labels_agree (EvBegin d2 m w2 :: x) = removed_labels_agree (EvBegin d2 m' w2 :: y)).
      apply IH; [cbn; lia|]. constructor; [constructor; assumption|assumption].
    + cbn [removed_labels_agree]. rewrite (IH x y) by (lia || assumption). reflexivity.
  - cbn [removed_labels_agree]. apply IH; [lia|assumption].
Qed.
Lemma agree_shifted : forall x y, shifted_events x y -> removed_labels_agree (List.tl x) = removed_labels_agree (List.tl y).
Proof. intros x y H. destruct H as [|e f x y Hef H]; [reflexivity|]. cbn. eapply agree_shifted_n; [apply le_n|assumption]. Qed.
Lemma shifted_means : forall id s o t, means rules cfg id s o -> at_place s t -> exists o', means rules cfg id t o' /\ shifted_outcome o o'.
Proof.
  intros id s o t (r & Hr & Ho) Ht. destruct (shifted_ev _ _ _ Ho t Ht) as (o' & H & S). exists o'. split; [exists r; auto|exact S].
Qed.
Lemma parse_shifted : forall g id m debug fuel1 rd rd',
  parser_for rules cfg g id m -> reader rd -> ending_of rd = None -> reader rd' -> ending_of rd' = None -> at_place (stand rd) (stand rd') ->
  fst (parser_parse debug g fuel1 m rd) <> OutOfFuel ->
  exists f0, forall fuel, f0 <= fuel ->
    shifted_answer a b (fst (parser_parse debug g fuel1 m rd)) (fst (parser_parse debug g fuel m rd')).
Proof.
  intros g id m debug fuel1 rd rd' Hp Hr He Hr' He' Hat Hf.
  pose proof (parse_sound_api rules cfg g id m debug fuel1 rd Hp Hr He) as S.
  destruct (fst (parser_parse debug g fuel1 m rd)) as [evs|e|p|] eqn:E1; [| | |congruence].
  - destruct S as (raw & Hm & ->). pose proof (parse_all_read _ _ _ _ _ _ Hr E1) as (_ & Hall).
    destruct (parse_complete_api rules cfg g id m debug rd _ Hp Hr He Hm) as (f1 & Hf1).
    destruct (shifted_means _ _ _ _ Hm Hat) as (o' & Hm' & Ho). apply sh_match_inv in Ho as (t' & raw' & -> & Ht' & Hl).
    destruct (parse_complete_api rules cfg g id m debug rd' _ Hp Hr' He' Hm') as (f0 & Hf0). exists f0. intros fuel Hle.
    specialize (Hf0 fuel Hle). cbv iota in Hf0. specialize (Hf1 (fuel1 + f1) ltac:(lia)). cbv iota in Hf1.
    destruct Ht' as (Et & _). rewrite <- Et in Hf0.
    change (p_rest (stand (snd (parser_parse debug g fuel1 m rd)))) with (unread (snd (parser_parse debug g fuel1 m rd))) in *.
    rewrite Hall in Hf0, Hf1. rewrite <- (agree_shifted _ _ Hl) in Hf0.
    assert (Hok : (debug && negb (removed_labels_agree (List.tl raw)))%bool = false).
    { destruct (debug && negb (removed_labels_agree (List.tl raw)))%bool; [|reflexivity]. exfalso.
      rewrite (parse_more_fuel debug g fuel1 (fuel1 + f1) m rd) in Hf1 by (lia || (rewrite E1; discriminate)). rewrite E1 in Hf1. discriminate. }
    rewrite Hok in Hf0. rewrite Hf0. cbn. apply remove_shifted. exact Hl.
  - destruct S as [(s' & raw & Hm)|[(s' & raw & Hm & Hne & ->)|Hm]];
      destruct (shifted_means _ _ _ _ Hm Hat) as (o' & Hm' & Ho).
    + apply sh_no_inv in Ho as (e' & t' & raw' & -> & Hx & _).
      destruct (parse_complete_api rules cfg g id m debug rd' _ Hp Hr' He' Hm') as (f0 & Hf0). exists f0. intros fuel Hle.
      specialize (Hf0 fuel Hle). cbv iota in Hf0. rewrite Hf0. exact Hx.
    + apply sh_match_inv in Ho as (t' & raw' & -> & Ht' & Hl).
      destruct (parse_complete_api rules cfg g id m debug rd' _ Hp Hr' He' Hm') as (f0 & Hf0). exists f0. intros fuel Hle.
      specialize (Hf0 fuel Hle). cbv iota in Hf0. pose proof Ht' as (Et & _). destruct (p_rest t') as [|c w] eqn:Ep; [rewrite Et in Hne; contradiction|]. rewrite Hf0.
      apply sh_wanted. exact Ht'.
    + inversion Ho; subst. destruct (parse_complete_api rules cfg g id m debug rd' _ Hp Hr' He' Hm') as (f0 & Hf0). exists f0. intros fuel Hle.
      specialize (Hf0 fuel Hle). cbv iota in Hf0. rewrite Hf0. assumption.
  - destruct S as [Hm|(Hd & s' & raw & Hm & Ha & Hend)];
      destruct (shifted_means _ _ _ _ Hm Hat) as (o' & Hm' & Ho).
    + inversion Ho; subst. destruct (parse_complete_api rules cfg g id m debug rd' _ Hp Hr' He' Hm') as (f0 & Hf0). exists f0. intros fuel Hle.
      destruct (Hf0 fuel Hle) as (q & Hq). rewrite Hq. exact I.
    + apply sh_match_inv in Ho as (t' & raw' & -> & (Et & _) & Hl).
      destruct (parse_complete_api rules cfg g id m debug rd' _ Hp Hr' He' Hm') as (f0 & Hf0). exists f0. intros fuel Hle.
      specialize (Hf0 fuel Hle). cbv iota in Hf0. rewrite <- Et, Hend in Hf0. rewrite <- (agree_shifted _ _ Hl), Hd, Ha in Hf0. cbn [andb negb] in Hf0. rewrite Hd, Hf0. exact I.
Qed.
End Rules.
End Facts.
