(** Where a failing node leaves the reader. *)
From Coq Require Import String List NArith Arith Bool Lia.
From Verif Require Import Base Ident Tokenizer Ast Lex Syntax Io Graph Machine SpecText SpecSyntax SpecIo TextFacts SyntaxFacts IoFacts SpecParse SpecMachine SpecError SpecLeft Pure ParseFacts CodeFacts EvFacts MachineFacts FuelFacts.
Import ListNotations.
Open Scope nat_scope.

Section Left.
Variable rules : list rule.
Variable cfg : config.
Notation ev := (ev rules cfg).
Notation gives_up := (gives_up rules cfg).

Definition shown (n : node) : bool := match n with NTimes _ _ _ _ | NAlts _ | NFwd _ => false | _ => true end.
Definition stays (n : node) (s : pst) (o : outcome) : Prop :=
  match o with
  | No x s' _ =>
      match n with
      | NTimes mn mx i b => exists k s1 e, rounds rules cfg b k s s1 e /\ k < N.to_nat (mn - i) /\ (shown b = true -> gives_up b s1 s')
      | NAlts _ => s' = s
      | NFwd _ => True
      | _ => gives_up n s s'
      end
  | _ => True
  end.
Lemma stays_shown : forall n s x s' e, stays n s (No x s' e) -> shown n = true -> gives_up n s s'.
Proof. intros [] s x s' e H K; try discriminate; exact H. Qed.
Lemma ev_stays : forall n s o, ev n s o -> stays n s o.
Proof.
  intros n s o H. induction H; cbn [stays] in *; try exact I.
  - apply gu_terminal. eexists _, _, _. eapply ev_terminal_no. exact H.
  - apply gu_special. eexists _, _, _. eapply ev_special_no. exact H.
  - destruct o; try exact I. apply gu_meta. exact IHev.
  - eapply gu_ref; eauto.
  - destruct o; try exact I. cbn [stays] in IHev. destruct IHev as (k & s1 & e1 & _ & K & _). cbn in K. lia.
  - destruct o; try exact I. cbn [stays] in IHev. destruct IHev as (k & s1 & e1 & _ & K & _). cbn in K. lia.
  - destruct o; try exact I. apply gu_grouped. exact IHev.
  - exists 0, s, []. split; [constructor|]. split; [lia|]. intros Hs. exact (stays_shown _ _ x _ evs IHev Hs).
  - destruct IHev2 as (k & s1 & e1 & A & B & C). exists (S k), s1, (evs ++ e1). split; [econstructor; eassumption|]. split; [lia|exact C].
  - destruct o; try exact I. apply gu_once. exact IHev.
  - destruct o as [| x s' evs |]; try exact I. pose proof IHev as (k & s1 & e1 & A & B & C). rewrite N.sub_0_r in B. eapply gu_times; [assumption| |exact A|exact B|apply C; reflexivity].
    exists x, s', evs. apply ev_factor_many; assumption.
  - destruct o; try exact I. apply gu_plain. exact IHev.
  - apply gu_except. eexists _, _, _. eapply ev_term_no. exact H.
  - apply gu_except. eexists _, _, _. eapply ev_term_excepted; eassumption.
  - destruct o; try exact I. eapply gu_group; eassumption.
  - destruct o; cbn [before stays]; try exact I. eapply gu_later; eassumption.
  - apply gu_here; assumption.
  - destruct o; try exact I. apply gu_single. exact IHev.
  - rewrite IHev. apply gu_choice. eexists _, _, _. eapply ev_defs_here; eassumption.
  - rewrite IHev. apply gu_choice. eexists _, _, _. eapply ev_defs_ahead; eassumption.
  - reflexivity.
  - reflexivity.
  - destruct o; try exact I.
  - destruct o; try exact I.
Qed.

Hypothesis Hu : no_repeat rules.
Hypothesis Hd : no_dollar rules.
Lemma times_left : forall b k s s1 e, rounds rules cfg b k s s1 e -> forall x1 s' e1, ev b s1 (No x1 s' e1) ->
  forall n i x2 s2 e2, (N.of_nat k + i < n)%N -> ev (NTimes n n i b) s (No x2 s2 e2) -> s2 = s'.
Proof.
  intros b k s s1 e H. induction H as [s|k s s1 s2' e1 e2 H1 H2 IH]; intros x1 s' e1' Hb n i x2 s2 e2' Hi H.
  - inversion H; subst;
      match goal with A : ev b s ?o |- _ => let E := fresh in pose proof (ev_fun rules cfg Hu Hd _ _ _ A _ Hb) as E; first [discriminate E | injection E as -> -> ->] end. reflexivity.
  - inversion H; subst;
      match goal with A : ev b s ?o |- _ => let E := fresh in pose proof (ev_fun rules cfg Hu Hd _ _ _ A _ H1) as E; first [discriminate E | injection E as -> ->] end.
    eapply IH; [exact Hb| |eassumption]. lia.
Qed.
Lemma gives_up_ev : forall n s s', gives_up n s s' -> exists x e, ev n s (No x s' e).
Proof.
  intros n s s' H. induction H.
  - destruct H as (x & s' & e & H). exists x, e. inversion H; subst; exact H.
  - destruct H as (x & s' & e & H). exists x, e. inversion H; subst; exact H.
  - destruct IHgives_up as (x & e & K). exists x, e. apply ev_meta. exact K.
  - destruct IHgives_up as (x & e & K). exists x, e. apply ev_grouped. exact K.
  - destruct IHgives_up as (x & e & K). exists x, []. eapply ev_ref_no; eassumption.
  - destruct H as (x & s' & e & H). exists x, e. pose proof (ev_stays _ _ _ H) as K. cbn [stays] in K. inversion K; subst. exact H.
  - destruct IHgives_up as (x & e & K). exists x, e. apply ev_defs_one. exact K.
  - destruct IHgives_up as (x & e & K). exists x, e. eapply ev_seq_group; eassumption.
  - destruct IHgives_up as (x & e & K). exists x, e. apply ev_seq_no; assumption.
  - destruct IHgives_up as (x & e' & K). exists x, (e ++ e'). exact (ev_seq rules cfg _ _ _ _ _ _ H H0 K).
  - destruct H as (x & s' & e0 & H). exists x, e0. pose proof (ev_stays _ _ _ H) as K. cbn [stays] in K. inversion K; subst. exact H.
  - destruct IHgives_up as (x & e & K). exists x, e. apply ev_term_plain. exact K.
  - destruct IHgives_up as (x & e & K). exists x, e. apply ev_factor_one. exact K.
  - destruct IHgives_up as (x & e' & K). destruct H0 as (x2 & s2 & e2 & H0). exists x2, e2. inversion H0; subst; [congruence|].
    match goal with A : ev (NTimes _ _ _ _) _ _ |- _ => rewrite <- (times_left _ _ _ _ _ H1 _ _ _ K n 0%N _ _ _ ltac:(lia) A) end. exact H0.
Qed.
End Left.

(** Where the error stands is ahead of where the reader is left. *)
Lemma ev_ahead : forall rules cfg n s o, ev rules cfg n s o ->
  match o with No x s' _ => exists s2, moved s' s2 /\ p_at s2 = e_loc x | _ => True end.
Proof.
  intros rules cfg n s o H. induction H; try exact I; try assumption;
    try (exists s; split; [apply moved_refl|reflexivity]; fail).
  - exact (proj2 (ev_moved _ _ _ _ _ H)).
  - destruct o; try exact I. cbn [before]. exact IHev2.
  - exists s. split; [|reflexivity]. rewrite (proj1 (alts_no _ _ _ _ _ _ _ H)). apply moved_refl.
  - exact (proj2 (ev_moved _ _ _ _ _ H)).
  - unfold further. destruct (loc_ltb (e_loc x2) (e_loc x)); [exact (proj2 (ev_moved _ _ _ _ _ H))|exact IHev2].
Qed.

(** The reader after a parse. *)
Section Api.
Variable rs : list rule.
Variable cfg : config.
Lemma parse_settled : forall g id m debug fuel rd o, parser_for rs cfg g id m -> reader rd -> ending_of rd = None ->
  fst (parser_parse debug g fuel m rd) <> OutOfFuel -> means rs cfg id (stand rd) o ->
  match o with Match s' _ | No _ s' _ => stand (snd (parser_parse debug g fuel m rd)) = s' | Halt _ => True end.
Proof.
  intros g id m debug fuel rd o Hp Hr He Hf (r2 & Hn2 & Ho). destruct (parser_rule _ _ _ _ _ Hp) as (r & Hn & Hm).
  rewrite (names_unique rs _ _ _ (parser_unique _ _ _ _ _ Hp) Hn2 Hn) in Ho.
  destruct (pparse_complete rs cfg g (parser_faithful _ _ _ _ _ Hp) debug m r (stand rd) o Hm Ho) as (f0 & K).
  specialize (K (fuel + f0) ltac:(lia)). rewrite <- (parse_more_fuel debug g fuel (fuel + f0) m rd ltac:(lia) Hf).
  destruct (parse_reader debug g (fuel + f0) m rd Hr) as (_ & B & _). rewrite He in B.
  destruct o as [s' raw|x s' raw|h]; [| |exact I]; rewrite B.
  - destruct (p_rest s'); rewrite K; reflexivity.
  - rewrite K. reflexivity.
Qed.
Lemma parse_leaves : forall g id m debug fuel rd e, parser_for rs cfg g id m -> reader rd -> ending_of rd = None ->
  fst (parser_parse debug g fuel m rd) = Err e ->
  (exists raw, means rs cfg id (stand rd) (No e (stand (snd (parser_parse debug g fuel m rd))) raw)) \/
  (exists raw, means rs cfg id (stand rd) (Match (stand (snd (parser_parse debug g fuel m rd))) raw) /\
     p_rest (stand (snd (parser_parse debug g fuel m rd))) <> [] /\
     e = wanted (stand (snd (parser_parse debug g fuel m rd))) (of_string "EOF")) \/
  means rs cfg id (stand rd) (Halt (Failed e)).
Proof.
  intros g id m debug fuel rd e Hp Hr He H.
  assert (Hf : fst (parser_parse debug g fuel m rd) <> OutOfFuel) by congruence.
  pose proof (parse_sound_api rs cfg g id m debug fuel rd Hp Hr He) as K. rewrite H in K.
  destruct K as [(s' & raw & K)|[(s' & raw & K & K2 & K3)|K]]; [left|right; left|right; right; exact K];
    pose proof (parse_settled g id m debug fuel rd _ Hp Hr He Hf K) as E; cbv iota in E; rewrite E; eauto.
Qed.
End Api.
