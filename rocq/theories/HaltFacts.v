(** A parse stops exactly where it comes to a construct that stops it. *)
From Coq Require Import String List NArith Arith Bool Lia Relations.
From Verif Require Import Base Ident Tokenizer Ast Lex Syntax Io Graph Machine SpecText SpecSyntax SpecTree SpecIo TextFacts TreeFacts SyntaxFacts IoFacts SpecParse SpecMachine SpecEvents SpecHalt Pure ParseFacts CodeFacts EvFacts EventFacts MachineFacts TotalFacts PanicFacts FuelFacts GramFinal.
Import ListNotations.
Open Scope nat_scope.

Section Rules.
Variable rules : list rule.
Variable cfg : config.
Notation ev := (ev rules cfg).
Notation onto := (onto rules cfg).

Definition stopped (n : node) (s : pst) (h : halt) : Prop :=
  match h with
  | Failed e => stops_with rules cfg n s e
  | Crashed => dangles rules n \/ n = NDefs []
  end.
Lemma stopped_ev : forall n s h, stopped n s h -> ev n s (Halt h).
Proof.
  intros n s [e|] H; cbn in H.
  - destruct H as [((mn & i & b & s' & evs & -> & Hi & Hm & Ha) & ->)|[(l & c & id & s1 & -> & Hf & Hu & Hd & ->)|(l & c & -> & Hf)]].
    + eapply ev_times_livelock; eauto.
    + eapply ev_forward_unknown; eauto.
    + apply ev_special_fail. exact Hf.
  - destruct H as [(l & id & -> & Hu)| ->]; [apply ev_ref_undefined; exact Hu|apply ev_defs_none].
Qed.
Lemma step_halts : forall a b h, onto a b -> ev (fst b) (snd b) (Halt h) -> ev (fst a) (snd a) (Halt h).
Proof.
  intros a b h H K. destruct H; cbn [fst snd] in *.
  - apply ev_meta. exact K.
  - eapply ev_ref_halt; eauto.
  - eapply ev_forward_halt; eauto.
  - eapply ev_fwd; eauto.
  - eapply ev_fwd_alias; eauto.
  - apply ev_optional. exact K.
  - apply ev_repeated. exact K.
  - apply ev_grouped. exact K.
  - apply ev_times_halt; auto.
  - eapply ev_times_more_halt; eauto.
  - apply ev_factor_one. exact K.
  - apply ev_factor_many; auto.
  - destruct e; [apply ev_term_halt|apply ev_term_plain]; exact K.
  - eapply ev_term_exc_halt; eauto.
  - eapply ev_seq_group; eauto.
  - apply ev_seq_halt; auto.
  - change (Halt h) with (before evs (Halt h)). eapply ev_seq; eauto.
  - apply ev_defs_one. exact K.
  - apply ev_defs_halt. exact K.
  - apply ev_alts_halt. exact K.
  - eapply ev_alts_next_halt; eauto.
Qed.
Lemma tries_halts : forall a b, clos_refl_trans attempt onto a b -> forall h, ev (fst b) (snd b) (Halt h) -> ev (fst a) (snd a) (Halt h).
Proof.
  intros a b H. induction H as [a b H|a|a b c _ IH1 _ IH2]; intros h K; auto. apply (step_halts _ _ _ H K).
Qed.
Lemma halts_tries : forall n s o, ev n s o -> forall h, o = Halt h ->
  exists n' s', clos_refl_trans attempt onto (n, s) (n', s') /\ stopped n' s' h.
Proof.
  assert (Here : forall n s h, stopped n s h -> exists n' s', clos_refl_trans attempt onto (n, s) (n', s') /\ stopped n' s' h).
  { intros n s h H. exists n, s. split; [apply rt_refl|exact H]. }
  assert (Next : forall n s n1 s1 h, onto (n, s) (n1, s1) ->
    (exists n' s', clos_refl_trans attempt onto (n1, s1) (n', s') /\ stopped n' s' h) ->
    exists n' s', clos_refl_trans attempt onto (n, s) (n', s') /\ stopped n' s' h).
  { intros n s n1 s1 h H (n' & s' & K1 & K2). exists n', s'. split; [|exact K2]. eapply rt_trans; [apply rt_step; exact H|exact K1]. }
  intros n s o H. induction H; intros h0 Ho; try discriminate Ho; try (injection Ho as <-); subst.
  all: try solve [eapply Next; [econstructor; eassumption|eauto] | eapply Next; [econstructor; eassumption|];
    match goal with IH : forall h, Halt _ = Halt h -> _ |- _ => apply IH; reflexivity end].
  - apply Here. cbn. right. right. eexists _, _. eauto.
  - eapply Next; [apply ts_forward; [eassumption|]|].
    + match goal with X : SpecParse.ev _ _ (NFwd _) _ _ |- _ => inversion X; subst end.
      * left. match goal with X : names _ _ _ |- _ => destruct X as (X1 & X2); exists r; auto end.
      * right. eauto.
    + eauto.
  - apply Here. cbn. right. left. eexists _, _, _, _. eauto 10.
  - apply Here. cbn. left. eexists _, _. eauto.
  - apply Here. cbn. left. split; [|reflexivity]. eexists _, _, _, _, _. eauto 10.
  - destruct o; cbn in Ho; try discriminate Ho. injection Ho as ->. eapply Next; [eapply ts_seq_next; eassumption|eauto].
  - apply Here. cbn. right. reflexivity.
  - destruct ds as [|d' ds]; [match goal with X : SpecParse.ev _ _ (NAlts []) _ _ |- _ => inversion X end|]. eapply Next; [eapply ts_alts_next; eassumption|eauto].
Qed.
Lemma halt_iff : forall n s h, ev n s (Halt h) <-> exists n' s', clos_refl_trans attempt onto (n, s) (n', s') /\ stopped n' s' h.
Proof.
  intros n s h. split; [intros H; exact (halts_tries _ _ _ H h eq_refl)|]. intros (n' & s' & H & K).
  apply (tries_halts _ _ H). apply stopped_ev. exact K.
Qed.
Lemma means_halt_iff : forall id s h, means rules cfg id s (Halt h) <-> exists n s', comes_to rules cfg id s n s' /\ stopped n s' h.
Proof.
  intros id s h. split.
  - intros (r & Hn & H). apply halt_iff in H as (n & s' & H & K). exists n, s'. split; [exists r; auto|exact K].
  - intros (n & s' & (r & Hn & H) & K). exists r. split; [exact Hn|]. apply halt_iff. eauto.
Qed.

(** Failures of a parse are about the text. *)
Lemma no_expects : forall n s o, ev n s o -> forall e s' evs, o = No e s' evs -> expects e.
Proof.
  assert (W : forall s w, expects (wanted s w)) by (intros; eexists _, _; reflexivity).
  intros n s o H. induction H; intros e0 s0 evs0 Ho; try discriminate Ho; try (injection Ho as <- <- <-); eauto.
  - destruct o; cbn in Ho; try discriminate Ho. injection Ho as -> _ _. eauto.
  - unfold further. destruct (loc_ltb _ _); eauto.
Qed.

(** Rules without empty definitions lead to no empty definitions. *)
Fixpoint whole (n : node) : Prop :=
  match n with
  | NDefs d => filled_defs d
  | NAlts d => Forall filled_seq d
  | NSeq ts => Forall filled_t ts
  | NTerm t => filled_t t
  | NFactor f => filled (f_prim f)
  | NPrim p => filled p
  | NTimes _ _ _ b => whole b
  | NRef _ _ | NFwd _ => True
  end.
Lemma defs_forall : forall d, filled_defs d -> Forall filled_seq d.
Proof. fix IH 2. intros d H. destruct H as [s H|s d H K]; constructor; auto. Qed.
Lemma seq_forall : forall d, filled_seq d -> Forall filled_t d.
Proof. fix IH 2. intros d H. destruct H as [s H|s d H K]; constructor; auto. Qed.
Lemma step_whole : Forall (fun r => filled_defs (r_defs r)) rules -> forall a b, onto a b -> whole (fst a) -> whole (fst b).
Proof.
  intros Hr a b H K. rewrite Forall_forall in Hr. destruct H; cbn [fst snd whole] in *; auto.
  - apply Hr. apply H.
  - apply Hr. apply H.
  - inversion K; assumption.
  - inversion K; assumption.
  - inversion K; assumption.
  - inversion K; assumption.
  - inversion K; assumption.
  - inversion K as [|? ? K1 K2]; subst. destruct t as [[n p] x]. cbn in H. destruct p; try discriminate H. destruct x; try discriminate H.
    destruct (N.eqb n 1); try discriminate H. injection H as ->. inversion K1 as [f K3|]; subst. inversion K3; assumption.
  - inversion K; assumption.
  - inversion K; assumption.
  - apply defs_forall in K. inversion K; subst. apply seq_forall. assumption.
  - apply defs_forall in K. exact K.
  - inversion K; subst. apply seq_forall. assumption.
  - inversion K; assumption.
Qed.
Lemma tries_whole : Forall (fun r => filled_defs (r_defs r)) rules -> forall a b, clos_refl_trans attempt onto a b -> whole (fst a) -> whole (fst b).
Proof.
  intros Hr a b H. induction H as [a b H|a|a b c _ IH1 _ IH2]; auto. apply (step_whole Hr _ _ H).
Qed.
Lemma comes_filled : Forall (fun r => filled_defs (r_defs r)) rules -> forall id s n s', comes_to rules cfg id s n s' -> n <> NDefs [].
Proof.
  intros Hr id s n s' (r & Hn & H) ->. apply (tries_whole Hr) in H; [|exact I]. cbn in H. inversion H.
Qed.
End Rules.
