(** Scanners that answer alike: proofs. *)
From Coq Require Import String List NArith Arith Bool Lia Relations.
From Verif Require Import Base Ident Tokenizer Ast Lex Syntax Io Graph Machine SpecText SpecSyntax TextFacts SyntaxFacts SpecIo SpecParse SpecMachine SpecError SpecSwap Pure PureFacts ParseFacts CodeFacts RunFacts RunComplete EvFacts MachineFacts ErrorFacts FuelFacts DocFacts.
Import ListNotations.
Open Scope nat_scope.

Section Swap.
Variable rs : list rule.
Variables c1 c2 : config.
Variable E : error -> error -> Prop.
Notation within := (within rs).
Hypothesis Erefl : forall e, E e e.
Hypothesis Eloc : forall e e', E e e' -> e_loc e = e_loc e'.
Hypothesis Hsc : forall l c, occurs rs (NPrim (PSpecial l c)) -> forall s r, scanned (c1 l c) l s r -> scanned (c2 l c) l s r.
Hypothesis Hsym : forall l c s, occurs rs (NPrim (PSpecial l c)) -> E (wanted s (scanner_symbol (c1 l c))) (wanted s (scanner_symbol (c2 l c))).
Hypothesis Hfwd : forall l c s id, occurs rs (NPrim (PSpecial l c)) ->
  E (Error_ (p_at s) (MNoSuchForward id (scanner_symbol (c1 l c)) l)) (Error_ (p_at s) (MNoSuchForward id (scanner_symbol (c2 l c)) l)).
Hypothesis Hdefs : forall d s, occurs rs (NDefs d) -> E (wanted s (defs_name c1 d)) (wanted s (defs_name c2 d)).

Inductive eh : halt -> halt -> Prop := eh_failed : forall e e', E e e' -> eh (Failed e) (Failed e') | eh_crashed : eh Crashed Crashed.
Inductive eo : outcome -> outcome -> Prop :=
| eo_match : forall s a, eo (Match s a) (Match s a)
| eo_no : forall e e' s a, E e e' -> eo (No e s a) (No e' s a)
| eo_halt : forall h h', eh h h' -> eo (Halt h) (Halt h').
Lemma eo_m : forall s a o, eo (Match s a) o -> o = Match s a. Proof. intros s a o H. inversion H; reflexivity. Qed.
Lemma eo_n : forall e s a o, eo (No e s a) o -> exists e', o = No e' s a /\ E e e'. Proof. intros e s a o H. inversion H; subst; eauto. Qed.
Lemma eo_h : forall h o, eo (Halt h) o -> exists h', o = Halt h' /\ eh h h'. Proof. intros h o H. inversion H; subst; eauto. Qed.
Lemma eh_refl : forall h, eh h h. Proof. intros []; constructor; auto. Qed.
Lemma E_further : forall a a' b b', E a a' -> E b b' -> E (further a b) (further a' b').
Proof. intros a a' b b' H K. unfold further. rewrite (Eloc _ _ H), (Eloc _ _ K). destruct (loc_ltb (e_loc a') (e_loc b')); assumption. Qed.

Ltac use IH W := let o := fresh "o" in let V := fresh "V" in let O := fresh "O" in
  destruct (IH W) as (o & V & O);
  match type of O with
  | eo (Match _ _) _ => apply eo_m in O; subst o
  | eo (No _ _ _) _ => let x := fresh "x" in let Ex := fresh "Ex" in apply eo_n in O as (x & -> & Ex)
  | eo (Halt _) _ => let h := fresh "h" in let Eh := fresh "Eh" in apply eo_h in O as (h & -> & Eh)
  end.
Lemma ev_swap : forall n s o, ev rs c1 n s o -> within n -> exists o', ev rs c2 n s o' /\ eo o o'.
Proof.
  intros n s o H. induction H; intros W; cbn [ErrorFacts.within] in *.
  - eexists. split; [apply ev_terminal; exact H|constructor].
  - eexists. split; [apply ev_terminal_no; exact H|constructor; auto].
  - eexists. split; [apply ev_empty|constructor].
  - eexists. split; [apply ev_special; apply (Hsc _ _ W); exact H|constructor].
  - eexists. split; [apply ev_special_no; apply (Hsc _ _ W); exact H|constructor; auto].
  - eexists. split; [apply ev_special_fail; apply (Hsc _ _ W); exact H|constructor; apply eh_refl].
  - use IHev I. eexists. split; [eapply ev_forward; [apply (Hsc _ _ W); exact H|exact V]|constructor].
  - use IHev I. eexists. split; [eapply ev_forward_no; [apply (Hsc _ _ W); exact H|exact V]|constructor].
  - use IHev I. eexists. split; [eapply ev_forward_halt; [apply (Hsc _ _ W); exact H|exact V]|constructor; exact Eh].
  - eexists. split; [eapply ev_forward_unknown; [apply (Hsc _ _ W); exact H|assumption|assumption]|constructor; constructor; auto].
  - destruct (IHev I) as (o' & V & O). exists o'. split; [apply ev_meta; exact V|exact O].
  - use IHev (occurs_rule rs _ (proj1 H)). eexists. split; [eapply ev_ref; [exact H|exact V]|constructor].
  - use IHev (occurs_rule rs _ (proj1 H)). eexists. split; [eapply ev_ref_no; [exact H|exact V]|constructor; exact Ex].
  - use IHev (occurs_rule rs _ (proj1 H)). eexists. split; [eapply ev_ref_halt; [exact H|exact V]|constructor; exact Eh].
  - eexists. split; [apply ev_ref_undefined; exact H|constructor; constructor].
  - assert (K : occurs rs (NDefs d)) by (eapply occurs_part; [apply pt_optional|exact W]). destruct (IHev (conj K K)) as (o' & V & O). exists o'. split; [apply ev_optional; exact V|exact O].
  - assert (K : occurs rs (NDefs d)) by (eapply occurs_part; [apply pt_repeated|exact W]). destruct (IHev (conj K K)) as (o' & V & O). exists o'. split; [apply ev_repeated; exact V|exact O].
  - assert (K : occurs rs (NDefs d)) by (eapply occurs_part; [apply pt_grouped|exact W]). destruct (IHev K) as (o' & V & O). exists o'. split; [apply ev_grouped; exact V|exact O].
  - eexists. split; [apply ev_times_end; assumption|constructor].
  - use IHev (proj1 W). eexists. split; [eapply ev_times_short; eassumption|constructor; exact Ex].
  - use IHev (proj1 W). eexists. split; [eapply ev_times_stop; eassumption|constructor].
  - use IHev (proj1 W). eexists. split; [eapply ev_times_livelock; eassumption|constructor; apply eh_refl].
  - use IHev (proj1 W). eexists. split; [eapply ev_times_halt; eassumption|constructor; exact Eh].
  - use IHev1 (proj1 W). use IHev2 W. eexists. split; [eapply ev_times_more; eassumption|constructor].
  - use IHev1 (proj1 W). use IHev2 W. eexists. split; [eapply ev_times_no; eassumption|constructor; exact Ex].
  - use IHev1 (proj1 W). use IHev2 W. eexists. split; [eapply ev_times_more_halt; eassumption|constructor; exact Eh].
  - assert (K : occurs rs (NPrim p)) by (eapply occurs_part; [apply pt_primary|exact W]). destruct (IHev K) as (o' & V & O). exists o'. split; [apply ev_factor_one; exact V|exact O].
  - assert (K : occurs rs (NPrim p)) by (eapply occurs_part; [apply pt_primary|exact W]). destruct (IHev (conj K K)) as (o' & V & O). exists o'. split; [apply ev_factor_many; assumption|exact O].
  - assert (K : occurs rs (NFactor f)) by (eapply occurs_part; [apply pt_factor|exact W]). destruct (IHev K) as (o' & V & O). exists o'. split; [apply ev_term_plain; exact V|exact O].
  - assert (K : occurs rs (NFactor f)) by (eapply occurs_part; [apply pt_factor|exact W]). use IHev K. eexists. split; [eapply ev_term_no; exact V|constructor; exact Ex].
  - assert (K : occurs rs (NFactor f)) by (eapply occurs_part; [apply pt_factor|exact W]). use IHev K. eexists. split; [eapply ev_term_halt; exact V|constructor; exact Eh].
  - assert (K : occurs rs (NFactor f)) by (eapply occurs_part; [apply pt_factor|exact W]). assert (K' : occurs rs (NFactor e)) by (eapply occurs_part; [apply pt_exception|exact W]).
    use IHev1 K. use IHev2 K'. eexists. split; [eapply ev_term_excepted; eassumption|constructor; auto].
  - assert (K : occurs rs (NFactor f)) by (eapply occurs_part; [apply pt_factor|exact W]). assert (K' : occurs rs (NFactor e)) by (eapply occurs_part; [apply pt_exception|exact W]).
    use IHev1 K. destruct H2 as [(s2 & e2 & -> & Hne)|(x & s2 & e2 & ->)]; use IHev2 K'; eexists; (split; [eapply ev_term_kept; [exact V|exact H0|exact V0|eauto]|constructor]). 
  - assert (K : occurs rs (NFactor f)) by (eapply occurs_part; [apply pt_factor|exact W]). assert (K' : occurs rs (NFactor e)) by (eapply occurs_part; [apply pt_exception|exact W]).
    use IHev1 K. use IHev2 K'. eexists. split; [eapply ev_term_exc_halt; eassumption|constructor; exact Eh].
  - eexists. split; [apply ev_seq_nil|constructor].
  - destruct (IHev (group_occurs rs _ _ H (Forall_inv W))) as (o' & V & O). exists o'. split; [eapply ev_seq_group; eassumption|exact O].
  - use IHev1 (Forall_inv W). destruct (IHev2 (Forall_inv_tail W)) as (o' & V2 & O). exists (before evs o'). split; [eapply ev_seq; eassumption|]. inversion O; subst; cbn [before]; constructor; assumption.
  - use IHev (Forall_inv W). eexists. split; [eapply ev_seq_no; eassumption|constructor; exact Ex].
  - use IHev (Forall_inv W). eexists. split; [eapply ev_seq_halt; eassumption|constructor; exact Eh].
  - destruct (IHev (occurs_seq rs _ (Forall_inv (occurs_defs rs _ W)))) as (o' & V & O). exists o'. split; [apply ev_defs_one; exact V|exact O].
  - eexists. split; [apply ev_defs_none|constructor; constructor].
  - use IHev (occurs_defs rs _ W). eexists. split; [apply ev_defs; exact V|constructor].
  - use IHev (occurs_defs rs _ W). eexists. split; [apply ev_defs_halt; exact V|constructor; exact Eh].
  - use IHev (occurs_defs rs _ W). eexists. split; [eapply ev_defs_here; [exact V|rewrite <- (Eloc _ _ Ex); assumption]|constructor; auto].
  - use IHev (occurs_defs rs _ W). eexists. split; [eapply ev_defs_ahead; [exact V|rewrite <- (Eloc _ _ Ex); assumption]|constructor; exact Ex].
  - use IHev (occurs_seq rs _ (Forall_inv W)). eexists. split; [eapply ev_alts_first; exact V|constructor].
  - use IHev (occurs_seq rs _ (Forall_inv W)). eexists. split; [eapply ev_alts_halt; exact V|constructor; exact Eh].
  - use IHev (occurs_seq rs _ (Forall_inv W)). eexists. split; [eapply ev_alts_last; exact V|constructor; exact Ex].
  - use IHev1 (occurs_seq rs _ (Forall_inv W)). use IHev2 (Forall_inv_tail W). eexists. split; [eapply ev_alts_next; eassumption|constructor].
  - use IHev1 (occurs_seq rs _ (Forall_inv W)). use IHev2 (Forall_inv_tail W). eexists. split; [eapply ev_alts_no; eassumption|constructor; apply E_further; assumption].
  - use IHev1 (occurs_seq rs _ (Forall_inv W)). use IHev2 (Forall_inv_tail W). eexists. split; [eapply ev_alts_next_halt; eassumption|constructor; exact Eh].
  - destruct (IHev (occurs_rule rs _ (proj1 H))) as (o' & V & O). exists o'. split; [eapply ev_fwd; eassumption|exact O].
  - destruct (IHev I) as (o' & V & O). exists o'. split; [eapply ev_fwd_alias; eassumption|exact O].
Qed.

Definition same_by (a b : res (list event)) : Prop :=
  match a, b with Ok x, Ok y => x = y | Err e, Err e' => E e e' | Panic _, Panic _ => True | _, _ => False end.
Lemma parse_swap : forall g1 g2 id m1 m2 debug fuel rd, parser_for rs c1 g1 id m1 -> parser_for rs c2 g2 id m2 -> reader rd -> ending_of rd = None ->
  fst (parser_parse debug g1 fuel m1 rd) <> OutOfFuel ->
  exists f0, forall fuel2, f0 <= fuel2 -> same_by (fst (parser_parse debug g1 fuel m1 rd)) (fst (parser_parse debug g2 fuel2 m2 rd)).
Proof.
  intros g1 g2 id m1 m2 debug fuel rd Hp1 Hp2 Hr He Hf.
  assert (sim : forall s o, means rs c1 id s o -> exists o', means rs c2 id s o' /\ eo o o').
  { intros s o (r & Hn & V). destruct (ev_swap _ _ _ V I) as (o' & V' & O). exists o'. split; [exists r; auto|exact O]. }
  pose proof (parse_sound_api rs c1 g1 id m1 debug fuel rd Hp1 Hr He) as S.
  destruct (fst (parser_parse debug g1 fuel m1 rd)) as [evs|e|p|] eqn:E1; [| | |congruence].
  - destruct S as (raw & Hm & ->). pose proof (parse_all_read _ _ _ _ _ _ Hr E1) as (_ & Hall).
    destruct (parse_complete_api rs c1 g1 id m1 debug rd _ Hp1 Hr He Hm) as (f1 & Hf1).
    destruct (sim _ _ Hm) as (o' & Hm' & O). apply eo_m in O. subst o'.
    destruct (parse_complete_api rs c2 g2 id m2 debug rd _ Hp2 Hr He Hm') as (f0 & Hf0). exists f0. intros fuel2 Hle.
    specialize (Hf0 fuel2 Hle). cbv iota in Hf0. specialize (Hf1 (fuel + f1) ltac:(lia)). cbv iota in Hf1.
    change (p_rest (stand (snd (parser_parse debug g1 fuel m1 rd)))) with (unread (snd (parser_parse debug g1 fuel m1 rd))) in *.
    rewrite Hall in Hf0, Hf1. rewrite (parse_more_fuel debug g1 fuel (fuel + f1) m1 rd) in Hf1 by (lia || (rewrite E1; discriminate)).
    rewrite E1 in Hf1. rewrite <- Hf1 in Hf0. rewrite Hf0. reflexivity.
  - destruct S as [(s' & raw & Hm)|[(s' & raw & Hm & Hne & ->)|Hm]]; destruct (sim _ _ Hm) as (o' & Hm' & O);
      [apply eo_n in O as (e' & -> & Ex)|apply eo_m in O; subst o'|apply eo_h in O as (h & -> & Ex); inversion Ex; subst];
      destruct (parse_complete_api rs c2 g2 id m2 debug rd _ Hp2 Hr He Hm') as (f0 & Hf0); exists f0; intros fuel2 Hle; specialize (Hf0 fuel2 Hle); cbv iota in Hf0.
    + rewrite Hf0. exact Ex.
    + destruct (p_rest s') eqn:Ep; [congruence|]. rewrite Hf0. apply Erefl.
    + rewrite Hf0. assumption.
  - destruct S as [Hm|(Hd & s' & raw & Hm & Ha & Hend)]; destruct (sim _ _ Hm) as (o' & Hm' & O);
      [apply eo_h in O as (h & -> & Ex); inversion Ex; subst|apply eo_m in O; subst o'];
      destruct (parse_complete_api rs c2 g2 id m2 debug rd _ Hp2 Hr He Hm') as (f0 & Hf0); exists f0; intros fuel2 Hle; specialize (Hf0 fuel2 Hle); cbv iota in Hf0.
    + destruct Hf0 as (q & Hq). rewrite Hq. exact I.
    + rewrite Hend, Hd, Ha in Hf0. cbn [andb negb] in Hf0. rewrite Hd, Hf0. exact I.
Qed.
End Swap.

(** The names of constructs. *)
Lemma name_same : forall c1 c2 p, (forall l c, clos_refl_trans node part (NPrim (PSpecial l c)) (NPrim p) -> scanner_symbol (c1 l c) = scanner_symbol (c2 l c)) ->
  prim_name c1 p = prim_name c2 p.
Proof.
  intros c1 c2. fix IH 1. intros p H. destruct p as [l d|l d|l d|l id|l w|l c|l]; cbn [prim_name]; try reflexivity.
  - f_equal. assert (Hd : forall ts, In ts d -> forall l' c, clos_refl_trans node part (NPrim (PSpecial l' c)) (NSeq ts) -> scanner_symbol (c1 l' c) = scanner_symbol (c2 l' c)).
    { intros ts Hin l' c K. apply H. eapply rt_trans; [exact K|]. eapply rt_trans; [apply rt_step, pt_def; exact Hin|apply rt_step, pt_grouped]. }
    clear H. revert Hd. induction d as [|ts d IHd]; intros Hd; [reflexivity|]. cbn [map]. f_equal; [|apply IHd; intros ts' Hin; apply Hd; right; exact Hin].
    specialize (Hd ts (or_introl eq_refl)). destruct ts as [|[[k q] [x|]] ts]; try reflexivity. cbn [t_exc t_factor f_rep f_prim]. destruct (N.eqb k 1); [|reflexivity].
    apply IH. intros l' c K. apply Hd. eapply rt_trans; [exact K|]. eapply rt_trans; [apply rt_step, pt_primary|]. eapply rt_trans; [apply rt_step, pt_factor|]. apply rt_step, pt_term. left. reflexivity.
  - apply H, rt_refl.
Qed.
Lemma defs_same : forall rs c1 c2, symbols_alike rs c1 c2 -> forall d, occurs rs (NDefs d) -> defs_name c1 d = defs_name c2 d.
Proof.
  intros rs c1 c2 H d Hd. unfold defs_name. f_equal. apply map_ext_in. intros ts Hin. destruct ts as [|[[k q] [x|]] ts]; try reflexivity.
  unfold seq_name, term_name, factor_name. cbn [t_exc t_factor f_rep f_prim]. destruct (N.eqb k 1); [|reflexivity]. apply name_same. intros l c K. apply H.
  destruct Hd as (r & Hr & Hd). exists r. split; [exact Hr|]. eapply rt_trans; [exact K|]. eapply rt_trans; [|exact Hd].
  eapply rt_trans; [apply rt_step, pt_primary|]. eapply rt_trans; [apply rt_step, pt_factor|]. eapply rt_trans; [|apply rt_step, pt_def; exact Hin]. apply rt_step, pt_term. left. reflexivity.
Qed.
Lemma swap_same : forall rs c1 c2 g1 g2 id m1 m2 debug fuel rd, configs_alike rs c1 c2 -> symbols_alike rs c1 c2 ->
  parser_for rs c1 g1 id m1 -> parser_for rs c2 g2 id m2 -> reader rd -> ending_of rd = None -> fst (parser_parse debug g1 fuel m1 rd) <> OutOfFuel ->
  exists f0, forall fuel2, f0 <= fuel2 -> same_answer (fst (parser_parse debug g1 fuel m1 rd)) (fst (parser_parse debug g2 fuel2 m2 rd)).
Proof.
  intros rs c1 c2 g1 g2 id m1 m2 debug fuel rd Ha Hs. apply (parse_swap rs c1 c2 eq); [congruence|congruence| | | |].
  - intros l c Ho s r. apply (Ha l c Ho).
  - intros l c s Ho. rewrite (Hs l c Ho). reflexivity.
  - intros l c s i Ho. rewrite (Hs l c Ho). reflexivity.
  - intros d s Ho. rewrite (defs_same rs c1 c2 Hs d Ho). reflexivity.
Qed.
Lemma swap_words : forall rs c1 c2 g1 g2 id m1 m2 debug fuel rd, configs_alike rs c1 c2 ->
  parser_for rs c1 g1 id m1 -> parser_for rs c2 g2 id m2 -> reader rd -> ending_of rd = None -> fst (parser_parse debug g1 fuel m1 rd) <> OutOfFuel ->
  exists f0, forall fuel2, f0 <= fuel2 -> same_but_words (fst (parser_parse debug g1 fuel m1 rd)) (fst (parser_parse debug g2 fuel2 m2 rd)).
Proof.
  intros rs c1 c2 g1 g2 id m1 m2 debug fuel rd Ha. apply (parse_swap rs c1 c2 (fun e e' => e_loc e = e_loc e')); auto.
  intros l c Ho s r. apply (Ha l c Ho).
Qed.

(** ** Scanners that answer alike *)
Lemma run_least : forall p m t, run_of p m t <= m.
Proof. intros p. induction m as [|m IH]; intros [|c t]; cbn [run_of]; try lia. destruct (p c); [specialize (IH t)|]; lia. Qed.
Lemma run_short : forall p m t, run_of p m t <= length t.
Proof. intros p. induction m as [|m IH]; intros [|c t]; cbn [run_of length]; try lia. destruct (p c); [specialize (IH t)|]; lia. Qed.
Lemma run_window : forall p m k t, m <= k -> run_of p m (firstn k t) = run_of p m t.
Proof.
  intros p. induction m as [|m IH]; intros [|k] [|c t] H; cbn [run_of firstn]; try reflexivity; [lia|]. destruct (p c); [|reflexivity]. f_equal. apply IH. lia.
Qed.
Lemma run_longest : forall p m s w s', longest_run p (Some (N.of_nat m)) s w s' -> w = firstn (run_of p m (p_rest s)) (p_rest s) /\ length w = run_of p m (p_rest s).
Proof.
  intros p m s w s' ((G & _) & Hw & Hm & Hstop). specialize (Hm _ eq_refl). rewrite G. clear G s.
  assert (K : run_of p m (w ++ p_rest s') = length w).
  { revert m Hm Hstop. induction Hw as [|c w Hc Hw IH]; intros m Hm Hstop; cbn [app length] in *.
    - destruct m as [|m]; [reflexivity|]. destruct (p_rest s') as [|c r]; [reflexivity|]. destruct Hstop as [E|[E|(c' & r' & E & Hc)]]; [discriminate|injection E; lia|]. injection E as -> ->. cbn [run_of]. rewrite Hc. reflexivity.
    - destruct m as [|m]; [lia|]. cbn [run_of]. rewrite Hc. f_equal. apply IH; [lia|]. destruct Hstop as [E|[E|E]]; [left; exact E|right; left|right; right; exact E]. injection E as E. f_equal. lia. }
  rewrite K. split; [|reflexivity]. rewrite firstn_app, firstn_all2, Nat.sub_diag by lia. cbn. rewrite app_nil_r. reflexivity.
Qed.
Lemma run_exists : forall p m s, exists s', longest_run p (Some (N.of_nat m)) s (firstn (run_of p m (p_rest s)) (p_rest s)) s'.
Proof.
  intros p m s. set (k := run_of p m (p_rest s)). exists (Pst (skipn k (p_rest s)) (loc_push_str (p_at s) (firstn k (p_rest s)))).
  split; [apply goes_push; cbn; split; [symmetry; apply firstn_skipn|reflexivity]|]. cbn [p_rest]. subst k. generalize (p_rest s). intros t. split; [|split].
  - revert t. induction m as [|m IH]; intros [|c t]; cbn [run_of firstn]; try constructor. destruct (p c) eqn:E; cbn [firstn]; [constructor; [exact E|apply IH]|constructor].
  - intros x [= <-]. rewrite firstn_length. pose proof (run_least p m t). lia.
  - revert t. induction m as [|m IH]; intros [|c t]; cbn [run_of firstn skipn length]; try (left; reflexivity); [right; left; reflexivity|].
    destruct (p c) eqn:E; cbn [firstn skipn length]; [|right; right; exists c, t; auto].
    destruct (IH t) as [K|[K|K]]; [left; exact K|right; left; injection K as K; f_equal; lia|right; right; exact K].
Qed.
Lemma goes_place : forall s w a b, goes s w a -> goes s w b -> a = b.
Proof.
  intros s w a b (A1 & A2) (B1 & B2). destruct (goes_push s w a) as (_ & _). assert (Ga : goes s w a) by (split; assumption). assert (Gb : goes s w b) by (split; assumption).
  apply goes_push in Ga as (_ & Ea). apply goes_push in Gb as (_ & Eb). destruct a, b; cbn in *. f_equal; [|congruence]. rewrite A1 in B1. apply app_inv_head in B1. exact B1.
Qed.
Lemma alike_from : forall def a b, (forall s r, scanned a def s r -> scanned b def s r) -> answer_alike def a b.
Proof.
  intros def a b H s r. split; [apply H|]. intros K. destruct (scanned_total a def s) as (r' & K'). rewrite (scanned_fun _ _ _ _ _ K (H _ _ K')). exact K'.
Qed.
Lemma regex_chars : forall p mn mx re find def, mx <= 256 -> finds_run p mn mx find ->
  answer_alike def (ScRegex re find) (ScChars p (Some (N.of_nat mn)) (Some (N.of_nat mx))).
Proof.
  intros p mn mx re find def Hmx Hf. apply alike_from. intros s r H. assert (Hw : run_of p mx (window s) = run_of p mx (p_rest s)) by (apply run_window; lia).
  pose proof (run_least p mx (p_rest s)) as Hk. set (k := run_of p mx (p_rest s)) in *.
  assert (Hfw : firstn k (window s) = firstn k (p_rest s)) by (unfold window; rewrite firstn_firstn; f_equal; lia).
  pose proof (Hf (window s)) as Hfs. rewrite Hw in Hfs. destruct (run_exists p mx s) as (s' & Hrun). fold k in Hrun.
  assert (Hlen : length (firstn k (p_rest s)) = k) by (apply (run_longest _ _ _ _ _ Hrun)).
  clear Hw. clearbody k.
  inversion H; subst.
  - match goal with K : find (window s) = Some _ |- _ => rewrite Hfs in K; destruct (Nat.leb_spec mn k); [|discriminate]; injection K as <- end. rewrite Hfw in *.
      match goal with G : goes s _ ?a |- _ => rewrite (goes_place _ _ _ _ G (proj1 Hrun)) end. apply sn_chars; [exact Hrun|]. intros (x & [= <-] & K). rewrite Hlen in K. lia.
  - match goal with K : find (window s) = Some _ |- _ => rewrite Hfs in K; destruct (Nat.leb_spec mn k); [|discriminate]; injection K as <- end. rewrite Hfw in *. exfalso. lia.
  - destruct (Nat.leb_spec mn k) as [K|K]; [exfalso; match goal with X : forall len, find _ <> _ |- _ => exact (X _ Hfs) end|]. eapply sn_chars_no; [exact Hrun|]. exists (N.of_nat mn). split; [reflexivity|]. rewrite Hlen. lia.
Qed.
Lemma one_chars : forall p sym def, answer_alike def (ScUser sym (one_char p)) (ScChars p (Some 1%N) (Some 1%N)).
Proof.
  intros p sym def. apply alike_from. intros s r H. destruct (run_exists p 1 s) as (s' & Hrun). change (N.of_nat 1) with 1%N in Hrun.
  inversion H; subst. match goal with K : programmed _ _ _ _ |- _ => unfold one_char in K; inversion K; subst; clear K end.
    match goal with K : programmed _ (SpRead _) _ _ |- _ => inversion K; subst; clear K end.
  + match goal with G : goes s [?c] ?a |- _ => destruct G as (G & G'); rewrite G in Hrun; cbn [run_of app] in Hrun end. destruct (p c) eqn:Ep.
      * match goal with K : programmed _ (SpRet _) _ _ |- _ => inversion K; subst; clear K end. cbn [reacts].
        assert (X : longest_run p (Some 1%N) s [c] s'0) by (split; [split; assumption|]; split; [constructor; auto|]; split; [intros x [= <-]; cbn; lia|right; left; reflexivity]).
        apply sn_chars; [exact X|]. intros (x & [= <-] & Y). cbn [length] in Y. lia.
      * match goal with K : programmed _ (SpRet _) _ _ |- _ => inversion K; subst; clear K end. cbn [reacts].
        eapply sn_chars_no; [exact Hrun|]. exists 1%N. split; [reflexivity|]. cbn. lia.
  + match goal with K : programmed _ (SpRet _) _ _ |- _ => inversion K; subst; clear K end. cbn [reacts]. match goal with G : p_rest s = [] |- _ => rewrite G in Hrun end. cbn in Hrun.
      eapply sn_chars_no; [exact Hrun|]. exists 1%N. split; [reflexivity|]. cbn. lia.
Qed.
