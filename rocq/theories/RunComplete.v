(** The machine against the big-step semantics: completeness. *)
From Coq Require Import String List NArith Arith Bool Lia.
From Verif Require Import Base Ident Tokenizer Ast Lex Syntax Io Graph Machine SpecText SpecSyntax TextFacts SyntaxFacts SpecParse Pure PureFacts ParseFacts CodeFacts RunFacts.
Import ListNotations.
Open Scope nat_scope.

Section Complete.
Variable rules : list rule.
Variable cfg : config.
Variable g : graph.
Hypothesis Hg : faithful cfg rules g.
Notation ev := (ev rules cfg).
Notation code := (code cfg (g_instrs g)).
Notation at_ := (at_ (g_instrs g)).
Notation run f := (prun g f None).

Definition finally {X} (F : nat -> X) (x : X) : Prop := exists f0, forall f, f0 <= f -> F f = x.
Definition concl (i : nat) (ex : option nat) (evs : list event) (s : pst) (o : outcome) : Prop :=
  match o with
  | Match s' e => forall x, finally (fun f => run f ex (evs ++ e) s') x -> finally (fun f => run f (Some i) evs s) x
  | _ => exists f0, forall f, f0 <= f -> answers (run f (Some i) evs s) evs o
  end.
Definition comp (n : node) (s : pst) (o : outcome) : Prop :=
  match n with
  | NTimes mn mx k b => forall sub temp, code b sub None -> exists f0, forall f fl, f0 <= f -> f0 <= fl ->
      rep_answers (prep_loop (fun evs => run f (Some sub) evs) fl mn mx k temp s) temp o
  | NAlts ds => forall subs, codes cfg (g_instrs g) ds subs -> exists f0, forall f, f0 <= f ->
      or_answers (por_loop (fun a => run f (Some a) []) subs s) s o
  | NRef l id => forall i next sym evs, at_ i next (StAlias id) l sym -> concl i next evs s o
  | NFwd id => forall a evs, g_label g id = Some a -> exists f0, forall f, f0 <= f -> answers (run f (Some a) evs s) evs o
  | _ => forall i next evs, code n i next -> ends n next -> concl i (exit n next) evs s o
  end.
Lemma concl_none : forall i evs s o, concl i None evs s o -> exists f0, forall f, f0 <= f -> answers (run f (Some i) evs s) evs o.
Proof.
  intros i evs s [s' e|l s' e|h] H; auto. destruct (H (Ok (Proceed, evs ++ e), s')) as (f0 & Hf).
  - exists 1. intros [|f] Hf; [lia|reflexivity].
  - exists f0. exact Hf.
Qed.
Lemma comp_sub : forall n s o i evs, comp n s o -> code n i None -> exists f0, forall f, f0 <= f -> answers (run f (Some i) evs s) evs o.
Proof.
  intros n s o i evs H Hc.
  assert (K : concl i None evs s o).
  { destruct n; cbn [comp] in H.
    - exact (H i None evs Hc I).
    - inversion Hc.
    - exact (H i None evs Hc eq_refl).
    - pose proof (H i None evs Hc I) as K. rewrite exit_none in K. exact K.
    - pose proof (H i None evs Hc I) as K. rewrite exit_none in K. exact K.
    - pose proof (H i None evs Hc I) as K. rewrite exit_none in K. exact K.
    - inversion Hc.
    - inversion Hc.
    - inversion Hc. }
  apply concl_none. exact K.
Qed.
Lemma settle : forall next evs s o f0, (forall f, f0 <= f -> answers (run f next evs s) evs o) ->
  exists x, answers x evs o /\ finally (fun f => run f next evs s) x.
Proof.
  intros next evs s o f0 H. exists (run f0 next evs s). split; [apply H; lia|]. exists f0. intros f Hf. apply finer_run; [exact Hf|].
  specialize (H f0 (le_n _)). intros E. destruct o as [s' e|l s' e|[e|]]; cbn in H.
  - rewrite H in E. discriminate.
  - destruct H as (er & _ & H). rewrite H in E. discriminate.
  - destruct H as (s' & H). rewrite H in E. discriminate.
  - destruct H as (p & s' & H). rewrite H in E. discriminate.
Qed.
(** A step that goes on with the next instruction. *)
Lemma concl_step : forall i next evs s s' e, (exists f0, forall f, f0 <= f -> run (S f) (Some i) evs s = run f next (evs ++ e) s') ->
  concl i next evs s (Match s' e).
Proof.
  intros i next evs s s' e (f0 & H) x (f1 & Hx). exists (S (f0 + f1)). intros [|f] Hf; [lia|]. rewrite H by lia. apply Hx. lia.
Qed.
Lemma concl_no : forall i next evs s l s' e, (exists f0, forall f, f0 <= f -> exists er, er = l /\ run (S f) (Some i) evs s = (Ok (NotThisWay er, evs ++ e), s')) ->
  concl i next evs s (No l s' e).
Proof.
  intros i next evs s l s' e (f0 & H). exists (S f0). intros [|f] Hf; [lia|]. apply H. lia.
Qed.
Lemma concl_halt : forall i next evs s h, (exists f0, forall f, f0 <= f -> answers (run (S f) (Some i) evs s) evs (Halt h)) ->
  concl i next evs s (Halt h).
Proof. intros i next evs s h (f0 & H). exists (S f0). intros [|f] Hf; [lia|]. apply H. lia. Qed.
Lemma halt_bind : forall {A} (m : P A) (k : A -> P (prospect * list event)) s h,
  match h with Failed er => exists s', m s = (Err er, s') | Crashed => exists p s', m s = (Panic p, s') end ->
  forall evs, answers (pbind m k s) evs (Halt h).
Proof.
  intros A m k s [er|] H evs; cbn.
  - destruct H as (s' & H). exists s'. apply pbind_err. exact H.
  - destruct H as (p & s' & H). exists p, s'. apply pbind_panic. exact H.
Qed.
(** Repetition instructions. *)
Lemma rep_step : forall mn mx b s o i next sub l sym evs, comp (NTimes mn mx 0 b) s o -> at_ i next (StRepetition mn mx sub) l sym -> code b sub None ->
  concl i next evs s o.
Proof.
  intros mn mx b s o i next sub l sym evs H Hi Hc. destruct (H sub [] Hc) as (f0 & Hf). destruct o as [s' e|l' s' e|h].
  - apply concl_step. exists f0. intros f Hle. rewrite (run_at _ _ _ _ _ _ _ _ _ Hi). cbv beta zeta iota. specialize (Hf f f Hle Hle). cbn in Hf. rewrite (pbind_ok _ _ _ _ _ Hf). reflexivity.
  - apply concl_no. exists f0. intros f Hle. rewrite (run_at _ _ _ _ _ _ _ _ _ Hi). cbv beta zeta iota. specialize (Hf f f Hle Hle). cbn in Hf.
    destruct Hf as (-> & er & Hl & Hx). exists er. split; [exact Hl|]. rewrite (pbind_ok _ _ _ _ _ Hx), app_nil_r. reflexivity.
  - apply concl_halt. exists f0. intros f Hle. rewrite (run_at _ _ _ _ _ _ _ _ _ Hi). cbv beta zeta iota. specialize (Hf f f Hle Hle). apply halt_bind. exact Hf.
Qed.
Lemma scan_known : forall f sc def s r, scanned sc def s r -> length (p_rest s) < f -> scan_is (pspecial_scan None f sc def s) r.
Proof.
  intros f sc def s r H Hf. destruct (scan_none f sc def s) as [(_ & Z)|(r' & H' & Hs)]; [lia|].
  rewrite (scanned_fun _ _ _ _ _ H H'). exact Hs.
Qed.

Lemma forward_step : forall l c s id s1 o i next, scanned (cfg l c) l s (SForward id s1) -> comp (NFwd id) s1 o ->
  (exists a, g_label g id = Some a) ->
  nth_error (g_instrs g) i = Some (Instr next (scanner_symbol (cfg l c)) l (StSpecial (cfg l c))) -> forall evs,
  concl i next evs s (match o with No _ s2 e => Match s2 e | _ => o end).
Proof.
  intros l c s id s1 o i next Hsc H (a & Hla) Hi evs. destruct (H a evs Hla) as (f0 & Hf).
  assert (Hrun : forall f, f0 + S (length (p_rest s)) <= f -> exists x s2, run f (Some a) evs s1 = (x, s2) /\
     run (S f) (Some i) evs s = match x with Ok (p, e) => run f next e s2 | Err e => (Err e, s2) | Panic p => (Panic p, s2) | OutOfFuel => (OutOfFuel, s2) end).
  { intros f Hle. rewrite (run_at _ _ _ _ _ _ _ _ _ Hi). cbv beta zeta iota. unfold pspecial_step. cbn [i_def i_symbol].
    pose proof (scan_known f _ _ _ _ Hsc ltac:(lia)) as Hk. destruct (pspecial_scan None f (cfg l c) l s) as (x & s') eqn:Es.
    destruct x as [[evts| |id']|er|pn|]; cbn in Hk; try discriminate; try contradiction. injection Hk as <- <-.
    destruct (run f (Some a) evs s1) as (x & s2) eqn:Er. exists x, s2. split; [reflexivity|].
    destruct x as [(p & e)|er|pn|].
    - erewrite pbind_ok. 2:{ rewrite (pbind_ok pget _ s _ _ eq_refl). rewrite (pbind_ok _ _ _ _ _ Es). rewrite Hla. rewrite (pbind_ok _ _ _ _ _ Er). reflexivity. } reflexivity.
    - erewrite pbind_err. 2:{ rewrite (pbind_ok pget _ s _ _ eq_refl). rewrite (pbind_ok _ _ _ _ _ Es). rewrite Hla. rewrite (pbind_err _ _ _ _ _ Er). reflexivity. } reflexivity.
    - erewrite pbind_panic. 2:{ rewrite (pbind_ok pget _ s _ _ eq_refl). rewrite (pbind_ok _ _ _ _ _ Es). rewrite Hla. rewrite (pbind_panic _ _ _ _ _ Er). reflexivity. } reflexivity.
    - erewrite pbind_fuel. 2:{ rewrite (pbind_ok pget _ s _ _ eq_refl). rewrite (pbind_ok _ _ _ _ _ Es). rewrite Hla. rewrite (pbind_fuel _ _ _ _ Er). reflexivity. } reflexivity. }
  destruct o as [s2 e|l2 s2 e|h].
  - apply concl_step. exists (f0 + S (length (p_rest s))). intros f Hle. destruct (Hrun f Hle) as (x & s3 & Er & Hx). rewrite Hx.
    specialize (Hf f ltac:(lia)). cbn in Hf. rewrite Er in Hf. injection Hf as -> ->. reflexivity.
  - apply concl_step. exists (f0 + S (length (p_rest s))). intros f Hle. destruct (Hrun f Hle) as (x & s3 & Er & Hx). rewrite Hx.
    specialize (Hf f ltac:(lia)). cbn in Hf. rewrite Er in Hf. destruct Hf as (er & _ & Hf). injection Hf as -> ->. reflexivity.
  - apply concl_halt. exists (f0 + S (length (p_rest s))). intros f Hle. destruct (Hrun f Hle) as (x & s3 & Er & Hx). rewrite Hx.
    specialize (Hf f ltac:(lia)). rewrite Er in Hf. destruct h as [er|]; cbn in *.
    + destruct Hf as (s' & Hf). injection Hf as -> ->. eauto.
    + destruct Hf as (p & s' & Hf). injection Hf as -> ->. eauto.
Qed.
Lemma label_fwd : forall id s o, ev (NFwd id) s o -> exists a, g_label g id = Some a.
Proof.
  intros id s o H. inversion H; subst.
  - destruct (Hg id) as (HA & _). destruct (HA r) as (a & Ha & _); eauto.
  - destruct (Hg id) as (_ & HB & _). destruct (HB r) as (a & Ha & _); eauto.
Qed.
Lemma exit_term : forall f i, exit (NTerm (Term f None)) i = exit (NFactor f) i.
Proof. intros [k []] i; cbn; auto. destruct (N.eqb k 1); reflexivity. Qed.
Lemma exit_factor : forall p i, exit (NFactor (Factor 1 p)) i = exit (NPrim p) i.
Proof. intros [] i; reflexivity. Qed.
Lemma exit_many : forall n p i, n <> 1%N -> exit (NFactor (Factor n p)) i = i.
Proof. intros n [] i H; cbn; auto. apply N.eqb_neq in H. rewrite H. reflexivity. Qed.
Lemma exit_exc : forall f e i, exit (NTerm (Term f (Some e))) i = i.
Proof. intros [k []] e i; reflexivity. Qed.

Lemma alias_step : forall l id r s o i next sym, names rules id r -> comp (NDefs (r_defs r)) s o -> at_ i next (StAlias id) l sym -> forall evs,
  concl i next evs s (match o with
    | Match s' e => Match s' ((EvBegin l (p_at s) (r_id r) :: e) ++ [EvEnd l (p_at s') (r_id r)])
    | No l s' e => No l s' []
    | Halt h => Halt h end).
Proof.
  intros l id r s o i next sym Hr H Hi evs. destruct (Hg id) as (HA & _). destruct (HA r Hr) as (a & Hla & Hca & Hcn).
  destruct (comp_sub _ _ _ _ [EvBegin l (p_at s) (r_id r)] H Hca) as (f0 & Hf).
  destruct o as [s' e|l' s' e|h].
  - apply concl_step. exists f0. intros f Hle. rewrite (run_at _ _ _ _ _ _ _ _ _ Hi). cbv beta zeta iota. rewrite Hla, Hcn, (pbind_ok ploc _ s _ _ eq_refl).
    specialize (Hf f Hle). cbn in Hf. rewrite (pbind_ok _ _ _ _ _ Hf). rewrite (pbind_ok ploc _ s' _ _ eq_refl). reflexivity.
  - apply concl_no. exists f0. intros f Hle. rewrite (run_at _ _ _ _ _ _ _ _ _ Hi). cbv beta zeta iota. rewrite Hla, Hcn, (pbind_ok ploc _ s _ _ eq_refl).
    specialize (Hf f Hle). cbn in Hf. destruct Hf as (er & Hl & Hf). exists er. split; [exact Hl|]. rewrite (pbind_ok _ _ _ _ _ Hf), app_nil_r. reflexivity.
  - apply concl_halt. exists f0. intros f Hle. rewrite (run_at _ _ _ _ _ _ _ _ _ Hi). cbv beta zeta iota. rewrite Hla, Hcn, (pbind_ok ploc _ s _ _ eq_refl).
    specialize (Hf f Hle). apply halt_bind. exact Hf.
Qed.

Lemma except_step : forall fa ex s w s' e o i next ia ie l sym, comp (NFactor fa) s (Match s' e) -> goes s w s' -> comp (NFactor ex) (Pst w (p_at s)) o ->
  at_ i next (StExcept ia ie) l sym -> code (NFactor fa) ia None -> code (NFactor ex) ie None -> forall evs,
  concl i next evs s (match o with
    | Match s2 _ => match p_rest s2 with [] => No (wanted s sym) s [] | _ => Match s' e end
    | No _ _ _ => Match s' e
    | Halt h => Halt h end).
Proof.
  intros fa ex s w s' e o i next ia ie l sym H1 Hw H2 Hi Ha He evs. pose proof (pexpected_at g i s _ _ _ _ Hi) as Hwn.
  destruct (comp_sub _ _ _ _ [] H1 Ha) as (f1 & Hf1). destruct (comp_sub _ _ _ _ [] H2 He) as (f2 & Hf2).
  assert (Hstep : forall f, f1 + f2 + S (length w) <= f -> exists x s2, run f (Some ie) [] (Pst w (p_at s)) = (x, s2) /\
     run (S f) (Some i) evs s = match x with
       | Ok (Proceed, _) => match p_rest s2 with
           | [] => match perr_expected None g (Some i) s with (Ok er, s3) => (Ok (NotThisWay er, evs), s3) | (Err er, s3) => (Err er, s3) | (Panic p, s3) => (Panic p, s3) | (OutOfFuel, s3) => (OutOfFuel, s3) end
           | _ => run f next (evs ++ e) s' end
       | Ok (NotThisWay _, _) => run f next (evs ++ e) s'
       | Err er => (Err er, s') | Panic p => (Panic p, s') | OutOfFuel => (OutOfFuel, s') end).
  { intros f Hle. rewrite (run_at _ _ _ _ _ _ _ _ _ Hi). cbv beta zeta iota. unfold pexcept_scan.
    specialize (Hf1 f ltac:(lia)). cbn in Hf1.
    erewrite pbind_cong. 2:{ rewrite (pbind_ok pget _ s _ _ eq_refl). rewrite (pbind_ok _ _ _ _ _ Hf1). rewrite (pbind_ok pget _ s' _ _ eq_refl). rewrite (between_goes _ _ _ Hw). cbv zeta. reflexivity. }
    replace (Nat.ltb (length w) f) with true by (symmetry; apply Nat.ltb_lt; lia).
    destruct (run f (Some ie) [] (Pst w (p_at s))) as (x & s2) eqn:Er. exists x, s2. split; [reflexivity|]. destruct x as [(p & t)|er|pn|].
    - destruct p as [|er].
      + erewrite pbind_cong. 2:{ rewrite (pbind_ok _ _ _ _ _ Er). rewrite peof_none. cbn [fst]. reflexivity. }
        destruct (p_rest s2) as [|? ?]; [|reflexivity].
        pose proof Hwn as Hx. rewrite Hx.
        erewrite pbind_ok. 2:{ rewrite (pbind_ok (pput s) _ s' tt s eq_refl). rewrite (pbind_ok _ _ _ _ _ Hx). reflexivity. } reflexivity.
      + erewrite pbind_cong. 2:{ rewrite (pbind_ok _ _ _ _ _ Er). cbn [fst pret]. reflexivity. } reflexivity.
    - erewrite pbind_cong. 2:{ rewrite (pbind_err _ _ _ _ _ Er). cbn [fst]. reflexivity. } reflexivity.
    - erewrite pbind_cong. 2:{ rewrite (pbind_panic _ _ _ _ _ Er). cbn [fst]. reflexivity. } reflexivity.
    - erewrite pbind_cong. 2:{ rewrite (pbind_fuel _ _ _ _ Er). cbn [fst]. reflexivity. } reflexivity. }
  destruct o as [s2 e2|l2 s2 e2|h].
  - destruct (p_rest s2) as [|c r] eqn:E2.
    + apply concl_no. exists (f1 + f2 + S (length w)). intros f Hle. destruct (Hstep f Hle) as (x & s3 & Er & Hx). rewrite Hx.
      specialize (Hf2 f ltac:(lia)). cbn in Hf2. rewrite Er in Hf2. injection Hf2 as -> ->. rewrite E2.
      rewrite Hwn. eexists. split; [reflexivity|]. rewrite app_nil_r. reflexivity.
    + apply concl_step. exists (f1 + f2 + S (length w)). intros f Hle. destruct (Hstep f Hle) as (x & s3 & Er & Hx). rewrite Hx.
      specialize (Hf2 f ltac:(lia)). cbn in Hf2. rewrite Er in Hf2. injection Hf2 as -> ->. rewrite E2. reflexivity.
  - apply concl_step. exists (f1 + f2 + S (length w)). intros f Hle. destruct (Hstep f Hle) as (x & s3 & Er & Hx). rewrite Hx.
    specialize (Hf2 f ltac:(lia)). cbn in Hf2. rewrite Er in Hf2. destruct Hf2 as (er & _ & Hf2). injection Hf2 as -> ->. reflexivity.
  - apply concl_halt. exists (f1 + f2 + S (length w)). intros f Hle. destruct (Hstep f Hle) as (x & s3 & Er & Hx). rewrite Hx.
    specialize (Hf2 f ltac:(lia)). rewrite Er in Hf2. destruct h as [er|]; cbn in *.
    + destruct Hf2 as (s4 & Hf2). injection Hf2 as -> ->. eauto.
    + destruct Hf2 as (p & s4 & Hf2). injection Hf2 as -> ->. eauto.
Qed.

Lemma except_factor : forall fa s i next ia ie l sym, at_ i next (StExcept ia ie) l sym -> code (NFactor fa) ia None ->
  forall o, comp (NFactor fa) s o -> match o with Match _ _ => True | _ => forall evs, concl i next evs s (match o with No l _ _ => No l s [] | _ => o end) end.
Proof.
  intros fa s i next ia ie l sym Hi Ha o H. destruct o as [s' e|l' s' e|h]; auto.
  - intros evs. destruct (comp_sub _ _ _ _ [] H Ha) as (f1 & Hf1).
    apply concl_no. exists f1. intros f Hle. rewrite (run_at _ _ _ _ _ _ _ _ _ Hi). cbv beta zeta iota. unfold pexcept_scan.
    specialize (Hf1 f Hle). cbn in Hf1. destruct Hf1 as (er & Hl & Hf1). exists er. split; [exact Hl|].
    erewrite pbind_ok. 2:{ rewrite (pbind_ok pget _ s _ _ eq_refl). rewrite (pbind_ok _ _ _ _ _ Hf1). rewrite (pbind_ok (pput s) _ s' tt s eq_refl). reflexivity. }
    rewrite app_nil_r. reflexivity.
  - intros evs. destruct (comp_sub _ _ _ _ [] H Ha) as (f1 & Hf1).
    apply concl_halt. exists f1. intros f Hle. rewrite (run_at _ _ _ _ _ _ _ _ _ Hi). cbv beta zeta iota. unfold pexcept_scan.
    specialize (Hf1 f Hle). apply halt_bind. rewrite (pbind_ok pget _ s _ _ eq_refl).
    destruct h as [er|]; cbn in Hf1.
    + destruct Hf1 as (s' & Hf1). exists s'. apply pbind_err. exact Hf1.
    + destruct Hf1 as (p & s' & Hf1). exists p, s'. apply pbind_panic. exact Hf1.
Qed.

Ltac rep_start Hb Hc temp :=
  let f0 := fresh "f0" in let Hf := fresh "Hf" in
  destruct (comp_sub _ _ _ _ temp Hb Hc) as (f0 & Hf).

Lemma complete_run : forall n s o, ev n s o -> comp n s o.
Proof.
  intros n s o H. induction H.
  - (* terminal *) intros i next evs Hc _. inversion Hc; subst. match goal with K : CodeFacts.at_ _ _ _ _ _ _ |- _ => rename K into Hi end. cbn [exit].
    apply concl_step. exists 0. intros f _. rewrite (run_at _ _ _ _ _ _ _ _ _ Hi). cbv beta zeta iota. unfold pterminal_step.
    destruct (pprefix_none w s) as [(s2 & A & B)|(A & B)]; [|destruct (A _ H)].
    erewrite pbind_ok. 2:{ rewrite (pbind_ok _ _ _ _ _ B). rewrite (pbind_ok ploc _ s _ _ eq_refl). rewrite (pbind_ok (pskip _) _ s tt _ eq_refl). reflexivity. }
    cbn [i_def]. rewrite (goes_move _ _ _ H). reflexivity.
  - (* terminal, no *) intros i next evs Hc _. inversion Hc; subst. match goal with K : CodeFacts.at_ _ _ _ _ _ _ |- _ => rename K into Hi end. cbn [exit].
    apply concl_no. exists 0. intros f _. rewrite (run_at _ _ _ _ _ _ _ _ _ Hi). cbv beta zeta iota. unfold pterminal_step.
    destruct (pprefix_none w s) as [(s2 & A & B)|(A & B)]; [destruct (H _ A)|].
    pose proof (pexpected_at g i s _ _ _ _ Hi) as He. eexists. split; [reflexivity|].
    erewrite pbind_ok. 2:{ rewrite (pbind_ok _ _ _ _ _ B). rewrite (pbind_ok _ _ _ _ _ He). reflexivity. } rewrite app_nil_r. reflexivity.
  - (* empty *) intros i next evs Hc _. inversion Hc; subst. match goal with K : CodeFacts.at_ _ _ _ _ _ _ |- _ => rename K into Hi end. cbn [exit].
    apply concl_step. exists 0. intros f _. rewrite (run_at _ _ _ _ _ _ _ _ _ Hi). cbv beta zeta iota. rewrite app_nil_r. reflexivity.
  - (* special *) intros i next evs0 Hc _. inversion Hc as [| |? ? ? ? Hi| | | | | | | | | | | | |]; subst. cbn [exit].
    apply concl_step. exists (S (length (p_rest s))). intros f Hle. rewrite (run_at _ _ _ _ _ _ _ _ _ Hi). cbv beta zeta iota. unfold pspecial_step. cbn [i_def].
    pose proof (scan_known f _ _ _ _ H ltac:(lia)) as Hk. destruct (pspecial_scan None f (cfg l c) l s) as (x & s1) eqn:Es.
    destruct x as [[evts| |id']|er|pn|]; cbn in Hk; try discriminate; try contradiction. injection Hk as <- <-.
    erewrite pbind_ok. 2:{ rewrite (pbind_ok pget _ s _ _ eq_refl). rewrite (pbind_ok _ _ _ _ _ Es). reflexivity. } reflexivity.
  - (* special, no *) intros i next evs0 Hc _. inversion Hc as [| |? ? ? ? Hi| | | | | | | | | | | | |]; subst. cbn [exit].
    apply concl_no. exists (S (length (p_rest s))). intros f Hle. rewrite (run_at _ _ _ _ _ _ _ _ _ Hi). cbv beta zeta iota. unfold pspecial_step. cbn [i_def].
    pose proof (scan_known f _ _ _ _ H ltac:(lia)) as Hk. destruct (pspecial_scan None f (cfg l c) l s) as (x & s1) eqn:Es.
    destruct x as [[evts| |id']|er|pn|]; cbn in Hk; try discriminate; try contradiction.
    pose proof (pexpected_at g i s _ _ _ _ Hi) as He. eexists. split; [reflexivity|].
    erewrite pbind_ok. 2:{ rewrite (pbind_ok pget _ s _ _ eq_refl). rewrite (pbind_ok _ _ _ _ _ Es).
        rewrite (pbind_ok (pput s) _ s1 tt s eq_refl). rewrite (pbind_ok _ _ _ _ _ He). reflexivity. } rewrite app_nil_r. reflexivity.
  - (* special, error *) intros i next evs0 Hc _. inversion Hc as [| |? ? ? ? Hi| | | | | | | | | | | | |]; subst. cbn [exit].
    apply concl_halt. exists (S (length (p_rest s))). intros f Hle. rewrite (run_at _ _ _ _ _ _ _ _ _ Hi). cbv beta zeta iota. unfold pspecial_step. cbn [i_def].
    pose proof (scan_known f _ _ _ _ H ltac:(lia)) as Hk. destruct (pspecial_scan None f (cfg l c) l s) as (x & s1) eqn:Es.
    destruct x as [[evts| |id']|er|pn|]; cbn in Hk; try discriminate; try contradiction. injection Hk as <-.
    apply halt_bind. exists s1. rewrite (pbind_ok pget _ s _ _ eq_refl). apply pbind_err. exact Es.
  - (* forward *) intros i next evs0 Hc _. inversion Hc as [| |? ? ? ? Hi| | | | | | | | | | | | |]; subst. cbn [exit].
    exact (forward_step _ _ _ _ _ _ _ _ H IHev (label_fwd _ _ _ H0) Hi evs0).
  - intros i next evs0 Hc _. inversion Hc as [| |? ? ? ? Hi| | | | | | | | | | | | |]; subst. cbn [exit].
    exact (forward_step _ _ _ _ _ _ _ _ H IHev (label_fwd _ _ _ H0) Hi evs0).
  - intros i next evs0 Hc _. inversion Hc as [| |? ? ? ? Hi| | | | | | | | | | | | |]; subst. cbn [exit].
    exact (forward_step _ _ _ _ _ _ _ _ H IHev (label_fwd _ _ _ H0) Hi evs0).
  - (* unknown target *) intros i next evs0 Hc _. inversion Hc as [| |? ? ? ? Hi| | | | | | | | | | | | |]; subst. cbn [exit].
    apply concl_halt. exists (S (length (p_rest s))). intros f Hle. rewrite (run_at _ _ _ _ _ _ _ _ _ Hi). cbv beta zeta iota. unfold pspecial_step. cbn [i_def i_symbol].
    pose proof (scan_known f _ _ _ _ H ltac:(lia)) as Hk. destruct (pspecial_scan None f (cfg l c) l s) as (x & s2) eqn:Es.
    destruct x as [[evts| |id']|er|pn|]; cbn in Hk; try discriminate; try contradiction. injection Hk as <- <-.
    apply halt_bind. eexists. rewrite (pbind_ok pget _ s _ _ eq_refl). rewrite (pbind_ok _ _ _ _ _ Es).
    destruct (Hg id) as (_ & _ & _ & HD). rewrite (HD H0 H1). rewrite (pbind_ok (pput s) _ s1 tt s eq_refl). rewrite (pbind_ok ploc _ s _ _ eq_refl). reflexivity.
  - (* meta *) intros i next evs Hc _. inversion Hc; subst. cbn [exit]. eapply IHev. eassumption.
  - intros i next sym evs0 Hi. exact (alias_step _ _ _ _ _ _ _ _ H IHev Hi evs0).
  - intros i next sym evs0 Hi. exact (alias_step _ _ _ _ _ _ _ _ H IHev Hi evs0).
  - intros i next sym evs0 Hi. exact (alias_step _ _ _ _ _ _ _ _ H IHev Hi evs0).
  - (* undefined *) intros i next sym evs Hi. apply concl_halt. exists 0. intros f _. rewrite (run_at _ _ _ _ _ _ _ _ _ Hi). cbv beta zeta iota.
    destruct (Hg id) as (_ & _ & HC & _). rewrite (HC H). destruct (g_label g id); cbn; eauto.
    + eexists _, _. reflexivity.
    + eexists _, _. reflexivity.
  - intros i next evs Hc _. inversion Hc; subst. cbn [exit]. eapply rep_step; eauto.
  - intros i next evs Hc _. inversion Hc; subst. cbn [exit]. eapply rep_step; eauto.
  - intros i next evs Hc _. inversion Hc; subst. cbn [exit]. apply (IHev i None); auto. exact I.
  - (* times *) intros sub temp Hc. exists 1. intros f [|fl] _ Hfl; [lia|]. cbn [prep_loop]. replace (N.ltb i max) with false by (symmetry; apply N.ltb_ge; assumption).
    cbn. rewrite app_nil_r. reflexivity.
  - intros sub temp Hc. rep_start IHev Hc temp. exists (S f0). intros f [|fl] Hle Hfl; [lia|]. cbn [prep_loop]. replace (N.ltb i max) with true by (symmetry; apply N.ltb_lt; assumption).
    specialize (Hf f ltac:(lia)). cbn in Hf. destruct Hf as (er & Hl & Hf). rewrite (pbind_ok pget _ s _ _ eq_refl). rewrite (pbind_ok _ _ _ _ _ Hf).
    replace (N.ltb i min) with true by (symmetry; apply N.ltb_lt; assumption). cbn. split; [reflexivity|]. exists er. auto.
  - intros sub temp Hc. rep_start IHev Hc temp. exists (S f0). intros f [|fl] Hle Hfl; [lia|]. cbn [prep_loop]. replace (N.ltb i max) with true by (symmetry; apply N.ltb_lt; assumption).
    specialize (Hf f ltac:(lia)). cbn in Hf. destruct Hf as (er & Hl & Hf). rewrite (pbind_ok pget _ s _ _ eq_refl). rewrite (pbind_ok _ _ _ _ _ Hf).
    replace (N.ltb i min) with false by (symmetry; apply N.ltb_ge; assumption). reflexivity.
  - intros sub temp Hc. rep_start IHev Hc temp. exists (S f0). intros f [|fl] Hle Hfl; [lia|]. cbn [prep_loop]. replace (N.ltb i max) with true by (symmetry; apply N.ltb_lt; assumption).
    specialize (Hf f ltac:(lia)). cbn in Hf. rewrite (pbind_ok pget _ s _ _ eq_refl). rewrite (pbind_ok _ _ _ _ _ Hf). rewrite (pbind_ok ploc _ s' _ _ eq_refl).
    subst max. rewrite H2, loc_eqb_refl. cbn. eexists. reflexivity.
  - intros sub temp Hc. rep_start IHev Hc temp. exists (S f0). intros f [|fl] Hle Hfl; [lia|]. cbn [prep_loop]. replace (N.ltb i max) with true by (symmetry; apply N.ltb_lt; assumption).
    specialize (Hf f ltac:(lia)). rewrite (pbind_ok pget _ s _ _ eq_refl). destruct h as [er|]; cbn in *.
    + destruct Hf as (s' & Hf). exists s'. apply pbind_err. exact Hf.
    + destruct Hf as (p & s' & Hf). exists p, s'. apply pbind_panic. exact Hf.
  - assert (El : ((max =? u32_max)%N && loc_eqb (p_at s') (p_at s))%bool = false).
    { destruct (N.eqb_spec max u32_max) as [E|]; [|reflexivity]. apply H0 in E. destruct (loc_eqb (p_at s') (p_at s)) eqn:E2; [|reflexivity]. apply loc_eqb_eq in E2. contradiction. }
    intros sub temp Hc. rep_start IHev1 Hc temp. destruct (IHev2 sub (temp ++ evs) Hc) as (f1 & Hf1). exists (S (f0 + f1)). intros f [|fl] Hle Hfl; [lia|]. cbn [prep_loop]. replace (N.ltb i max) with true by (symmetry; apply N.ltb_lt; assumption).
    specialize (Hf f ltac:(lia)). cbn in Hf. rewrite (pbind_ok pget _ s _ _ eq_refl). rewrite (pbind_ok _ _ _ _ _ Hf). rewrite (pbind_ok ploc _ s' _ _ eq_refl). rewrite El.
    specialize (Hf1 f fl ltac:(lia) ltac:(lia)). cbn in Hf1 |- *. rewrite app_assoc. exact Hf1.
  - assert (El : ((max =? u32_max)%N && loc_eqb (p_at s') (p_at s))%bool = false).
    { destruct (N.eqb_spec max u32_max) as [E|]; [|reflexivity]. apply H0 in E. destruct (loc_eqb (p_at s') (p_at s)) eqn:E2; [|reflexivity]. apply loc_eqb_eq in E2. contradiction. }
    intros sub temp Hc. rep_start IHev1 Hc temp. destruct (IHev2 sub (temp ++ evs) Hc) as (f1 & Hf1). exists (S (f0 + f1)). intros f [|fl] Hle Hfl; [lia|]. cbn [prep_loop]. replace (N.ltb i max) with true by (symmetry; apply N.ltb_lt; assumption).
    specialize (Hf f ltac:(lia)). cbn in Hf. rewrite (pbind_ok pget _ s _ _ eq_refl). rewrite (pbind_ok _ _ _ _ _ Hf). rewrite (pbind_ok ploc _ s' _ _ eq_refl). rewrite El.
    exact (Hf1 f fl ltac:(lia) ltac:(lia)).
  - assert (El : ((max =? u32_max)%N && loc_eqb (p_at s') (p_at s))%bool = false).
    { destruct (N.eqb_spec max u32_max) as [E|]; [|reflexivity]. apply H0 in E. destruct (loc_eqb (p_at s') (p_at s)) eqn:E2; [|reflexivity]. apply loc_eqb_eq in E2. contradiction. }
    intros sub temp Hc. rep_start IHev1 Hc temp. destruct (IHev2 sub (temp ++ evs) Hc) as (f1 & Hf1). exists (S (f0 + f1)). intros f [|fl] Hle Hfl; [lia|]. cbn [prep_loop]. replace (N.ltb i max) with true by (symmetry; apply N.ltb_lt; assumption).
    specialize (Hf f ltac:(lia)). cbn in Hf. rewrite (pbind_ok pget _ s _ _ eq_refl). rewrite (pbind_ok _ _ _ _ _ Hf). rewrite (pbind_ok ploc _ s' _ _ eq_refl). rewrite El.
    exact (Hf1 f fl ltac:(lia) ltac:(lia)).
  - (* factor *) intros i next evs Hc _. inversion Hc; subst; [|congruence]. rewrite exit_factor. apply (IHev i next); auto. exact I.
  - intros i next evs Hc _. inversion Hc; subst; [congruence|]. rewrite exit_many by assumption. eapply rep_step; eauto.
  - (* term *) intros i next evs Hc _. inversion Hc; subst. rewrite exit_term. apply (IHev i next); auto. exact I.
  - intros i next evs0 Hc _. inversion Hc; subst. rewrite exit_exc.
    match goal with K : CodeFacts.at_ _ _ _ _ _ _ |- _ => exact (except_factor f s _ _ _ _ _ _ K ltac:(eassumption) (No _ s' evs) IHev evs0) end.
  - intros i next evs0 Hc _. inversion Hc; subst. rewrite exit_exc.
    match goal with K : CodeFacts.at_ _ _ _ _ _ _ |- _ => exact (except_factor f s _ _ _ _ _ _ K ltac:(eassumption) (Halt h) IHev evs0) end.
  - intros i next evs0 Hc _. inversion Hc; subst. rewrite exit_exc.
    match goal with K : CodeFacts.at_ _ _ _ _ _ _ |- _ => pose proof (except_step _ _ _ _ _ _ _ _ _ _ _ _ _ IHev1 H0 IHev2 K ltac:(eassumption) ltac:(eassumption) evs0) as X end.
    cbv iota in X. rewrite H2 in X. exact X.
  - intros i next evs0 Hc _. inversion Hc; subst. rewrite exit_exc.
    match goal with K : CodeFacts.at_ _ _ _ _ _ _ |- _ => pose proof (except_step _ _ _ _ _ _ _ _ _ _ _ _ _ IHev1 H0 IHev2 K ltac:(eassumption) ltac:(eassumption) evs0) as X end.
    destruct H2 as [(s2 & e2 & -> & Hn)|(l2 & s2 & e2 & ->)].
    + destruct (p_rest s2); [contradiction|]. exact X.
    + exact X.
  - intros i next evs0 Hc _. inversion Hc; subst. rewrite exit_exc.
    match goal with K : CodeFacts.at_ _ _ _ _ _ _ |- _ => pose proof (except_step _ _ _ _ _ _ _ _ _ _ _ _ _ IHev1 H0 IHev2 K ltac:(eassumption) ltac:(eassumption) evs0) as X end.
    exact X.
  - (* sequences *) intros i next evs Hc _. inversion Hc.
  - intros i next evs Hc He. cbn in He. subst next. cbn [exit].
    assert (K : code (NDefs d) i None).
    { assert (K : exists next, code (NTerm t) i next) by (inversion Hc; subst; eauto). destruct K as (nx & K).
      destruct t as [[k p] [e|]]; [destruct p; discriminate|]. destruct p; cbn in H; try discriminate. destruct (N.eqb_spec k 1) as [->|]; [|discriminate]. injection H as ->.
      inversion K; subst. match goal with Z : CodeFacts.code _ _ (NFactor _) _ _ |- _ => inversion Z; subst; [|congruence] end.
      match goal with Z : CodeFacts.code _ _ (NPrim _) _ _ |- _ => inversion Z; subst end. assumption. }
    exact (IHev i None evs K I).
  - intros i next evs0 Hc He. cbn in He. subst next. cbn [exit].
    assert (K : forall j next, code (NTerm t) j next -> concl j next evs0 s (Match s' evs)).
    { intros j nx Hj. pose proof (IHev1 j nx evs0 Hj I) as X. cbn [exit] in X. rewrite H in X. exact X. }
    inversion Hc as [| | | | | | | | | | |? ? ? Ht|? ? ? ? j ? Ht Hts| | |]; subst.
    + inversion H1; subst. cbn [before]. rewrite app_nil_r. exact (K _ _ Ht).
    + specialize (K _ _ Ht). pose proof (IHev2 j None (evs0 ++ evs) Hts eq_refl) as X. destruct o as [s2 e2|l2 s2 e2|h]; cbn [before concl exit] in *.
      * intros x Hx. apply K. apply X. rewrite <- app_assoc. exact Hx.
      * destruct X as (f0 & X). destruct (settle _ _ _ _ f0 X) as (x & Hx & Hfin). destruct (K _ Hfin) as (f1 & Hf1).
        exists f1. intros f Hle. rewrite (Hf1 f Hle). cbn in Hx |- *. rewrite app_assoc. exact Hx.
      * destruct X as (f0 & X). destruct (settle _ _ _ _ f0 X) as (x & Hx & Hfin). destruct (K _ Hfin) as (f1 & Hf1).
        exists f1. intros f Hle. rewrite (Hf1 f Hle). exact Hx.
  - intros i next evs0 Hc He. cbn in He. subst next. cbn [exit].
    assert (K : exists nx, code (NTerm t) i nx) by (inversion Hc; subst; eauto). destruct K as (nx & K). exact (IHev i nx evs0 K I).
  - intros i next evs0 Hc He. cbn in He. subst next. cbn [exit].
    assert (K : exists nx, code (NTerm t) i nx) by (inversion Hc; subst; eauto). destruct K as (nx & K). exact (IHev i nx evs0 K I).
  - intros i next evs Hc He. inversion Hc; subst. exact (IHev i None evs ltac:(assumption) eq_refl).
  - intros i next evs Hc _. inversion Hc; subst. match goal with K : CodeFacts.at_ _ _ _ _ _ _ |- _ => rename K into Hi end. apply concl_halt. exists 0. intros f _.
    rewrite (run_at _ _ _ _ _ _ _ _ _ Hi). cbn. eexists _, _. reflexivity.
  - (* definitions *) intros i next evs0 Hc _. inversion Hc; subst. match goal with K : CodeFacts.at_ _ _ _ _ _ _ |- _ => rename K into Hi end. cbn [exit].
    destruct (IHev subs ltac:(assumption)) as (f0 & Hf). apply concl_step. exists f0. intros f Hle. rewrite (run_at _ _ _ _ _ _ _ _ _ Hi). cbv beta zeta iota. specialize (Hf f Hle). cbn in Hf. rewrite (pbind_ok _ _ _ _ _ Hf). reflexivity.
  - intros i next evs0 Hc _. inversion Hc; subst. match goal with K : CodeFacts.at_ _ _ _ _ _ _ |- _ => rename K into Hi end. cbn [exit].
    destruct (IHev subs ltac:(assumption)) as (f0 & Hf). apply concl_halt. exists f0. intros f Hle. rewrite (run_at _ _ _ _ _ _ _ _ _ Hi). cbv beta zeta iota. specialize (Hf f Hle). apply halt_bind. exact Hf.
  - intros i next evs0 Hc _. inversion Hc; subst. match goal with K : CodeFacts.at_ _ _ _ _ _ _ |- _ => rename K into Hi end. cbn [exit].
    destruct (IHev subs ltac:(assumption)) as (f0 & Hf). apply concl_no. exists f0. intros f Hle. rewrite (run_at _ _ _ _ _ _ _ _ _ Hi). cbv beta zeta iota. specialize (Hf f Hle). cbn in Hf.
    destruct Hf as (-> & -> & es & er & Hp & -> & Hx0). rewrite (pbind_ok _ _ _ _ _ Hx0), Hp, (pbind_ok ploc _ s _ _ eq_refl).
    match goal with K : e_loc _ = p_at s |- _ => rewrite K end. rewrite loc_eqb_refl. eexists. split; [reflexivity|].
    rewrite (pbind_ok _ _ _ _ _ (pexpected_at g i s _ _ _ _ Hi)), app_nil_r. reflexivity.
  - intros i next evs0 Hc _. inversion Hc; subst. match goal with K : CodeFacts.at_ _ _ _ _ _ _ |- _ => rename K into Hi end. cbn [exit].
    destruct (IHev subs ltac:(assumption)) as (f0 & Hf). apply concl_no. exists f0. intros f Hle. rewrite (run_at _ _ _ _ _ _ _ _ _ Hi). cbv beta zeta iota. specialize (Hf f Hle). cbn in Hf.
    destruct Hf as (-> & -> & es & er & Hp & -> & Hx0). rewrite (pbind_ok _ _ _ _ _ Hx0), Hp, (pbind_ok ploc _ s _ _ eq_refl).
    match goal with K : e_loc ?e <> p_at s |- _ => destruct (loc_eqb (e_loc e) (p_at s)) eqn:El; [apply loc_eqb_eq in El; contradiction|] end.
    eexists. split; [reflexivity|]. rewrite app_nil_r. reflexivity.
  - (* alternatives *) intros subs Hc. inversion Hc as [|? ? i is Hi His]; subst. destruct (comp_sub _ _ _ _ [] IHev Hi) as (f0 & Hf). exists f0. intros f Hle. specialize (Hf f Hle). cbn in Hf.
    cbn [por_loop]. rewrite (pbind_ok pget _ s _ _ eq_refl), (pbind_ok _ _ _ _ _ Hf). reflexivity.
  - intros subs Hc. inversion Hc as [|? ? i is Hi His]; subst. destruct (comp_sub _ _ _ _ [] IHev Hi) as (f0 & Hf). exists f0. intros f Hle. specialize (Hf f Hle).
    cbn [por_loop]. rewrite (pbind_ok pget _ s _ _ eq_refl). destruct h as [er|]; cbn in *.
    + destruct Hf as (s' & Hf). exists s'. apply pbind_err. exact Hf.
    + destruct Hf as (p & s' & Hf). exists p, s'. apply pbind_panic. exact Hf.
  - intros subs Hc. inversion Hc as [|? ? i is Hi His]; subst. inversion His; subst. destruct (comp_sub _ _ _ _ [] IHev Hi) as (f0 & Hf). exists f0. intros f Hle. specialize (Hf f Hle). cbn in Hf.
    destruct Hf as (er & Hl & Hf). cbn [por_loop]. rewrite (pbind_ok pget _ s _ _ eq_refl), (pbind_ok _ _ _ _ _ Hf). rewrite (pbind_ok (pput s) _ s' tt s eq_refl).
    cbn. split; [reflexivity|]. split; [reflexivity|]. exists [er], er. auto.
  - intros subs Hc. inversion Hc as [|? ? i is Hi His]; subst. destruct (comp_sub _ _ _ _ [] IHev1 Hi) as (f0 & Hf). destruct (IHev2 is His) as (f1 & Hf1).
    exists (f0 + f1). intros f Hle. specialize (Hf f ltac:(lia)). specialize (Hf1 f ltac:(lia)). cbn in Hf. destruct Hf as (er & Hl & Hf).
    cbn [por_loop]. rewrite (pbind_ok pget _ s _ _ eq_refl), (pbind_ok _ _ _ _ _ Hf). rewrite (pbind_ok (pput s) _ s' tt s eq_refl).
    cbn in Hf1. rewrite (pbind_ok _ _ _ _ _ Hf1). reflexivity.
  - intros subs Hc. inversion Hc as [|? ? i is Hi His]; subst. destruct (comp_sub _ _ _ _ [] IHev1 Hi) as (f0 & Hf). destruct (IHev2 is His) as (f1 & Hf1).
    exists (f0 + f1). intros f Hle. specialize (Hf f ltac:(lia)). specialize (Hf1 f ltac:(lia)). cbn in Hf. destruct Hf as (er & Hl & Hf).
    cbn [por_loop]. rewrite (pbind_ok pget _ s _ _ eq_refl), (pbind_ok _ _ _ _ _ Hf). rewrite (pbind_ok (pput s) _ s' tt s eq_refl).
    cbn in Hf1. destruct Hf1 as (_ & _ & es & er2 & Hp & Hl2 & Hf1). rewrite (pbind_ok _ _ _ _ _ Hf1). cbn. split; [reflexivity|]. split; [reflexivity|].
    eexists (er :: es), _. split; [apply pick_last; exact Hp|]. split; [rewrite Hl, Hl2; reflexivity|reflexivity].
  - intros subs Hc. inversion Hc as [|? ? i is Hi His]; subst. destruct (comp_sub _ _ _ _ [] IHev1 Hi) as (f0 & Hf). destruct (IHev2 is His) as (f1 & Hf1).
    exists (f0 + f1). intros f Hle. specialize (Hf f ltac:(lia)). specialize (Hf1 f ltac:(lia)). cbn in Hf. destruct Hf as (er & Hl & Hf).
    cbn [por_loop]. rewrite (pbind_ok pget _ s _ _ eq_refl), (pbind_ok _ _ _ _ _ Hf). rewrite (pbind_ok (pput s) _ s' tt s eq_refl).
    destruct h as [e2|]; cbn in *.
    + destruct Hf1 as (s2 & Hf1). exists s2. apply pbind_err. exact Hf1.
    + destruct Hf1 as (p & s2 & Hf1). exists p, s2. apply pbind_panic. exact Hf1.
  - (* forwarding *) intros a evs Hla. destruct (Hg id) as (HA & _). destruct (HA r H) as (a' & Hla' & Hca & _). assert (a' = a) by congruence. subst a'.
    exact (comp_sub _ _ _ _ evs IHev Hca).
  - intros a evs Hla. destruct (Hg id) as (_ & HB & _). destruct (HB r H H0) as (a' & Hla' & Hca). assert (a' = a) by congruence. subst a'.
    apply concl_none. exact (IHev a None _ evs Hca).
Qed.
End Complete.
